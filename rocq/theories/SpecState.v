(** What the methods do with a matcher that has memory: whom they ask, in which order, and
    that the result is what some matcher without memory would have given. *)

From Verif Require Export SpecTokens ModelState.

Section SpecState.
Context {U : UserTypes}.

(** A matcher without memory, among those with memory. *)
Definition memoryless {M A} (m : matcher A) : mem_matcher M A := fun d l st => (st, m d l).

(** The same matcher, also writing down what it is asked. *)
Definition recording {M A} (mm : mem_matcher M A) : mem_matcher (M * list direction) A :=
  fun d l '(st, tr) => let '(st', r) := mm d l st in ((st', tr ++ [d]), r).

(** The memory after the questions [tr] about line [l], from memory [st]. *)
Definition memory_after {M A} (mm : mem_matcher M A) (l : LLLine) (tr : list direction) (st : M) : M :=
  fold_left (fun st d => fst (mm d l st)) tr st.

(** [with_memory], called with [mm], asks about line [l] the questions [ds] in turn and no
    others (all of them unless it panics); its result is that of [without], called with a
    matcher that gives to each question the answer that [mm] gave, and to every other question
    one of the answers of [mm]. *)
Definition asks_in_turn {A R M} (l : LLLine) (ds : list direction)
    (with_memory : forall M, mem_matcher M A -> mem M R) (without : matcher A -> res R)
    (mm : mem_matcher M A) (st : M) : Prop :=
  exists tr more m,
    ds = tr ++ more
    /\ with_memory M mm st = (memory_after mm l tr st, without m)
    /\ with_memory _ (recording mm) (st, []) = ((memory_after mm l tr st, tr), without m)
    /\ (forall x, without m = Ok x -> more = [])
    /\ (forall before d after, tr = before ++ d :: after ->
          m d l = snd (mm d l (memory_after mm l before st)))
    /\ (forall d, exists st', m d l = snd (mm d l st')).

(** A matcher that notes, in a shared log, its own number and the question. *)
Definition noting {A} (n : nat) (m : matcher A) : mem_matcher (list (nat * direction)) A :=
  fun d l log => (log ++ [(n, d)], m d l).

(** Lines made with resolvers that have memory; between two runs anything may happen to it. *)
Inductive remembering {UC : Unicode} (M : Type) : LLLine -> list entry -> M -> Prop :=
| R_start l lg st : History l lg -> remembering M l lg st
| R_run l lg st t id (r : mem_resolver M t) g l' st' :
    remembering M l lg st -> ll_tokens l <> [] ->
    snd (r (whole id l) st) = Ok g -> mem_run id l r st = (st', Ok l') ->
    remembering M l' (lg ++ map assignment_entry (go_assignments g)) st'
| R_run_empty l lg st t id (r : mem_resolver M t) l' st' :
    remembering M l lg st -> ll_tokens l = [] -> mem_run id l r st = (st', Ok l') ->
    remembering M l' lg st'
| R_between l lg st st' : remembering M l lg st -> remembering M l lg st'.

End SpecState.
