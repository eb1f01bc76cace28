(** Specification of attribute matching in terms of the log. *)

From Verif Require Export SpecTokens ModelDisplay.

Section SpecMatch.
Context {U : UserTypes}.

(** The values of type [t] on ranges starting at token [i], each with the end of
    its range; as often as assigned, in order of assignment. *)
Definition starting_at (t : ty) (i : nat) (lg : list entry) : list (den t * nat) :=
  filter_map (fun '(r, v) => if Nat.eqb (fst r) i then Some (v, snd r) else None) (assigned t lg).

(** The values of type [t] on ranges ending at token [i], each with the start of
    its range. *)
Definition ending_at (t : ty) (i : nat) (lg : list entry) : list (den t * nat) :=
  filter_map (fun '(r, v) => if Nat.eqb (snd r) i then Some (v, fst r) else None) (assigned t lg).

(** Keeping the matches whose value passes a test. *)
Definition passing {A} (p : A -> bool) (ms : list (A * nat)) : list (A * nat) :=
  filter (fun x => p (fst x)) ms.

(** What a matcher must satisfy for selections to stay inside a line of [n]
    tokens: tried at a token, matches end at a token, in the right direction. *)
Definition dir_idx (d : direction) : nat := match d with Fwd i => i | Bwd i => i end.
Definition inside (n : nat) (d : direction) (j : nat) : Prop :=
  match d with Fwd i => i <= j < n | Bwd i => j <= i end.
Definition bounded {A} (m : matcher A) (l : LLLine) : Prop :=
  forall d ms a j, dir_idx d < length (ll_tokens l) -> m d l = Ok ms -> In (a, j) ms ->
    inside (length (ll_tokens l)) d j.
(** ... and it does not panic there. *)
Definition safe {A} (m : matcher A) (l : LLLine) : Prop :=
  forall d, dir_idx d < length (ll_tokens l) -> exists ms, m d l = Ok ms.

(** Some attribute is assigned to exactly the token [i]. *)
Definition attributed (i : nat) (lg : list entry) : Prop := In (i, i) (map fst lg).

(** Displaying a line with a list of included types (each with its [Debug]). *)
Definition show {UC : Unicode} (tg : Target) (l : LLLine)
    (incs : list { t : ty & den t -> str }) : res str :=
  d <- foldM (fun d x => display_include (projT1 x) (projT2 x) d) incs (display_new l);;
  display tg d.

Definition assignments_in (n : nat) {t} (ass : list (LLCursorAssignment t)) : Prop :=
  Forall (fun x => as_start x < n /\ as_end x < n) ass.

Definition range_ordered (r : LRange) : Prop := fst r <= S (snd r).

(** The (range, value) pairs reported by a query. *)
Definition pairs {A} (q : list (LRange * str * list A)) : list (LRange * A) :=
  flat_map (fun '(r, _, vs) => map (pair r) vs) q.

Definition row_extends {A} (row row' : LRange * str * list A) : Prop :=
  fst row' = fst row /\ exists vs, snd row' = snd row ++ vs.

(** Insertion of a value either directly or as an AnyAttribute. *)
Definition insert_either (tb : TypeBucket) (x : bool * any) : res TypeBucket :=
  if fst x then tb_insert tb (projT1 (snd x)) (projT2 (snd x))
  else tb_insert_any_attribute tb (any_attribute_new (projT1 (snd x)) (projT2 (snd x))).

(** Values matched between [i] and [j]. *)
Definition at_end {A} (e : nat) (ms : list (A * nat)) : list A :=
  map fst (filter (fun x => Nat.eqb (snd x) e) ms).

(** Forward and backward matches of [m] between any two tokens agree. *)
Definition agrees {A} (m : matcher A) (l : LLLine) : Prop :=
  forall i j fs bs, i < length (ll_tokens l) -> j < length (ll_tokens l) ->
    m (Fwd i) l = Ok fs -> m (Bwd j) l = Ok bs -> Permutation (at_end j fs) (at_end i bs).

(** The point right after (before, going backwards) a match ending at [j]. *)
Definition next_point (n : nat) (d d' : direction) (j : nat) : Prop :=
  match d, d' with
  | Fwd _, Fwd k => k = j + 1 /\ k < n
  | Bwd _, Bwd k => j = k + 1
  | _, _ => False
  end.

Definition proper (lg : list entry) : Prop := Forall (fun e => fst (fst e) <= snd (fst e)) lg.

End SpecMatch.
