(** Lines that differ only in the values of their attributes. *)

From Verif Require Export SpecOrder.

Section SpecOpaque.
Context {UC : Unicode} {U : UserTypes}.

(** [Val t v w]: the value [v] of type [t] has been exchanged for [w]. *)
Context (Val : forall t : ty, den t -> den t -> Prop).

Inductive any_corr : any -> any -> Prop :=
| Any_corr t v w : Val t v w -> any_corr (mkany t v) (mkany t w).

(** The same tokens; the same ranges were given values of the same types in the same order; the values
    correspond. *)
Definition lines_corr (l l' : LLLine) : Prop :=
  ll_tokens l = ll_tokens l'
  /\ exists lg lg', History l lg /\ History l' lg'
     /\ Forall2 (fun e e' => fst e = fst e' /\ any_corr (snd e) (snd e')) lg lg'.

(** Corresponding results: both answer, or both panic, with the same message. *)
Definition results_corr {A B} (Q : A -> B -> Prop) (x : res A) (y : res B) : Prop :=
  match x, y with
  | Ok a, Ok b => Q a b
  | Panic p, Panic q => p = q
  | OutOfFuel, OutOfFuel => True
  | _, _ => False
  end.

(** The second components are equal, the first correspond. *)
Definition with_index {A B C} (Q : A -> B -> Prop) (x : A * C) (y : B * C) : Prop := snd x = snd y /\ Q (fst x) (fst y).

(** Matchers that answer alike on the two lines. *)
Definition matchers_corr {A B} (Q : A -> B -> Prop) (l l' : LLLine) (m : matcher A) (m' : matcher B) : Prop :=
  forall d, results_corr (Forall2 (with_index Q)) (m d l) (m' d l').

Definition both {A B C D} (Q : A -> B -> Prop) (Q' : C -> D -> Prop) (x : A * C) (y : B * D) : Prop :=
  Q (fst x) (fst y) /\ Q' (snd x) (snd y).
Definition either2 {A B C D} (Q : A -> B -> Prop) (Q' : C -> D -> Prop) (x : AnyOf2 A C) (y : AnyOf2 B D) : Prop :=
  match x, y with A2_A a, A2_A b => Q a b | A2_B a, A2_B b => Q' a b | _, _ => False end.
Definition either3 {A B C D E F} (Q : A -> B -> Prop) (Q' : C -> D -> Prop) (Q'' : E -> F -> Prop)
    (x : AnyOf3 A C E) (y : AnyOf3 B D F) : Prop :=
  match x, y with A3_A a, A3_A b => Q a b | A3_B a, A3_B b => Q' a b | A3_C a, A3_C b => Q'' a b | _, _ => False end.

(** A comparison that cannot tell a value from the one it was exchanged for; a choice likewise. *)
Definition blind_eq (t : ty) (eqT eqT' : den t -> den t -> bool) (v v' : den t) : Prop :=
  forall a a', Val t a a' -> eqT a v = eqT' a' v'.
Definition blind_set (t : ty) (eqT eqT' : den t -> den t -> bool) (set set' : list (den t)) : Prop :=
  forall a a', Val t a a' -> existsb (fun s => eqT s a) set = existsb (fun s => eqT' s a') set'.
(** A [Debug] likewise. *)
Definition blind_shown (x x' : { t : ty & den t -> str }) : Prop :=
  exists t dbg dbg', x = existT _ t dbg /\ x' = existT _ t dbg' /\ forall v v', Val t v v' -> dbg v = dbg' v'.

(** A row of a query: the range, the text, the values. *)
Definition rows_corr (t : ty) (x y : LRange * str * list (den t)) : Prop :=
  fst x = fst y /\ Forall2 (Val t) (snd x) (snd y).

(** Selections of the two lines with the same ends; found values. *)
Definition sels_corr (l l' : LLLine) (s s' : LLSelection) : Prop :=
  line_of s = l /\ line_of s' = l' /\ start_idx s = start_idx s' /\ end_idx s = end_idx s'.
Definition opts_corr {A B} (Q : A -> B -> Prop) (x : option A) (y : option B) : Prop :=
  match x, y with Some a, Some b => Q a b | None, None => True | _, _ => False end.
Definition finds_corr {A B} (Q : A -> B -> Prop) (x : LLLineFind A) (y : LLLineFind B) : Prop :=
  start_pos_at x = start_pos_at y /\ end_pos_at x = end_pos_at y /\ Q (found x) (found y).

(** Programs of matchers written by users that handle values without looking into them: given corresponding
    answers they go on alike. *)
Inductive programs_corr : forall {A B}, (A -> B -> Prop) -> program A -> program B -> Prop :=
| PC_return A B (Q : A -> B -> Prop) out out' : Forall2 (with_index Q) out out' -> programs_corr Q (P_return _ out) (P_return _ out')
| PC_attr A B (Q : A -> B -> Prop) d t k k' :
    (forall r r', Forall2 (with_index (Val t)) r r' -> programs_corr Q (k r) (k' r')) -> programs_corr Q (P_attr _ d t k) (P_attr _ d t k')
| PC_attr_eq A B (Q : A -> B -> Prop) d t eqT eqT' v v' k k' : blind_eq t eqT eqT' v v' ->
    (forall r, programs_corr Q (k r) (k' r)) -> programs_corr Q (P_attr_eq _ d t eqT v k) (P_attr_eq _ d t eqT' v' k')
| PC_one_of A B (Q : A -> B -> Prop) d t eqT eqT' set set' k k' : blind_set t eqT eqT' set set' ->
    (forall r r', Forall2 (with_index (Val t)) r r' -> programs_corr Q (k r) (k' r')) ->
    programs_corr Q (P_one_of _ d t eqT set k) (P_one_of _ d t eqT' set' k')
| PC_text A B (Q : A -> B -> Prop) d k k' : (forall r, programs_corr Q (k r) (k' r)) -> programs_corr Q (P_text _ d k) (P_text _ d k')
| PC_after A B (Q : A -> B -> Prop) d idx k k' : (forall r, programs_corr Q (k r) (k' r)) -> programs_corr Q (P_after _ d idx k) (P_after _ d idx k')
| PC_tokens A B (Q : A -> B -> Prop) k k' : (forall r, programs_corr Q (k r) (k' r)) -> programs_corr Q (P_tokens _ k) (P_tokens _ k')
| PC_query A B (Q : A -> B -> Prop) t k k' :
    (forall r r', Forall2 (rows_corr t) r r' -> programs_corr Q (k r) (k' r')) -> programs_corr Q (P_query _ t k) (P_query _ t k')
| PC_find A B (Q : A -> B -> Prop) C D (Q' : C -> D -> Prop) go go' k k' : (forall d, programs_corr Q' (go d) (go' d)) ->
    (forall r r', Forall2 (finds_corr Q') r r' -> programs_corr Q (k r) (k' r')) -> programs_corr Q (P_find _ C go k) (P_find _ D go' k')
| PC_show A B (Q : A -> B -> Prop) tg incs incs' k k' : Forall2 blind_shown incs incs' ->
    (forall r, programs_corr Q (k r) (k' r)) -> programs_corr Q (P_show _ tg incs k) (P_show _ tg incs' k')
| PC_panic A B (Q : A -> B -> Prop) p : programs_corr Q (P_panic _ p) (P_panic _ p).

(** What corresponding resolvers return. *)
Definition assignments_corr {t} (x y : LLCursorAssignment t) : Prop :=
  as_start x = as_start y /\ as_end x = as_end y /\ Val t (as_value x) (as_value y).
Definition gos_corr {t} (g g' : GoResult t) : Prop :=
  go_retained g = go_retained g' /\ Forall2 assignments_corr (go_assignments g) (go_assignments g').
(** Resolvers that hand corresponding lines' selections to corresponding assignments. *)
Definition resolvers_corr {t} (r r' : Resolver t) : Prop :=
  forall id id' l l', lines_corr l l' -> results_corr gos_corr (r (whole id l)) (r' (whole id' l')).

(** Calls of the methods of selections, with corresponding matchers; [Q] relates the answers. *)
Definition answers_corr {A B} (Q : A -> B -> Prop) (x : LRange * A) (y : LRange * B) : Prop := fst x = fst y /\ Q (snd x) (snd y).
Inductive calls_corr : forall {X Y}, (X -> Y -> Prop) -> call X -> call Y -> Prop :=
| KC_split_by s A B (Q : A -> B -> Prop) go go' : (forall d, programs_corr Q (go d) (go' d)) ->
    calls_corr eq (Call_split_by s A go) (Call_split_by s B go')
| KC_find_by s A B (Q : A -> B -> Prop) go go' : (forall d, programs_corr Q (go d) (go' d)) ->
    calls_corr (Forall2 (answers_corr Q)) (Call_find_by s A go) (Call_find_by s B go')
| KC_find_first_by s A B (Q : A -> B -> Prop) go go' : (forall d, programs_corr Q (go d) (go' d)) ->
    calls_corr (opts_corr (answers_corr Q)) (Call_find_first_by s A go) (Call_find_first_by s B go')
| KC_find_both s A B (Q : A -> B -> Prop) go go' : (forall d, programs_corr Q (go d) (go' d)) ->
    calls_corr (Forall2 (answers_corr Q)) (Call_find_both s A go) (Call_find_both s B go')
| KC_match_forwards s A B (Q : A -> B -> Prop) go go' : (forall d, programs_corr Q (go d) (go' d)) ->
    calls_corr (Forall2 (answers_corr Q)) (Call_match_forwards s A go) (Call_match_forwards s B go')
| KC_match_first_forwards s A B (Q : A -> B -> Prop) go go' : (forall d, programs_corr Q (go d) (go' d)) ->
    calls_corr (opts_corr (answers_corr Q)) (Call_match_first_forwards s A go) (Call_match_first_forwards s B go')
| KC_match_backwards s A B (Q : A -> B -> Prop) go go' : (forall d, programs_corr Q (go d) (go' d)) ->
    calls_corr (Forall2 (answers_corr Q)) (Call_match_backwards s A go) (Call_match_backwards s B go')
| KC_match_first_backwards s A B (Q : A -> B -> Prop) go go' : (forall d, programs_corr Q (go d) (go' d)) ->
    calls_corr (opts_corr (answers_corr Q)) (Call_match_first_backwards s A go) (Call_match_first_backwards s B go')
| KC_after s : calls_corr eq (Call_after s) (Call_after s)
| KC_split_with s o : calls_corr eq (Call_split_with s o) (Call_split_with s o)
| KC_trim s A B (Q : A -> B -> Prop) go go' : (forall d, programs_corr Q (go d) (go' d)) ->
    calls_corr eq (Call_trim s A go) (Call_trim s B go')
| KC_trim_start s A B (Q : A -> B -> Prop) go go' : (forall d, programs_corr Q (go d) (go' d)) ->
    calls_corr eq (Call_trim_start s A go) (Call_trim_start s B go')
| KC_trim_end s A B (Q : A -> B -> Prop) go go' : (forall d, programs_corr Q (go d) (go' d)) ->
    calls_corr eq (Call_trim_end s A go) (Call_trim_end s B go').

(** Resolvers written by users that handle values without looking into them. *)
Inductive codes_corr {t} : code t -> code t -> Prop :=
| CC_done out out' keeps : Forall2 (answers_corr (Val t)) out out' -> codes_corr (C_done _ out keeps) (C_done _ out' keeps)
| CC_call X Y (Q : X -> Y -> Prop) c c' k k' : calls_corr Q c c' -> (forall x y, Q x y -> codes_corr (k x) (k' y)) ->
    codes_corr (C_call _ X c k) (C_call _ Y c' k')
| CC_panic p : codes_corr (C_panic _ p) (C_panic _ p).

(** Input tokens with corresponding attributes. *)
Definition attributes_corr (a a' : AnyAttribute) : Prop :=
  exists t v w, a = any_attribute_new t v /\ a' = any_attribute_new t w /\ Val t v w.
Definition inputs_corr (it it' : InputToken) : Prop :=
  match it, it' with
  | InText text ats, InText text' ats' => text = text' /\ Forall2 attributes_corr ats ats'
  | InCustom size ats, InCustom size' ats' => size = size' /\ Forall2 attributes_corr ats ats'
  | _, _ => False
  end.

(** Any number of runs of corresponding resolvers. *)
Inductive layers_corr : list (N * { t : ty & Resolver t }) -> list (N * { t : ty & Resolver t }) -> Prop :=
| LC_done : layers_corr [] []
| LC_run id id' t (r r' : Resolver t) rs rs' : resolvers_corr r r' -> layers_corr rs rs' ->
    layers_corr ((id, existT _ t r) :: rs) ((id', existT _ t r') :: rs').
Fixpoint run_layers (l : LLLine) (rs : list (N * { t : ty & Resolver t })) : res LLLine :=
  match rs with
  | [] => Ok l
  | (id, existT _ _ r) :: rs' => l' <- run id l r;; run_layers l' rs'
  end.

End SpecOpaque.
