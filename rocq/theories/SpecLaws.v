(** Specification vocabulary for laws between operations: searching side by side (C60),
    sizes (C61), attributes given with the input (C62), repeated runs (C63). *)

From Verif Require Export SpecOrder SpecSel.

Section SpecLaws.
Context {UC : Unicode} {U : UserTypes}.

(** Both selections are of the same line, and [q] starts where [p] ends. *)
Definition side_by_side (p q : LLSelection) : Prop :=
  sel_line p = sel_line q /\ start_idx p <= end_idx p /\ start_idx q = S (end_idx p) /\ start_idx q <= end_idx q.
Definition together (p q : LLSelection) : LLSelection := mkSel (sel_line p) (start_idx p) (end_idx q).

(** First one search, then another, panicking when one does. *)
Definition both {A} (x y : res (list A)) : res (list A) := a <- x;; b <- y;; Ok (a ++ b).
Definition search {A} (f : LLSelection -> res (list A)) (o : option LLSelection) : res (list A) :=
  match o with Some p => f p | None => Ok [] end.

(** Extending each of a list of found selections. *)
Definition extended {A B} (ext : LLSelection -> res (list (LLSelection * B))) (found : list (LLSelection * A))
  : res (list (LLSelection * (A * B))) :=
  flat_mapM (fun '(p, a) => r <- ext p;; Ok (map (fun '(q, b) => (q, (a, b))) r)) found.

(** The input token with another declared size. *)
Inductive resized : InputToken -> InputToken -> Prop :=
| RS_text text ats : resized (InText text ats) (InText text ats)
| RS_custom n n' ats : resized (InCustom n ats) (InCustom n' ats).

(** The two lines answer alike except for positions. *)
Definition same_but_positions (l l' : LLLine) : Prop :=
  map token (ll_tokens l) = map token (ll_tokens l')
  /\ (forall t, query l t = query l' t)
  /\ (forall has A (m : matcher A) d, lib_matcher any_ty has A m -> m d l = m d l')
  /\ (forall has A (m : matcher A), lib_matcher any_ty has A m -> rmap (map found) (find l m) = rmap (map found) (find l' m))
  /\ (forall tg incs, show tg l incs = show tg l' incs).

(** An input token without its attributes. *)
Definition bare (it : InputToken) : InputToken :=
  match it with InText text _ => InText text [] | InCustom n _ => InCustom n [] end.

(** A resolver that makes this one assignment, whatever the line. *)
Definition assigning (r : LRange) (t : ty) (v : den t) : Resolver t :=
  fun _ => Ok (mkGo [mkAssign (fst r) (snd r) v] false).

(** A line after a list of such runs. *)
Inductive after_assigning : LLLine -> list entry -> LLLine -> Prop :=
| AW_done l : after_assigning l [] l
| AW_step id r t v es l l' l'' : run id l (assigning r t v) = Ok l' -> after_assigning l' es l'' ->
    after_assigning l ((r, mkany t v) :: es) l''.

(** The values a query reports for a range. *)
Definition reported {A} (rows : list (LRange * str * list A)) (r : LRange) : list A :=
  flat_map (fun '(r', _, vs) => if range_eqb r' r then vs else []) rows.

End SpecLaws.
