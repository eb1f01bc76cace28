(** Specification vocabulary for configurations that are extended (C99). *)

From Verif Require Export SpecPass SpecEnd.

Local Open Scope list_scope.

Section SpecFiner.
Context {UC : Unicode} {U : UserTypes}.

(** [r'] knows every word of [r], perhaps in another role, and maybe more. *)
Definition more_words (r r' : ClauseKeywordResolver) : Prop := forall w, configured r w -> configured r' w.

(** [r'] has every delimiter of [r] and the same decimal sign, which is not one of the new delimiters. *)
Definition more_delimiters (r r' : AmountResolver) : Prop :=
  decimal r' = decimal r
  /\ (forall c, In c (delimiters r) -> In c (delimiters r'))
  /\ (In (decimal r) (delimiters r') -> In (decimal r) (delimiters r)).

(** What [x] covers. *)
Definition lies_in {A B V W} (x : LRange * A * V) (y : LRange * B * W) : Prop :=
  fst (fst (fst y)) <= fst (fst (fst x)) /\ snd (fst (fst x)) <= snd (fst (fst y)).

(** [x] goes from the start of the first of [g] to the end of the last, and spells what they spell. *)
Definition put_together (g : list (LRange * str)) (x : LRange * str) : Prop :=
  exists first last, nth_error g 0 = Some first /\ nth_error g (length g - 1) = Some last
    /\ fst x = (fst (fst first), snd (fst last)) /\ snd x = concat (map snd g).

(** Neighbours of the first list put together make up the second. *)
Inductive grouped : list (LRange * str) -> list (LRange * str) -> Prop :=
| grouped_nil : grouped [] []
| grouped_cons g x xs ys : put_together g x -> grouped xs ys -> grouped (g ++ xs) (x :: ys).

End SpecFiner.
