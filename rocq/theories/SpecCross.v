(** Specification vocabulary for matches on joined inputs (C68). *)

From Verif Require Export SpecLayer SpecJoin.

Section SpecCross.
Context {UC : Unicode} {U : UserTypes}.

(** No [any_of], and no [seq], anywhere in the expression. *)
Fixpoint without_any_of {A} (e : mexp A) : bool :=
  match e with
  | M_attr _ | M_attr_eq _ _ _ | M_has_any _ _ _ | M_text => true
  | M_all2 _ _ a b | M_seq2 _ _ a b => without_any_of a && without_any_of b
  | M_all3 _ _ _ a b c | M_seq3 _ _ _ a b c => without_any_of a && without_any_of b && without_any_of c
  | M_any2 _ _ _ _ | M_any3 _ _ _ _ _ _ => false
  end.
Fixpoint without_seq {A} (e : mexp A) : bool :=
  match e with
  | M_attr _ | M_attr_eq _ _ _ | M_has_any _ _ _ | M_text => true
  | M_all2 _ _ a b | M_any2 _ _ a b => without_seq a && without_seq b
  | M_all3 _ _ _ a b c | M_any3 _ _ _ a b c => without_seq a && without_seq b && without_seq c
  | M_seq2 _ _ _ _ | M_seq3 _ _ _ _ _ _ => false
  end.

(** The ranges that lie between token [lo] (included) and token [hi] (excluded). *)
Definition within {A} (lo hi : nat) (l : list (LRange * A)) : list (LRange * A) :=
  filter (fun x => (lo <=? fst (fst x)) && (snd (fst x) <? hi)) l.

(** The same values [k] tokens further right. *)
Definition shifted {A} (k : nat) (l : list (LRange * A)) : list (LRange * A) :=
  map (fun x => (moved_range k (fst x), snd x)) l.

End SpecCross.
