(** Specification vocabulary for positions counted in any unit (C67) and for the parts
    left by any matches (C27). *)

From Verif Require Export SpecJoin SpecSel.

Section SpecSlice.
Context {UC : Unicode} {U : UserTypes}.

(** Sizes that add up: bytes, UTF-16 code units, chars, columns, ... *)
Definition additive (sz : str -> N) : Prop := forall a b, sz (a ++ b) = (sz a + sz b)%N.

(** Number of UTF-16 code units, the size function of src/tests.rs:13 and of
    examples/examples/position_of_speech.rs:10. *)
Definition utf16_len (s : str) : N :=
  fold_right (fun c n => ((if (c <? 65536)%N then 1 else 2) + n)%N) 0%N s.

(** The inputs as one sequence of chars and custom tokens (given by their size). *)
Definition source_items (input : list InputToken) : list (char + N) :=
  flat_map (fun it => match it with InText s _ => map inl s | InCustom n _ => [inr n] end) input.
Definition extent (sz : str -> N) (xs : list (char + N)) : N :=
  fold_right (fun x n => (match x with inl c => sz [c] | inr k => k end + n)%N) 0%N xs.
Definition chars_of (xs : list (char + N)) : str :=
  flat_map (fun x => match x with inl c => [c] | inr _ => [] end) xs.

(** [text] is what the inputs have from position [p] to position [q]. *)
Definition source_part (sz : str -> N) (input : list InputToken) (p q : N) (text : str) : Prop :=
  exists before mid after, source_items input = before ++ mid ++ after
    /\ extent sz before = p /\ extent sz (before ++ mid) = q /\ chars_of mid = text.

End SpecSlice.

Section SpecSplit.
Context {UC : Unicode} {U : UserTypes}.

(** The last match found that starts at or before token [k] reaches it. *)
Definition last_reaches {A} (found : list (LLSelection * A)) (k : nat) : Prop :=
  exists before x after, found = before ++ x :: after /\ covers (fst x) k
    /\ forall y, In y after -> k < start_idx (fst y).

End SpecSplit.
