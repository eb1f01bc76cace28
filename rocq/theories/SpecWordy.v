(** Texts of words and punctuation marks, and what they are read as (C94). *)

From Verif Require Export SpecSentence SpecEnd.

Local Open Scope list_scope.

(** Words, each perhaps with a punctuation mark behind, with a space between two of them. *)
Definition Wordy : Type := list (str * option char).
Definition mark_text (c : option char) : str := match c with Some c => [c] | None => [] end.
Definition wordy_text (ws : Wordy) : str := spaced (map (fun p => fst p ++ mark_text (snd p)) ws).

(** Letters with apostrophes, periods (and colons) between them, or digits. *)
Definition proper_wordy (colon : bool) (ws : Wordy) : Prop :=
  ws <> [] /\ Forall (fun p => proper_word colon (fst p) /\ forall c, snd p = Some c -> documented_punctuation c) ws.

(** Digits are a number; letters and apostrophes are a word; with a period or a colon it is a symbol. *)
Definition word_kind (w : str) : TextTag :=
  if forallb (fun c => (48 <=? c) && (c <=? 57))%N w then NATN
  else if existsb (fun c => (c =? 46) || (c =? 58))%N w then SYMB else WORD.

Fixpoint read_as (ws : Wordy) : list (str * TextTag) :=
  match ws with
  | [] => []
  | (w, c) :: ws =>
    (w, word_kind w) :: match c with Some c => [([c], PUNC)] | None => [] end
    ++ match ws with [] => [] | _ => ([32%N], SPACE) :: read_as ws end
  end.

(** The pieces that [f] gives values to: the text before, the piece, the values. *)
Fixpoint valued {V} (f : str -> TextTag -> list V) (before : str) (xs : list (str * TextTag)) : list (str * str * list V) :=
  match xs with
  | [] => []
  | (t, tag) :: xs => match f t tag with [] => [] | vs => [(before, t, vs)] end ++ valued f (before ++ t) xs
  end.

Section Rows.
Context {UC : Unicode} {U : UserTypes}.
(** The row of a query for such a piece: on the one token at this place. *)
Definition piece_row {V} (l : LLLine) (x : str * str * list V) (row : LRange * str * list V) : Prop :=
  let '(b, t, vs) := x in
  exists i, row = ((i, i), t, vs) /\ i < length (ll_tokens l)
    /\ concat (firstn i (token_texts l)) = b /\ concat (firstn (S i) (token_texts l)) = b ++ t.
End Rows.
