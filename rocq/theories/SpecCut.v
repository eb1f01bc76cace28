(** Specification vocabulary for cutting ASCII text into pieces (C96). *)

From Verif Require Export SpecAscii SpecSeam SpecCurrency.

Local Open Scope list_scope.

(** White space on one side, and neither a line end nor a run of spaces cut in two. *)
Definition blank_seam (s1 s2 : str) : Prop :=
  (ends_in s1 ascii_space \/ starts_in s2 ascii_space)
  /\ ~ (ends_in s1 (is 13%N) /\ starts_in s2 (is 10%N))
  /\ ~ (ends_in s1 (is 32%N) /\ starts_in s2 (is 32%N)).

(** Pieces that begin and end where no rule forbids a word boundary. *)
Inductive pieces (colon : bool) : list str -> Prop :=
| P_last s : s <> [] -> pieces colon [s]
| P_more s ss : s <> [] -> ~ unbroken colon s (concat ss) -> pieces colon ss -> pieces colon (s :: ss).

(** A character that is no part of a number on one side. *)
Definition no_number_char (r : AmountResolver) (c : char) : Prop := ~ ascii_digit c /\ ~ In c (signs r).
Definition still_seam (r : AmountResolver) (s1 s2 : str) : Prop :=
  ends_in s1 (no_number_char r) \/ starts_in s2 (no_number_char r).

(** Punctuation on one side. *)
Definition marked_seam (s1 s2 : str) : Prop :=
  ends_in s1 documented_punctuation \/ starts_in s2 documented_punctuation.

(** Rows of lines side by side: each line with the number of its tokens. *)
Fixpoint in_sequence {A} (k : nat) (lines : list (nat * list (LRange * str * list A))) : list (LRange * str * list A) :=
  match lines with
  | [] => []
  | (n, rows) :: more => map (moved_row k) rows ++ in_sequence (k + n) more
  end.

Section SpecCut.
Context {UC : Unicode} {U : UserTypes}.

(** A step that does not look across such a cut. *)
Definition stays_apart (s1 s2 : str) (s : N * step) : Prop :=
  match snd s with
  | RunTextMatch t _ => t <> TTextTag /\ t <> TChar
  | RunAmount _ r => still_seam r s1 s2
  | RunClause => False
  | _ => True
  end.

(** What a resolver run reports on one piece, and how many tokens the piece has. *)
Definition piece_reported tg sz (id : N) (s : any_step) (text : str) (part : nat * list (LRange * str * list (den (writes s)))) : Prop :=
  exists l l', create_line_from_input_tokens tg [InText text []] sz = Ok l /\ length (ll_tokens l) = fst part
    /\ run_any id l s = Ok l' /\ query l' (writes s) = Ok (snd part).
End SpecCut.
