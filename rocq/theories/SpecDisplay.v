(** Specification of the display of a line. *)

From Verif Require Export SpecSel.

Section SpecDisplay.
Context {UC : Unicode} {U : UserTypes}.

(** What is shown for a token. *)
Definition shown (tok : LLToken) : str :=
  match token tok with LText s _ => s | LValue => [60 (* < *); 62 (* > *)]%N end.

Fixpoint join (sep : str) (ts : list str) : str :=
  match ts with
  | [] => []
  | [t] => t
  | t :: ts' => t ++ sep ++ join sep ts'
  end.

Definition two_spaces : str := [32; 32]%N.

(** The first row: the tokens separated by two spaces. *)
Definition first_row (toks : list LLToken) : str := join two_spaces (map shown toks).

(** The part of the first row before token [i], and up to its end. *)
Definition row_before (toks : list LLToken) (i : nat) : str :=
  flat_map (fun tok => shown tok ++ two_spaces) (firstn i toks).
Definition row_upto (toks : list LLToken) (i : nat) : str :=
  row_before toks i ++ match nth_error toks i with Some tok => shown tok | None => [] end.

(** Number of columns of a text. *)
Fixpoint columns (s : str) : nat := match s with [] => 0 | c :: s' => u_width c + columns s' end.

(** An underline of [w] columns (never less than one character). *)
Definition underline (w : nat) : str :=
  match w with
  | O | S O => [9584 (* U+2570 *)]%N
  | S (S k) => [9584]%N ++ repeat 9472%N (* U+2500 *) k ++ [9583 (* U+256F *)]%N
  end.

(** One attribute row. *)
Definition attribute_row (toks : list LLToken) (row : LRange * str) : str :=
  let '((s, e), text) := row in
  let c1 := columns (row_before toks s) in
  let c2 := columns (row_upto toks e) in
  [10]%N ++ repeat 32%N c1 ++ underline (c2 - c1) ++ text.

(** The rows of one included type: by first assignment of the range, the latest
    value of a range first. *)
Definition included (t : ty) (dbg : den t -> str) (lg : list entry) : list (LRange * str) :=
  flat_map (fun r => map (fun v => (r, dbg v)) (rev (values_on t r lg))) (ranges_of t lg).

End SpecDisplay.
