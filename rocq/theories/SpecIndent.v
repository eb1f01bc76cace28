(** Specification of printed values: one description of a value, and its two layouts. *)

From Coq Require Import Strings.String Strings.Ascii.
From Verif Require Export ModelIndent SpecPrint.
Local Open Scope string_scope.
Local Open Scope list_scope.

(** What a printed value consists of. *)
Inductive form : Type :=
| Simple (text : str)
| Fields (name : string) (fields : list (string * form))
| Parts (name : string) (parts : list form)
| Items (items : list form).

(** All on one line. *)
Fixpoint on_one_line (f : form) : str :=
  match f with
  | Simple text => text
  | Fields name [] => literal name
  | Fields name fields => as_struct name (map (fun x => (fst x, on_one_line (snd x))) fields)
  | Parts name [] => literal name
  | Parts name parts => as_tuple name (map on_one_line parts)
  | Items items => literal "[" ++ comma_separated (map on_one_line items) ++ literal "]"
  end.

(** Lines, each with its depth. *)
Definition lines : Type := list (nat * str).
Definition deeper (ls : lines) : lines := map (fun x => (S (fst x), snd x)) ls.
(** [text] before the first line, and after the last one. *)
Definition before_first (text : str) (ls : lines) : lines :=
  match ls with [] => [] | (d, s) :: ls' => (d, text ++ s) :: ls' end.
Fixpoint after_last (text : str) (ls : lines) : lines :=
  match ls with
  | [] => []
  | [(d, s)] => [(d, s ++ text)]
  | x :: ls' => x :: after_last text ls'
  end.
(** The lines of a text. *)
Fixpoint lines_of_text (s : str) : list str :=
  match s with
  | [] => [[]]
  | c :: s' =>
      if (c =? 10)%N then [] :: lines_of_text s'
      else match lines_of_text s' with [] => [] | first :: others => (c :: first) :: others end
  end.

(** On several lines: a value inside another one is one deeper, and followed by a comma. *)
Fixpoint on_lines (f : form) : lines :=
  match f with
  | Simple text => map (pair 0) (lines_of_text text)
  | Fields name [] => [(0, literal name)]
  | Fields name fields =>
      (0, literal name ++ literal " {")
      :: flat_map (fun x => deeper (before_first (literal (fst x) ++ literal ": ") (after_last (literal ",") (on_lines (snd x))))) fields
      ++ [(0, literal "}")]
  | Parts name [] => [(0, literal name)]
  | Parts name parts =>
      (0, literal name ++ literal "(") :: flat_map (fun x => deeper (after_last (literal ",") (on_lines x))) parts ++ [(0, literal ")")]
  | Items [] => [(0, literal "[]")]
  | Items items => (0, literal "[") :: flat_map (fun x => deeper (after_last (literal ",") (on_lines x))) items ++ [(0, literal "]")]
  end.

(** The text of lines: each after four spaces for every step of its depth, with line breaks between
    them. *)
Definition shown_line (x : nat * str) : str := repeat 32%N (4 * fst x) ++ snd x.
Fixpoint text_of_lines (ls : lines) : str :=
  match ls with
  | [] => []
  | [x] => shown_line x
  | x :: ls' => shown_line x ++ [10%N] ++ text_of_lines ls'
  end.

Section SpecIndent.
Context {U : UserTypes}.

Definition number (n : N) : form := Simple (dbg_N n).
Definition form_ltoken (tb : PrintTable) (t : LToken) : form :=
  match t with
  | LText text tag => Parts "Text" [Simple (dbg_str tb text); Simple (dbg_text_tag tag)]
  | LValue => Parts "Value" []
  end.
Definition form_lltoken (tb : PrintTable) (t : LLToken) : form :=
  Fields "LLToken" [("token_idx", number (N.of_nat (token_idx t))); ("pos_starts_at", number (pos_starts_at t));
                    ("pos_ends_at", number (pos_ends_at t)); ("token", form_ltoken tb (token t))].
Definition form_selection (s : LLSelection) : form :=
  Fields "LLSelection" [("start_idx", number (N.of_nat (start_idx s))); ("end_idx", number (N.of_nat (end_idx s)))].
Definition form_find {A} (fa : A -> form) (f : LLLineFind A) : form :=
  Fields "LLLineFind" [("start", number (start_pos_at f)); ("end", number (end_pos_at f)); ("found", fa (found f))].
Definition form_assignment {t : ty} (fv : den t -> form) (x : LLCursorAssignment t) : form :=
  Fields "LLCursorAssignment" [("start_idx", number (N.of_nat (as_start x))); ("end_idx", number (N.of_nat (as_end x)));
                               ("value", fv (as_value x))].
Definition form_amount (d : Decimal) : form := Parts "Amount" [Simple (dbg_decimal d)].
Definition form_any_of2 {A B} (fa : A -> form) (fb : B -> form) (x : AnyOf2 A B) : form :=
  match x with A2_A a => Parts "A" [fa a] | A2_B b => Parts "B" [fb b] end.
Definition form_any_of3 {A B C} (fa : A -> form) (fb : B -> form) (fc : C -> form) (x : AnyOf3 A B C) : form :=
  match x with A3_A a => Parts "A" [fa a] | A3_B b => Parts "B" [fb b] | A3_C c => Parts "C" [fc c] end.

(** A value is printed by [one_line] and [indented] in the two layouts of [f]; no line has line breaks
    inside. *)
Definition laid_out {A} (f : A -> form) (one_line indented : A -> str) : Prop :=
  forall a, one_line a = on_one_line (f a) /\ indented a = text_of_lines (on_lines (f a))
            /\ Forall (fun x => ~ In 10%N (snd x)) (on_lines (f a)).

End SpecIndent.
