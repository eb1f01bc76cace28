(** Model of the indented form [{:#?}] of the [Debug] implementations of ModelDebug.v and ModelPrint.v, in which
    src/tests/tokenizing.rs:4 prints tokens.  The form is made by std ([Formatter::debug_struct],
    [debug_tuple], [debug_list] and [PadAdapter], external); numbers, characters, texts, decimals and names
    without fields are printed as in the plain form. *)

From Coq Require Import Strings.String Strings.Ascii.
From Verif Require Export ModelPrint.

Local Open Scope string_scope.
Local Open Scope list_scope.

(** [PadAdapter::write_str] (external) under src/tests/tokenizing.rs:4: four spaces before what is written first
    on a line; [on_newline] is its state.  (Simplification: character by character, where std
    goes line by line.) *)
Fixpoint pad (on_newline : bool) (s : str) : str :=
  match s with
  | [] => []
  | c :: s' => (if on_newline then lit "    " else []) ++ c :: pad (c =? 10)%N s'
  end.

(** a line break, written by std (external) under src/tests/tokenizing.rs:4 *)
Definition line_break : str := [10%N].

(** [DebugStruct::field] and [finish] (external), e.g. for src/ll_line.rs:45-54,86-94 *)
Definition pretty_struct (name : string) (fields : list (string * str)) : str :=
  match fields with
  | [] => lit name
  | _ :: _ =>
      lit name ++ lit " {" ++ line_break
      ++ flat_map (fun '(field, text) => pad true (lit field ++ lit ": " ++ text ++ lit "," ++ line_break)) fields
      ++ lit "}"
  end.

(** [DebugTuple::field] and [finish] (external), e.g. for src/ll_line.rs:38-43 *)
Definition pretty_tuple (name : string) (parts : list str) : str :=
  match parts with
  | [] => lit name
  | _ :: _ =>
      lit name ++ lit "(" ++ line_break
      ++ flat_map (fun text => pad true (text ++ lit "," ++ line_break)) parts
      ++ lit ")"
  end.

(** [DebugList::entry] and [finish] (external), for slices such as src/ll_line.rs:208-210 [ll_tokens] *)
Definition pretty_slice {A} (da : A -> str) (l : list A) : str :=
  lit "[" ++ (match l with [] => [] | _ :: _ => line_break end)
  ++ flat_map (fun a => pad true (da a ++ lit "," ++ line_break)) l ++ lit "]".

(** derived [Debug], src/ll_line.rs:38-43 *)
Definition pretty_ltoken (tb : PrintTable) (t : LToken) : str :=
  match t with
  | LText text tag => pretty_tuple "Text" [dbg_str tb text; dbg_text_tag tag]
  | LValue => pretty_tuple "Value" []
  end.

(** derived [Debug], src/ll_line.rs:45-54 *)
Definition pretty_lltoken (tb : PrintTable) (t : LLToken) : str :=
  pretty_struct "LLToken"
    [("token_idx", dbg_N (N.of_nat (token_idx t))); ("pos_starts_at", dbg_N (pos_starts_at t));
     ("pos_ends_at", dbg_N (pos_ends_at t)); ("token", pretty_ltoken tb (token t))].

(** derived [Debug], layered-amount/src/amounts.rs:4-5 *)
Definition pretty_amount (d : Decimal) : str := pretty_tuple "Amount" [dbg_decimal d].

(** derived [Debug], src/ll_line/x/any_of.rs:27-31 *)
Definition pretty_any_of2 {A B} (da : A -> str) (db : B -> str) (x : AnyOf2 A B) : str :=
  match x with
  | A2_A a => pretty_tuple "A" [da a]
  | A2_B b => pretty_tuple "B" [db b]
  end.

(** derived [Debug], src/ll_line/x/any_of.rs:56-61 *)
Definition pretty_any_of3 {A B C} (da : A -> str) (db : B -> str) (dc : C -> str) (x : AnyOf3 A B C) : str :=
  match x with
  | A3_A a => pretty_tuple "A" [da a]
  | A3_B b => pretty_tuple "B" [db b]
  | A3_C c => pretty_tuple "C" [dc c]
  end.

Section Indent.
Context {U : UserTypes}.

(** src/ll_line/ll_selection.rs:36-43 [Debug for LLSelection] *)
Definition pretty_selection (s : LLSelection) : str :=
  pretty_struct "LLSelection"
    [("start_idx", dbg_N (N.of_nat (start_idx s))); ("end_idx", dbg_N (N.of_nat (end_idx s)))].

(** src/ll_line.rs:86-94 [Debug for LLLineFind] *)
Definition pretty_find {A} (da : A -> str) (f : LLLineFind A) : str :=
  pretty_struct "LLLineFind"
    [("start", dbg_N (start_pos_at f)); ("end", dbg_N (end_pos_at f)); ("found", da (found f))].

(** derived [Debug], src/ll_line.rs:295-302 *)
Definition pretty_assignment {t : ty} (dv : den t -> str) (x : LLCursorAssignment t) : str :=
  pretty_struct "LLCursorAssignment"
    [("start_idx", dbg_N (N.of_nat (as_start x))); ("end_idx", dbg_N (N.of_nat (as_end x))); ("value", dv (as_value x))].

(** src/type_bucket.rs:17-21 [Debug for AnyAttribute] *)
Definition pretty_any_attribute (a : AnyAttribute) : str := pretty_struct "AnyAttribute" [].

End Indent.
