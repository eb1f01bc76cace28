(** Specification of the printed texts of the library's types. *)

From Coq Require Import Strings.String Strings.Ascii.
From Verif Require Export ModelDebug SpecRead.
Local Open Scope string_scope.
Local Open Scope list_scope.

Section SpecDebug.
Context {U : UserTypes}.

(** The attribute types of the library and of its resolver crates that have a [Debug] of their
    own, as they are passed to a display. *)
Definition library_types : list { t : ty & den t -> str } :=
  [existT (fun t => den t -> str) TTextTag dbg_text_tag; existT (fun t => den t -> str) TAmount dbg_amount;
   existT (fun t => den t -> str) TKeyword dbg_keyword; existT (fun t => den t -> str) TClause dbg_clause].

(** Different values have different texts. *)
Definition tells_apart {A} (d : A -> str) : Prop := forall x y, d x = d y -> x = y.

(** The number a text of decimal digits denotes. *)
Definition number_of (ds : str) : N := fold_left (fun n c => 10 * n + (c - 48))%N ds 0%N.
Definition digit (c : char) : Prop := (48 <= c <= 57)%N.

(** Texts as Rust prints a value in the plain form: a name alone, a name with its fields in
    braces, a name with its parts in parentheses. *)
Definition literal (name : string) : str := map N_of_ascii (list_ascii_of_string name).
Fixpoint comma_separated (texts : list str) : str :=
  match texts with
  | [] => []
  | [text] => text
  | text :: rest => text ++ literal ", " ++ comma_separated rest
  end.
Definition as_struct (name : string) (fields : list (string * str)) : str :=
  literal name ++ literal " { "
  ++ comma_separated (map (fun f => literal (fst f) ++ literal ": " ++ snd f) fields) ++ literal " }".
Definition as_tuple (name : string) (parts : list str) : str :=
  literal name ++ literal "(" ++ comma_separated parts ++ literal ")".

End SpecDebug.
