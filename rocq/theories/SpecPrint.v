(** Specification of printed characters, texts and tokens: Rust's literals. *)

From Coq Require Import Strings.String Strings.Ascii.
From Verif Require Export ModelPrint SpecDebug.
Local Open Scope string_scope.
Local Open Scope list_scope.

(** The value of a hexadecimal digit written with a digit or a small letter. *)
Definition hex_value (c : char) : option N :=
  if ((48 <=? c) && (c <=? 57))%N then Some (c - 48)%N
  else if ((97 <=? c) && (c <=? 102))%N then Some (c - 87)%N
  else None.
(** The number that digits, most significant first, denote in base 16. *)
Inductive HexNumber : str -> N -> Prop :=
| Hex_one c v : hex_value c = Some v -> HexNumber [c] v
| Hex_more ds n c v : HexNumber ds n -> hex_value c = Some v -> HexNumber (ds ++ [c]) (16 * n + v)%N.

(** The escape sequences of one letter. *)
Definition short_escapes : list (char * char) :=
  [(48, 0); (116, 9); (110, 10); (114, 13); (34, 34); (39, 39); (92, 92)]%N.

(** What stands between the quotes of a literal, for one character. *)
Inductive Denotes (quote : char) : str -> char -> Prop :=
| Den_itself c : c <> 92%N -> c <> quote -> c <> 10%N -> c <> 13%N -> c <> 9%N -> Denotes quote [c] c
| Den_short e c : In (e, c) short_escapes -> Denotes quote [92%N; e] c
| Den_unicode ds c : HexNumber ds c -> Denotes quote (literal "\u{" ++ ds ++ literal "}") c.

(** How Rust prints one character between quotes: by a short escape, as it is, or by its number in
    hexadecimal without zeros in front. *)
Definition printed_as (tb : PrintTable) (quote c : char) (body : str) : Prop :=
  let short := In c [9; 10; 13; 92]%N \/ c = quote \/ c = 0%N /\ short_nul tb = true in
  let shown := printable tb c = true /\ grapheme_extended tb c = false in
  (short /\ exists e, In (e, c) short_escapes /\ body = [92%N; e])
  \/ (~ short /\ shown /\ body = [c])
  \/ (~ short /\ ~ shown /\ exists ds, body = literal "\u{" ++ ds ++ literal "}" /\ HexNumber ds c
                                        /\ forall rest, ds = 48%N :: rest -> rest = []).

(** A literal and the text it denotes. *)
Definition Literal (quote : char) (text : str) (cs : str) : Prop :=
  exists bodies, Forall2 (Denotes quote) bodies cs /\ text = [quote] ++ concat bodies ++ [quote].

(** A printer whose texts can also be told apart when something follows them. *)
Definition self_delimiting {A} (d : A -> str) : Prop :=
  forall x y r1 r2, d x ++ r1 = d y ++ r2 -> x = y /\ r1 = r2.

Section SpecPrint.
Context {U : UserTypes}.

(** Attribute types, with how their values are printed, whose rows in a display cannot be taken
    for one another's. *)
Definition distinguishable (types : list { t : ty & den t -> str }) : Prop :=
  forall x y (v : den (projT1 x)) (w : den (projT1 y)),
    In x types -> In y types -> projT2 x v = projT2 y w ->
    existT den (projT1 x) v = existT den (projT1 y) w.

(** Characters, as an attribute type with its printed form. *)
Definition char_type (tb : PrintTable) : { t : ty & den t -> str } :=
  existT (fun t => den t -> str) TChar (dbg_char tb).

End SpecPrint.
