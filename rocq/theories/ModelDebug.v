(** Model of the [Debug] implementations: written by hand in src/ll_line.rs,
    src/ll_line/ll_selection.rs and src/type_bucket.rs, derived for the library's attribute
    types.  The plain form [{:?}] (src/type_bucket.rs:232); the form [{:#?}] is in ModelIndent.v. *)

From Coq Require Import Strings.String Strings.Ascii.
From Verif Require Export ModelDisplay.

Local Open Scope string_scope.
Local Open Scope list_scope.

(** An ASCII literal of the source, e.g. the "LLLineFind" of src/ll_line.rs:88. *)
Fixpoint lit (s : string) : str :=
  match s with
  | EmptyString => []
  | String a s' => N_of_ascii a :: lit s'
  end.

(** The decimal digits of a number, as [Debug for usize] (external) prints it at src/ll_line.rs:89-90
    and src/ll_line/ll_selection.rs:39-40; [fuel] bounds their number. *)
Fixpoint digits_upto (fuel : nat) (n : N) : str :=
  match fuel with
  | O => []
  | S fuel' => if (n <? 10)%N then [48 + n]%N else digits_upto fuel' (n / 10)%N ++ [48 + n mod 10]%N
  end.
(** [Debug for usize] (external), used by src/ll_line.rs:89-90 and
    src/ll_line/ll_selection.rs:39-40 *)
Definition dbg_N (n : N) : str := digits_upto (S (N.size_nat n)) n.

(** derived [Debug], src/ll_line.rs:21-36 *)
Definition dbg_text_tag (t : TextTag) : str :=
  lit match t with NATN => "NATN" | PUNC => "PUNC" | SYMB => "SYMB" | SPACE => "SPACE" | WORD => "WORD" end.

(** derived [Debug], layered-clauses/src/clause_keyword.rs:3-11 *)
Definition dbg_keyword (k : ClauseKeyword) : str :=
  lit match k with KConditionStart => "ConditionStart" | KThen => "Then" | KAnd => "And" end.

(** derived [Debug], layered-clauses/src/clauses.rs:4-10 *)
Definition dbg_clause (c : Clause) : str :=
  lit match c with
      | LeadingEffect => "LeadingEffect" | TrailingEffect => "TrailingEffect"
      | Condition => "Condition" | Independent => "Independent"
      end.

(** [Debug for Decimal] of rust_decimal (external), used by layered-amount/src/amounts.rs:4-5:
    sign, digits with at least one before the point, exactly [dec_scale] digits after it. *)
Definition dbg_decimal (d : Decimal) : str :=
  let ds := dbg_N (Z.abs_N (dec_coeff d)) in
  let padded := repeat 48%N (S (dec_scale d) - length ds) ++ ds in
  let k := length padded - dec_scale d in
  (if (dec_coeff d <? 0)%Z then [45%N] else []) ++ firstn k padded
  ++ (match dec_scale d with O => [] | S _ => [46%N] ++ skipn k padded end).

(** derived [Debug], layered-amount/src/amounts.rs:4-5 *)
Definition dbg_amount (d : Decimal) : str := lit "Amount(" ++ dbg_decimal d ++ lit ")".

(** derived [Debug], src/ll_line/x/any_of.rs:27-31 *)
Definition dbg_any_of2 {A B} (da : A -> str) (db : B -> str) (x : AnyOf2 A B) : str :=
  match x with
  | A2_A a => lit "A(" ++ da a ++ lit ")"
  | A2_B b => lit "B(" ++ db b ++ lit ")"
  end.

(** derived [Debug], src/ll_line/x/any_of.rs:56-61 *)
Definition dbg_any_of3 {A B C} (da : A -> str) (db : B -> str) (dc : C -> str) (x : AnyOf3 A B C) : str :=
  match x with
  | A3_A a => lit "A(" ++ da a ++ lit ")"
  | A3_B b => lit "B(" ++ db b ++ lit ")"
  | A3_C c => lit "C(" ++ dc c ++ lit ")"
  end.

Section Debug.
Context {U : UserTypes}.

(** src/ll_line/ll_selection.rs:36-43 [Debug for LLSelection] *)
Definition dbg_selection (s : LLSelection) : str :=
  lit "LLSelection { start_idx: " ++ dbg_N (N.of_nat (start_idx s))
  ++ lit ", end_idx: " ++ dbg_N (N.of_nat (end_idx s)) ++ lit " }".

(** src/ll_line.rs:86-94 [Debug for LLLineFind] *)
Definition dbg_find {A} (da : A -> str) (f : LLLineFind A) : str :=
  lit "LLLineFind { start: " ++ dbg_N (start_pos_at f)
  ++ lit ", end: " ++ dbg_N (end_pos_at f) ++ lit ", found: " ++ da (found f) ++ lit " }".

(** derived [Debug], src/ll_line.rs:295-302 *)
Definition dbg_assignment {t : ty} (dv : den t -> str) (x : LLCursorAssignment t) : str :=
  lit "LLCursorAssignment { start_idx: " ++ dbg_N (N.of_nat (as_start x))
  ++ lit ", end_idx: " ++ dbg_N (N.of_nat (as_end x)) ++ lit ", value: " ++ dv (as_value x) ++ lit " }".

(** src/type_bucket.rs:17-21 [Debug for AnyAttribute]: the value is not shown *)
Definition dbg_any_attribute (a : AnyAttribute) : str := lit "AnyAttribute".

End Debug.
