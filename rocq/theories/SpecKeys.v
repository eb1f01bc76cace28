(** Which texts can be a token of ASCII text, and so be found by a key (C92). *)

From Verif Require Export SpecAscii SpecEnd.

Local Open Scope list_scope.

Section Keys.
Context (colon : bool).

(** Digits, or a text that does not begin with a digit and that the boundary rules do not cut. *)
Definition single_piece (t : str) : Prop :=
  t <> [] /\ (Forall ascii_digit t
    \/ (~ starts_in t ascii_digit /\ forall x y, x <> [] -> y <> [] -> t = x ++ y -> unbroken colon x y)).

(** The characters that can stand beside others in such a text. *)
Definition joining (c : char) : Prop :=
  ascii_letter c \/ ascii_digit c \/ c = 95%N \/ mid_letter colon c \/ mid_number c \/ In c [10; 13; 32]%N.
End Keys.

Definition ascii_lower (c : char) : char := if ((65 <=? c) && (c <=? 90))%N then (c + 32)%N else c.
(** What [str::to_lowercase] does on ASCII text. *)
Definition AsciiLower {UC : Unicode} : Prop := forall t, ascii t -> u_lower t = map ascii_lower t.

(** Keyword lists that have the same words of this kind. *)
Definition same_keywords (colon : bool) (r r' : ClauseKeywordResolver) : Prop :=
  forall w, single_piece colon w ->
    (In w (kw_cond_start r) <-> In w (kw_cond_start r')) /\ (In w (kw_and r) <-> In w (kw_and r')) /\ (In w (kw_then r) <-> In w (kw_then r')).
