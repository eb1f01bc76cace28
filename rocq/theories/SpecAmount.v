(** Specification of the amounts in a line: which tokens form an amount, and
    which number it denotes. *)

From Verif Require Export SpecRes.

Section SpecAmount.
Context {UC : Unicode} {U : UserTypes}.
Context (l : LLLine) (lg : list entry).

(** Token [i] is a number: a text token with the tag NATN. *)
Definition number (i : nat) (text : str) : Prop :=
  exists tok tag, nth_error (ll_tokens l) i = Some tok /\ token tok = LText text tag
    /\ In NATN (values_on TTextTag (i, i) lg).
Definition is_number (i : nat) : Prop := exists text, number i text.

(** Token [i] is one of the characters [cs]. *)
Definition has_char (cs : list char) (i : nat) : Prop :=
  exists c, In c (values_on TChar (i, i) lg) /\ In c cs.

(** Token [i], if there is one, carries some attribute. *)
Definition readable (i : nat) : Prop := i < length (ll_tokens l) -> attributed i lg.

Context (r : AmountResolver).

(** Digit groups: number (delimiter number)*; [text] is what the groups spell. *)
Inductive groups_at (s : nat) : nat -> str -> Prop :=
| G_one text : number s text -> groups_at s s text
| G_more e text1 text2 :
    groups_at s e text1 -> has_char (delimiters r) (e + 1) -> number (e + 2) text2 ->
    groups_at s (e + 2) (text1 ++ text2).

Definition is_delimiter (i : nat) : Prop := has_char (delimiters r) i.
Definition is_decimal (i : nat) : Prop := has_char [decimal r] i.
Definition point : str := [46%N].

(** [amount_at s e u text]: the amount starting at token [s] ends at token [e] and
    spells [text]; the tokens up to [u] are used up. *)
Inductive amount_at (s : nat) : nat -> nat -> str -> Prop :=
| A_groups e text :   (* 1,234 not followed by anything of interest *)
    groups_at s e text -> readable (e + 1) ->
    ~ is_delimiter (e + 1) -> ~ is_decimal (e + 1) -> ~ is_number (e + 1) ->
    amount_at s e e text
| A_delimiter e text :   (* 1,234 with a dangling delimiter *)
    groups_at s e text -> is_delimiter (e + 1) -> ~ is_number (e + 2) ->
    amount_at s e (e + 1) text
| A_decimal e text1 text2 :   (* 1,234.56 *)
    groups_at s e text1 -> ~ is_delimiter (e + 1) -> is_decimal (e + 1) -> number (e + 2) text2 ->
    amount_at s (e + 2) (e + 2) (text1 ++ point ++ text2)
| A_point e text :   (* 1,234 with a dangling decimal point *)
    groups_at s e text -> ~ is_delimiter (e + 1) -> is_decimal (e + 1) -> ~ is_number (e + 2) ->
    amount_at s e (e + 1) (text ++ point)
| A_adjacent e text1 text2 :   (* two numbers without anything between *)
    groups_at s e text1 -> readable (e + 1) ->
    ~ is_delimiter (e + 1) -> ~ is_decimal (e + 1) -> number (e + 1) text2 ->
    amount_at s (e + 1) (e + 1) (text1 ++ text2).

(** Token [s] is the first number from token [k] on. *)
Definition first_number (k s : nat) : Prop :=
  k <= s /\ is_number s /\ forall i, k <= i < s -> ~ is_number i.

Context (parse : str -> option Decimal).

(** The amounts from token [k] on, left to right. *)
Inductive amounts : nat -> list (LRange * Decimal) -> Prop :=
| AS_none k : (forall i, k <= i -> ~ is_number i) -> amounts k []
| AS_some k s e u text d out :
    first_number k s -> amount_at s e u text -> parse text = Some d -> amounts (u + 1) out ->
    amounts k (((s, e), d) :: out).

(** Looking for amounts from token [k] on fails: either what an amount spells is
    not accepted as a number, or the token after the digit groups, which must be
    inspected, carries no attribute at all. *)
Inductive amounts_fail : nat -> Prop :=
| AF_parse k s e u text : first_number k s -> amount_at s e u text -> parse text = None -> amounts_fail k
| AF_unreadable k s e text : first_number k s -> groups_at s e text -> ~ readable (e + 1) -> amounts_fail k
| AF_later k s e u text d : first_number k s -> amount_at s e u text -> parse text = Some d ->
    amounts_fail (u + 1) -> amounts_fail k.

(** Numbers are not delimiters or decimal signs themselves. *)
Definition numbers_apart : Prop := forall i, is_number i -> ~ is_delimiter i /\ ~ is_decimal i.

(** What token [i] contributes to the text of an amount: a number its own text, a
    delimiter nothing, the decimal sign a point. *)
Definition contributes (i : nat) (p : str) : Prop :=
  number i p \/ (~ is_number i /\ is_delimiter i /\ p = [])
  \/ (~ is_number i /\ ~ is_delimiter i /\ is_decimal i /\ p = point).

(** [text] is what the tokens from [s] to [e] contribute. *)
Definition spells (s e : nat) (text : str) : Prop :=
  exists ps, length ps = S e - s /\ (forall j p, nth_error ps j = Some p -> contributes (s + j) p)
    /\ text = concat ps.

(** Digits, or digits and a point and possibly digits again. *)
Definition decimal_text (text : str) : Prop :=
  all_digits text
  \/ exists a b, all_digits a /\ (b = [] \/ all_digits b) /\ text = a ++ point ++ b.

(** A line of tokens g, d, g, d, ..., g, p, f: digit groups [gs] separated by
    delimiters, then a decimal sign and the fraction [f]. *)
Definition grouped_number (gs : list str) (f : str) : Prop :=
  gs <> [] /\ length (ll_tokens l) = 2 * length gs + 1
  /\ (forall i g, nth_error gs i = Some g -> number (2 * i) g)
  /\ (forall i, S i < length gs -> is_delimiter (2 * i + 1))
  /\ is_decimal (2 * length gs - 1) /\ ~ is_delimiter (2 * length gs - 1)
  /\ number (2 * length gs) f.

(** A line of tokens g, d, g, d, ..., g. *)
Definition grouped_integer (gs : list str) : Prop :=
  gs <> [] /\ length (ll_tokens l) = 2 * length gs - 1
  /\ (forall i g, nth_error gs i = Some g -> number (2 * i) g)
  /\ (forall i, S i < length gs -> is_delimiter (2 * i + 1)).

End SpecAmount.
