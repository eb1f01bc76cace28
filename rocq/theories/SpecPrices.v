(** Prices in dollars in ASCII text, by its characters (C93). *)

From Verif Require Export SpecChars SpecCurrency SpecKeys.

Local Open Scope list_scope.

(** In the text [s], after the text [before]: a dollar sign and right after it a number, or a
    number and right after it a dollar sign; the number is read as [d]. *)
Inductive price (parse : str -> option Decimal) (r : AmountResolver) (s : str) : str -> str -> Decimal -> Prop :=
| dollar_first before number spells d :
    In (before ++ dollar, number, spells) (numbers_in r s) -> parse spells = Some d -> price parse r s before (dollar ++ number) d
| dollar_last before number spells after d :
    In (before, number, spells) (numbers_in r s) -> parse spells = Some d -> s = before ++ number ++ dollar ++ after ->
    price parse r s before (number ++ dollar) d.

Section Rows.
Context {UC : Unicode} {U : UserTypes}.
(** The rows give [v] to the tokens with just this text. *)
Definition reported_on {V} (l : LLLine) (rows : list (LRange * str * list V)) (before text : str) (v : V) : Prop :=
  exists i j vs, In ((i, j), text, vs) rows /\ In v vs /\ i <= j < length (ll_tokens l)
    /\ concat (firstn i (token_texts l)) = before /\ concat (firstn (S j) (token_texts l)) = before ++ text.
End Rows.
