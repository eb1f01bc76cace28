(** The amounts of an ASCII text, read character by character from left to right (C90). *)

From Verif Require Export SpecAscii SpecPass.

Local Open Scope list_scope.

Section SpecChars.
Context (r : AmountResolver).

(** What is found: the text before it, the text it covers, the text to be parsed. *)
Definition Found : Type := str * str * str.

(** What is being read: nothing; digit groups; the same and then a delimiter; and then the
    decimal sign; a number with a fraction.  Each with what would be found. *)
Inductive Spelling :=
| Nothing
| Groups (before covers spells : str)
| AfterDelimiter (before covers spells : str) (sign : char)
| AfterPoint (before covers spells : str) (sign : char)
| Fraction (before covers spells : str).

(** The next character is [c], after the characters [seen]. *)
Definition next_char (st : Spelling) (seen : str) (c : char) : list Found * Spelling :=
  match st with
  | Nothing => if decimal_digit c then ([], Groups seen [c] [c]) else ([], Nothing)
  | Groups b t x =>
      if decimal_digit c then ([], Groups b (t ++ [c]) (x ++ [c]))
      else if existsb (N.eqb c) (delimiters r) then ([], AfterDelimiter b t x c)
      else if N.eqb c (decimal r) then ([], AfterPoint b t x c)
      else ([(b, t, x)], Nothing)
  | AfterDelimiter b t x d =>
      if decimal_digit c then ([], Groups b (t ++ [d; c]) (x ++ [c])) else ([(b, t, x)], Nothing)
  | AfterPoint b t x d =>
      if decimal_digit c then ([], Fraction b (t ++ [d; c]) (x ++ point ++ [c])) else ([(b, t, x ++ point)], Nothing)
  | Fraction b t x =>
      if decimal_digit c then ([], Fraction b (t ++ [c]) (x ++ [c])) else ([(b, t, x)], Nothing)
  end.

Definition no_more (st : Spelling) : list Found :=
  match st with
  | Nothing => []
  | Groups b t x | AfterDelimiter b t x _ | Fraction b t x => [(b, t, x)]
  | AfterPoint b t x _ => [(b, t, x ++ point)]
  end.

Fixpoint found_from (st : Spelling) (seen s : str) : list Found :=
  match s with
  | [] => no_more st
  | c :: s => fst (next_char st seen c) ++ found_from (snd (next_char st seen c)) (seen ++ [c]) s
  end.
Definition numbers_in (s : str) : list Found := found_from Nothing [] s.

(** The decimal sign is a delimiter (and then never ends the groups), or neither letter nor white space. *)
Definition plain_decimal : Prop :=
  In (decimal r) (delimiters r) \/ (~ ascii_letter (decimal r) /\ ~ ascii_space (decimal r)).
End SpecChars.

(** No digit follows a letter or an underscore. *)
Definition digits_apart (s : str) : Prop :=
  forall b x y a, s = b ++ x :: y :: a -> ascii_digit y -> ~ ascii_letter x /\ x <> 95%N.

(** All texts parsed, in order. *)
Definition all_parsed (parse : str -> option Decimal) (xs : list Found) (ds : list Decimal) : Prop :=
  Forall2 (fun x d => parse (snd x) = Some d) xs ds.

Section Rows.
Context {UC : Unicode} {U : UserTypes}.
(** The row of a query for what was found: on the tokens that have just this text. *)
Definition row_for (l : LLLine) (x : Found * Decimal) (row : LRange * str * list Decimal) : Prop :=
  let '((b, t, _), d) := x in let '((i, j), text, ds) := row in
  text = t /\ ds = [d] /\ i <= j < length (ll_tokens l)
  /\ concat (firstn i (token_texts l)) = b /\ concat (firstn (S j) (token_texts l)) = b ++ t.
End Rows.
