(** Prices in dollars in ASCII text (C93), with concrete cases. *)

From Verif Require Export PropKeys PropCurrency ThmPrices.

Local Open Scope string_scope.
Local Open Scope list_scope.

(** ** C93 Prices of ASCII text *)
Theorem C93_prices {UC : Unicode} {U : UserTypes} :
  forall (SL : SegmenterLaws) colon (AL : AsciiLaws colon) tS tC (usd euro : den tS) (f : den tS * Decimal -> den tC) tg sz s ats l parse r id1 id2 id3 l1 l2,
    ascii s -> digits_apart s -> no_digit_signs r -> plain_decimal r -> Forall wf_attribute ats ->
    NoDup [TChar; TTextTag; TAmount; tS; tC] ->
    (forall t, In t [TChar; TTextTag; TAmount; tS; tC] -> none_of t [InText s ats]) ->
    create_line_from_input_tokens tg [InText s ats] sz = Ok l ->
    run id1 l (currency_symbol_resolver tS usd euro) = Ok l1 ->
    run id2 l1 (amount_go parse r) = Ok l2 ->
    exists l3 crows, run id3 l2 (currency_amount_resolver tS TAmount tC f) = Ok l3 /\ ll_tokens l3 = ll_tokens l /\ query l3 tC = Ok crows
      /\ (forall row, In row crows -> exists before c, reported_on l crows before (snd (fst row)) c)
      /\ forall before text c, reported_on l crows before text c <-> exists d, c = f (usd, d) /\ price parse r s before text d.
Proof. exact thm_C93_prices. Qed.
Theorem C93_dollars {UC : Unicode} {U : UserTypes} :
  forall (SL : SegmenterLaws) colon (AL : AsciiLaws colon) tS tC (usd euro : den tS) (f : den tS * Decimal -> den tC) tg sz s ats l parse r id1 id2 id3 l1 l2 l3 crows,
    ascii s -> digits_apart s -> no_digit_signs r -> plain_decimal r -> ~ In 36%N (signs r) -> Forall wf_attribute ats ->
    NoDup [TChar; TTextTag; TAmount; tS; tC] ->
    (forall t, In t [TChar; TTextTag; TAmount; tS; tC] -> none_of t [InText s ats]) ->
    create_line_from_input_tokens tg [InText s ats] sz = Ok l ->
    run id1 l (currency_symbol_resolver tS usd euro) = Ok l1 ->
    run id2 l1 (amount_go parse r) = Ok l2 ->
    run id3 l2 (currency_amount_resolver tS TAmount tC f) = Ok l3 -> query l3 tC = Ok crows ->
    (forall p c q, s = p ++ dollar ++ c :: q -> ascii_digit c ->
       exists t d, reported_on l crows p (dollar ++ c :: t) (f (usd, d)))
    /\ (forall p c q, s = p ++ c :: dollar ++ q -> ascii_digit c ->
       exists b t d, p = b ++ t /\ reported_on l crows b ((t ++ [c]) ++ dollar) (f (usd, d))).
Proof. exact thm_C93_dollars. Qed.
(** A price before and after the sign, two that share a sign, one number without a sign, a sign without a number, and a sign apart. *)
Definition text93 : str := of_string "Pay $1,500.25 or 20$, 5$7; not 8, US$ or $ 9.".
Definition line93 : LLLine := Eval vm_compute in line89 text93.
Definition line93s : LLLine := Eval vm_compute in get_line (run 1 line93 (currency_symbol_resolver TNum 1%N 2%N)).
Definition line93a : LLLine := Eval vm_compute in get_line (run 2 line93s (amount_go parse_decimal amount_english)).
Definition price93 (x : N * Decimal) : str := if N.eqb (fst x) 1 then [Z.to_N (dec_coeff (snd x))] else [].
Definition line93c : LLLine := Eval vm_compute in get_line (run 3 line93a (currency_amount_resolver TNum TAmount TStr price93)).
Example C93_case :
  ascii text93 /\ digits_apart text93 /\ no_digit_signs amount_english /\ plain_decimal amount_english /\ ~ In 36%N (signs amount_english)
  /\ NoDup [TChar; TTextTag; TAmount; TNum; TStr]
  /\ (forall t, In t [TChar; TTextTag; TAmount; TNum; TStr] -> none_of t [InText text93 []])
  /\ is_line89 text93 /\ line89 text93 = line93
  /\ run 1 line93 (currency_symbol_resolver TNum 1%N 2%N) = Ok line93s
  /\ run 2 line93s (amount_go parse_decimal amount_english) = Ok line93a
  /\ run 3 line93a (currency_amount_resolver TNum TAmount TStr price93) = Ok line93c
  /\ query line93c TStr = Ok [((2, 7), of_string "$1,500.25", [[150025%N]]); ((11, 12), of_string "20$", [[20%N]]);
                              ((16, 17), of_string "$7", [[7%N]]); ((15, 16), of_string "5$", [[5%N]])]
  /\ price parse_decimal amount_english text93 (of_string "Pay ") (of_string "$1,500.25") (mkDecimal 150025 2)
  /\ price parse_decimal amount_english text93 (of_string "Pay $1,500.25 or ") (of_string "20$") (mkDecimal 20 0).
Proof.
  split; [apply is_ascii; vm_compute; reflexivity|]. split; [apply apart_b_ok; vm_compute; reflexivity|]. split; [repeat constructor|]. split; [exact plain_english|].
  split; [cbn; intuition discriminate|]. split; [repeat (constructor; [cbn; intuition discriminate|]); constructor|]. split; [intros t _ it a [<-|[]] []|].
  split; [vm_compute; reflexivity|]. split; [vm_compute; reflexivity|]. split; [vm_compute; reflexivity|]. split; [vm_compute; reflexivity|]. split; [vm_compute; reflexivity|]. split; [vm_compute; reflexivity|].
  split.
  - apply (dollar_first _ _ _ (of_string "Pay ") (of_string "1,500.25") (of_string "1500.25")); [left; vm_compute; reflexivity|vm_compute; reflexivity].
  - apply (dollar_last _ _ _ (of_string "Pay $1,500.25 or ") (of_string "20") (of_string "20") (of_string ", 5$7; not 8, US$ or $ 9.")); [right; left; vm_compute; reflexivity|vm_compute; reflexivity|vm_compute; reflexivity].
Qed.
