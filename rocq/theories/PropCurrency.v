(** Currency amounts end to end, resolvers that look at one token, texts cut in two, each with a concrete case: C64 to C66. *)

From Verif Require Export PropLaws ThmCurrency ThmLocal.

Local Open Scope string_scope.
Local Open Scope list_scope.

(** ** C64 Currency amounts *)
Theorem C64_currency {UC : Unicode} {U : UserTypes} :
  forall tS tC (usd euro : den tS) (f : den tS * Decimal -> den tC) tg sz input l parse r id1 id2 id3 l1 l2,
    Forall wf_input input -> Forall is_text input -> NoDup [TChar; TTextTag; TAmount; tS; tC] ->
    (forall t, In t [TChar; TTextTag; TAmount; tS; tC] -> none_of t input) ->
    create_line_from_input_tokens tg input sz = Ok l ->
    run id1 l (currency_symbol_resolver tS usd euro) = Ok l1 ->
    run id2 l1 (amount_go parse r) = Ok l2 ->
    exists l3 la arows crows,
      run id3 l2 (currency_amount_resolver tS TAmount tC f) = Ok l3
      /\ ll_tokens l3 = ll_tokens l
      /\ query l3 tS = Ok (rows_by (ll_tokens l) (fun text _ =>
            if str_eqb text dollar then [usd] else if str_eqb text euro_sign then [euro] else []))
      /\ run id2 l (amount_go parse r) = Ok la /\ query la TAmount = Ok arows /\ query l3 TAmount = Ok arows
      /\ query l3 tC = Ok crows
      /\ (forall s e text cs, In ((s, e), text, cs) crows -> s <= e < length (ll_tokens l) /\ text = text_between (ll_tokens l) s e)
      /\ forall s e c, reports crows (s, e) c <-> exists v a, c = f (v, a) /\ priced usd euro (ll_tokens l) arows (s, e) v a.
Proof. exact thm_C64_currency. Qed.
Theorem C64_next_to_number {UC : Unicode} {U : UserTypes} :
  forall tS tC (usd euro : den tS) (f : den tS * Decimal -> den tC) tg sz input l parse r id1 id2 id3 l1 l2 l3,
    Forall wf_input input -> Forall is_text input -> NoDup [TChar; TTextTag; TAmount; tS; tC] ->
    (forall t, In t [TChar; TTextTag; TAmount; tS; tC] -> none_of t input) ->
    create_line_from_input_tokens tg input sz = Ok l -> no_digit_signs r ->
    ~ In 36%N (signs r) -> ~ In 8364%N (signs r) ->
    run id1 l (currency_symbol_resolver tS usd euro) = Ok l1 ->
    run id2 l1 (amount_go parse r) = Ok l2 ->
    run id3 l2 (currency_amount_resolver tS TAmount tC f) = Ok l3 ->
    exists arows crows, query l3 TAmount = Ok arows /\ query l3 tC = Ok crows
      /\ (forall i v, symbol_at usd euro (ll_tokens l) i v -> number_at (ll_tokens l) (S i) ->
           exists e a, reports arows (S i, e) a /\ reports crows (i, e) (f (v, a)))
      /\ (forall i v, number_at (ll_tokens l) i -> symbol_at usd euro (ll_tokens l) (S i) v ->
           exists s a, reports arows (s, i) a /\ reports crows (s, S i) (f (v, a))).
Proof. exact thm_C64_next_to_number. Qed.
(** A dollar price, a price in euros, and a number without a symbol. *)
Definition in64 : list InputToken := [InText ([36] ++ of_string "1,000.25 or 20" ++ [8364] ++ of_string " or 5")%list%N []].
Definition line64 : LLLine := Eval vm_compute in line_from in64.
Definition line64s : LLLine := Eval vm_compute in get_line (run 1 line64 (currency_symbol_resolver TNum 1%N 2%N)).
Definition line64a : LLLine := Eval vm_compute in get_line (run 2 line64s (amount_go parse_decimal amount_english)).
Definition price64 (x : N * Decimal) : str := if N.eqb (fst x) 1 then of_string "dollars" else of_string "euros".
Definition line64c : LLLine := Eval vm_compute in get_line (run 3 line64a (currency_amount_resolver TNum TAmount TStr price64)).
Example C64_case :
  Forall wf_input in64 /\ Forall is_text in64 /\ NoDup [TChar; TTextTag; TAmount; TNum; TStr]
  /\ (forall t, In t [TChar; TTextTag; TAmount; TNum; TStr] -> none_of t in64)
  /\ create_line_from_input_tokens tg64 in64 str_len = Ok line64 /\ no_digit_signs amount_english
  /\ ~ In 36%N (signs amount_english) /\ ~ In 8364%N (signs amount_english)
  /\ run 1 line64 (currency_symbol_resolver TNum 1%N 2%N) = Ok line64s
  /\ run 2 line64s (amount_go parse_decimal amount_english) = Ok line64a
  /\ run 3 line64a (currency_amount_resolver TNum TAmount TStr price64) = Ok line64c
  /\ rmap (map fst) (query line64c TAmount)
     = Ok [((1, 5), of_string "1,000.25"); ((9, 9), of_string "20"); ((14, 14), of_string "5")]
  /\ query line64c TStr
     = Ok [((0, 5), ([36] ++ of_string "1,000.25")%list%N, [of_string "dollars"]); ((9, 10), (of_string "20" ++ [8364])%list%N, [of_string "euros"])].
Proof.
  conj; try fact.
  - repeat constructor.
  - repeat constructor.
  - repeat (constructor; [cbn; intuition discriminate|]). constructor.
  - intros t _ it a [<-|[]] [].
  - repeat constructor.
Qed.

(** ** C65 Resolvers that look at one token at a time *)
Theorem C65_local {UC : Unicode} {U : UserTypes} :
  forall s, token_local s ->
    exists F, forall tg sz input l id,
      Forall wf_input input -> (forall t, In t (writes s :: reads s) -> none_of t input) ->
      create_line_from_input_tokens tg input sz = Ok l ->
      exists l', run_any id l s = Ok l' /\ query l' (writes s) = Ok (rows_by (ll_tokens l) F).
Proof. exact thm_C65_local. Qed.
Theorem C65_joined {UC : Unicode} {U : UserTypes} :
  forall s tg sz i1 i2 l1 l2 l id1 id2 id,
    token_local s -> Forall wf_input i1 -> Forall wf_input i2 ->
    (forall t, In t (writes s :: reads s) -> none_of t i1 /\ none_of t i2) ->
    create_line_from_input_tokens tg i1 sz = Ok l1 -> create_line_from_input_tokens tg i2 sz = Ok l2 ->
    create_line_from_input_tokens tg (i1 ++ i2) sz = Ok l ->
    exists l1' l2' l' q1 q2,
      run_any id1 l1 s = Ok l1' /\ run_any id2 l2 s = Ok l2' /\ run_any id l s = Ok l'
      /\ query l1' (writes s) = Ok q1 /\ query l2' (writes s) = Ok q2
      /\ query l' (writes s) = Ok (q1 ++ map (moved_row (length (ll_tokens l1))) q2).
Proof. exact thm_C65_joined. Qed.
(** The clause keywords of "If it " and of "rains, then pay", and of both together. *)
Definition in65a : list InputToken := [InText (of_string "If it ") []].
Definition in65b : list InputToken := [InText (of_string "rains, then pay") []].
Definition line65a : LLLine := Eval vm_compute in line_from in65a.
Definition line65b : LLLine := Eval vm_compute in line_from in65b.
Definition line65 : LLLine := Eval vm_compute in line_from (in65a ++ in65b).
Example C65_case :
  token_local (Lib (RunClauseKeyword words)) /\ Forall wf_input in65a /\ Forall wf_input in65b
  /\ (forall t, In t (writes (Lib (RunClauseKeyword words)) :: reads (Lib (RunClauseKeyword words))) -> none_of t in65a /\ none_of t in65b)
  /\ create_line_from_input_tokens tg64 in65a str_len = Ok line65a /\ create_line_from_input_tokens tg64 in65b str_len = Ok line65b
  /\ create_line_from_input_tokens tg64 (in65a ++ in65b) str_len = Ok line65
  /\ length (ll_tokens line65a) = 4
  /\ (l <- run 1 line65a (clause_keyword_go words);; query l TKeyword) = Ok [((0, 0), of_string "If", [KConditionStart])]
  /\ (l <- run 1 line65b (clause_keyword_go words);; query l TKeyword) = Ok [((3, 3), of_string "then", [KThen])]
  /\ (l <- run 1 line65 (clause_keyword_go words);; query l TKeyword)
     = Ok [((0, 0), of_string "If", [KConditionStart]); ((7, 7), of_string "then", [KThen])].
Proof.
  conj; try fact.
  - constructor.
  - repeat constructor.
  - repeat constructor.
  - intros t _. split; intros it a [<-|[]] [].
Qed.

(** ** C66 Cutting a text *)
Theorem C66_cut {UC : Unicode} {U : UserTypes} :
  forall tg sz pre post s1 s2 l,
    u_words (s1 ++ s2) = u_words s1 ++ u_words s2 -> u_words s1 <> [] -> u_words s2 <> [] ->
    (create_line_from_input_tokens tg (pre ++ InText (s1 ++ s2) [] :: post) sz = Ok l <->
     create_line_from_input_tokens tg (pre ++ InText s1 [] :: InText s2 [] :: post) sz = Ok l).
Proof. exact thm_C66_cut. Qed.
(** "If it " and "rains, then pay" may be cut; "1,0" and "00" may not: the cut is
    inside a segment. *)
Example C66_case :
  u_words (of_string "If it " ++ of_string "rains, then pay") = u_words (of_string "If it ") ++ u_words (of_string "rains, then pay")
  /\ u_words (of_string "If it ") <> [] /\ u_words (of_string "rains, then pay") <> []
  /\ create_line_from_input_tokens tg64 (in65a ++ in65b) str_len = Ok line65
  /\ create_line_from_input_tokens tg64 [InText (of_string "If it rains, then pay") []] str_len = Ok line65
  /\ u_words (of_string "1,0" ++ of_string "00") <> u_words (of_string "1,0") ++ u_words (of_string "00")
  /\ length (ll_tokens (line_from [InText (of_string "1,000") []])) = 3
  /\ length (ll_tokens (line_from [InText (of_string "1,0") []; InText (of_string "00") []])) = 4.
Proof. conj; try fact. Qed.
