(** The properties of the library's resolvers (C37 to C50, C52), each with a concrete
    case that meets its hypotheses. *)

From Verif Require Export ThmRefuted.

Local Open Scope list_scope.

(** ** Deciding the vocabulary of amounts *)
Definition number_of (l : LLLine) (lg : list entry) (i : nat) : option str :=
  match nth_error (ll_tokens l) i with
  | Some tok => match token tok with
                | LText text _ => if existsb (TextTag_eqb NATN) (values_on TTextTag (i, i) lg) then Some text else None
                | LValue => None
                end
  | None => None
  end.
Lemma number_iff l lg i text : number l lg i text <-> number_of l lg i = Some text.
Proof.
  unfold number, number_of. split.
  - intros (tok & tag & -> & -> & H). replace (existsb _ _) with true; [reflexivity|].
    symmetry. apply existsb_exists. exists NATN. auto.
  - destruct (nth_error (ll_tokens l) i) as [tok|]; [|discriminate]. destruct (token tok) as [s tag|] eqn:E; [|discriminate].
    destruct (existsb _ _) eqn:E'; [|discriminate]. intros H. inversion H; subst. exists tok, tag. repeat split; auto.
    apply existsb_exists in E'. destruct E' as (x & Hin & Hx). destruct x; try discriminate. exact Hin.
Qed.
Lemma not_number l lg i : number_of l lg i = None -> ~ is_number l lg i.
Proof. intros E (text & H). apply number_iff in H. congruence. Qed.
Lemma is_a_number l lg i text : number_of l lg i = Some text -> is_number l lg i.
Proof. intros E. exists text. now apply number_iff. Qed.
Lemma no_number_from l lg k : (forall i, i < length (ll_tokens l) - k -> number_of l lg (k + i) = None) ->
  forall i, k <= i -> ~ is_number l lg i.
Proof.
  intros H i Hi. apply not_number. destruct (Nat.lt_ge_cases i (length (ll_tokens l))) as [Hl|Hl].
  - replace i with (k + (i - k)) by lia. apply H. lia.
  - unfold number_of. now rewrite (proj2 (nth_error_None _ _) Hl).
Qed.
Definition charb (lg : list entry) (cs : list char) (i : nat) : bool :=
  existsb (fun c => existsb (N.eqb c) cs) (values_on TChar (i, i) lg).
Lemma char_iff lg cs i : has_char lg cs i <-> charb lg cs i = true.
Proof.
  unfold has_char, charb. rewrite existsb_exists. split; intros (c & H1 & H2); exists c; split; auto.
  - apply existsb_exists. exists c. split; [auto|apply N.eqb_refl].
  - apply existsb_exists in H2. destruct H2 as (x & Hin & Hx). apply N.eqb_eq in Hx. now subst.
Qed.
Lemma not_char lg cs i : charb lg cs i = false -> ~ has_char lg cs i.
Proof. rewrite char_iff. congruence. Qed.
Ltac amount_fact :=
  first [ apply number_iff; vm_compute; reflexivity
        | eapply is_a_number; vm_compute; reflexivity
        | apply not_number; vm_compute; reflexivity
        | apply char_iff; vm_compute; reflexivity
        | apply not_char; vm_compute; reflexivity ].
Ltac below H :=
  match type of H with
  | _ < 0 => inversion H
  | ?i < S _ => is_var i; destruct i; [|apply (proj2 (Nat.succ_lt_mono _ _)) in H; below H]
  end.

(** ** C37 Text matching *)
Theorem C37_case_sensitive {UC : Unicode} {U : UserTypes} :
  forall t id l lg (table : list (str * list (den t))),
    History l lg -> NoDup (map fst table) ->
    runs_to id l lg (text_match_go (text_match_new table))
      (on_tokens (fun _ text => entry_values (fun k => str_eqb k text) table) (ll_tokens l)).
Proof. exact thm_C37_case_sensitive. Qed.
Theorem C37_case_insensitive {UC : Unicode} {U : UserTypes} :
  forall t id l lg (table : list (str * list (den t))),
    History l lg -> NoDup (map (fun e => u_lower (fst e)) table) ->
    runs_to id l lg (text_match_go (text_match_new_ci table))
      (on_tokens (fun _ text => entry_values (fun k => same_ignoring_case k text) table) (ll_tokens l)).
Proof. exact thm_C37_case_insensitive. Qed.
Theorem C37_array {UC : Unicode} {U : UserTypes} :
  forall t id l lg (table : list (str * den t)),
    History l lg -> NoDup (map (fun e => u_lower (fst e)) table) ->
    runs_to id l lg (text_match_go (text_match_new_ci_arr table))
      (on_tokens (fun _ text => entry_values (fun k => same_ignoring_case k text) (map (fun '(k, v) => (k, [v])) table))
         (ll_tokens l)).
Proof. exact thm_C37_array. Qed.
Definition table37 : list (str * list (den TNum)) :=
  [(of_string "IT", [1%N]); (of_string "pay", [2%N; 3%N]); (of_string "never", [4%N])].
Example C37_case :
  History line1 lg1 /\ NoDup (map fst table37) /\ NoDup (map (fun e => u_lower (fst e)) table37)
  /\ on_tokens (fun _ text => entry_values (fun k => str_eqb k text) table37) (ll_tokens line1)
     = [((9, 9), 2%N); ((9, 9), 3%N)]
  /\ on_tokens (fun _ text => entry_values (fun k => same_ignoring_case k text) table37) (ll_tokens line1)
     = [((2, 2), 1%N); ((9, 9), 2%N); ((9, 9), 3%N)].
Proof. conj; try fact; repeat constructor; simpl; intuition discriminate. Qed.
Example C37_array_case :
  NoDup (map (fun e => u_lower (fst e)) [(of_string "IF", 5%N); (of_string "Then", 6%N)])
  /\ on_tokens (fun _ text => entry_values (fun k => same_ignoring_case k text)
        (map (fun '(k, v) => (k, [v])) [(of_string "IF", 5%N); (of_string "Then", 6%N)])) (ll_tokens line1)
     = [((0, 0), 5%N); ((7, 7), 6%N)].
Proof. conj; try fact; repeat constructor; simpl; intuition discriminate. Qed.

(** ** C38 Keys that collide when case is ignored *)
Theorem C38_last_wins {UC : Unicode} {U : UserTypes} :
  forall t id l lg (table : list (str * list (den t))),
    History l lg ->
    runs_to id l lg (text_match_go (text_match_new_ci table))
      (on_tokens (fun _ text => last_entry_values (fun k => same_ignoring_case k text) table) (ll_tokens l)).
Proof. exact thm_C38_last_wins. Qed.
Theorem C38_order_independent {UC : Unicode} {U : UserTypes} :
  forall t id l lg (table table' : list (str * list (den t))) out,
    History l lg -> Permutation table table' ->
    (forall k vs k' vs', In (k, vs) table -> In (k', vs') table -> u_lower k = u_lower k' -> vs = vs') ->
    runs_to id l lg (text_match_go (text_match_new_ci table)) out ->
    runs_to id l lg (text_match_go (text_match_new_ci table')) out.
Proof. exact thm_C38_order_independent. Qed.
Theorem C38_order_dependent {UC : Unicode} {U : UserTypes} :
  forall t id l lg (table : list (str * list (den t))) k vs k' vs' i text,
    History l lg ->
    In (k, vs) table -> In (k', vs') table -> u_lower k = u_lower k' -> vs <> vs' ->
    In (i, text) (text_tokens (ll_tokens l)) -> u_lower text = u_lower k ->
    exists table1 table2, Permutation table table1 /\ Permutation table table2
      /\ forall out,
          runs_to id l lg (text_match_go (text_match_new_ci table1)) out ->
          ~ runs_to id l lg (text_match_go (text_match_new_ci table2)) out.
Proof. exact thm_C38_order_dependent. Qed.
Definition table38 : list (str * list (den TNum)) := [(of_string "Foo", [1%N]); (of_string "foo", [2%N])].
Definition table38' : list (str * list (den TNum)) := [(of_string "Foo", [1%N]); (of_string "bar", [3%N]); (of_string "foo", [1%N])].
Example C38_case :
  History line38 lg38
  /\ on_tokens (fun _ text => last_entry_values (fun k => same_ignoring_case k text) table38) (ll_tokens line38) = [((0, 0), 2%N)]
  /\ u_lower (of_string "Foo") = u_lower (of_string "foo") /\ [1%N] <> [2%N]
  /\ In (0, of_string "Foo") (text_tokens (ll_tokens line38))
  /\ (forall k vs k' vs', In (k, vs) table38' -> In (k', vs') table38' -> u_lower k = u_lower k' -> vs = vs').
Proof.
  conj; try fact; [exact history38|now left|]. intros k vs k' vs' H H' E.
  repeat (destruct H as [H|H]; [inversion H; subst; clear H|]); try easy;
    repeat (destruct H' as [H'|H']; [inversion H'; subst; clear H'|]); try easy; discriminate E.
Qed.
Theorem C38_refuted :
  exists (UC : Unicode) l lg (table : list (str * list (den TNum))) out v,
    History l lg /\ NoDup (map fst table) /\ In (of_string "Foo", [v]) table
    /\ text_tokens (ll_tokens l) = [(0, of_string "Foo")]
    /\ runs_to 5 l lg (text_match_go (text_match_new_ci table)) out /\ ~ In ((0, 0), v) out.
Proof. exact thm_C38_refuted. Qed.
Theorem C38_array_refuted :
  exists (UC : Unicode) l lg (table : list (str * den TNum)) l' v,
    History l lg /\ NoDup (map fst table) /\ In (of_string "Foo", v) table
    /\ text_tokens (ll_tokens l) = [(0, of_string "Foo")]
    /\ run 5 l (text_match_go (text_match_new_ci_arr table)) = Ok l'
    /\ query l' TNum = Ok [((0, 0), of_string "Foo", [2%N])] /\ v <> 2%N.
Proof. exact thm_C38_array_refuted. Qed.

(** ** The amounts of the first line *)
Lemma first1 : first_number line1 lg1 0 11.
Proof.
  split; [lia|]. split; [amount_fact|]. intros i [_ Hi]. below Hi; amount_fact.
Qed.
Lemma amount1 : amount_at line1 lg1 amount_english 11 15 15 (of_string "1000.50").
Proof.
  apply (A_decimal line1 lg1 amount_english 11 13 (of_string "1000") (of_string "50")); try amount_fact.
  apply (G_more line1 lg1 amount_english 11 11 (of_string "1") (of_string "000")); try amount_fact.
  apply G_one. amount_fact.
Qed.
Lemma amounts1 : amounts line1 lg1 amount_english parse_decimal 0 [((11, 15), mkDecimal 100050 2)].
Proof.
  apply (AS_some line1 lg1 amount_english parse_decimal 0 11 15 15 (of_string "1000.50")).
  - exact first1.
  - exact amount1.
  - vm_compute. reflexivity.
  - apply AS_none. apply no_number_from. intros i Hi. simpl in Hi. lia.
Qed.

#[local] Hint Resolve first1 amount1 amounts1 history38 text_only1 plain_tag1 plain_char1 single_keyword5 single_tag5 latin_lower_idem : cases.
Ltac res_fact := first [solve [auto with cases] | amount_fact | fact].

(** ** C39 The amount resolver terminates *)
Theorem C39_terminates {UC : Unicode} {U : UserTypes} :
  forall parse r id l lg, History l lg -> run id l (amount_go parse r) <> OutOfFuel.
Proof. exact thm_C39_terminates. Qed.
Theorem C39_ordered {UC : Unicode} {U : UserTypes} :
  forall parse r id l lg l',
    History l lg -> run id l (amount_go parse r) = Ok l' ->
    exists out, amounts l lg r parse 0 out /\ runs_to id l lg (amount_go parse r) out
      /\ StronglySorted (fun x y : LRange * Decimal => snd (fst x) < fst (fst y)) out
      /\ forall s e d, In ((s, e), d) out -> s <= e < length (ll_tokens l) /\ is_number l lg s /\ is_number l lg e.
Proof. exact thm_C39_ordered. Qed.
Example C39_case :
  History line1 lg1
  /\ exists l', run 5 line1 (amount_go parse_decimal amount_english) = Ok l'
     /\ query l' TAmount = Ok [((11, 15), of_string "1,000.50", [mkDecimal 100050 2])].
Proof. split; [fact|]. eexists. split; vm_compute; reflexivity. Qed.

(** ** C40 Every number is part of exactly one amount *)
Theorem C40_covered {UC : Unicode} {U : UserTypes} :
  forall parse r l lg out i,
    History l lg -> amounts l lg r parse 0 out -> numbers_apart l lg r -> is_number l lg i ->
    exists x, In x out /\ fst (fst x) <= i <= snd (fst x)
      /\ forall y, In y out -> fst (fst y) <= i <= snd (fst y) -> y = x.
Proof. exact thm_C40_covered. Qed.
Theorem C40_numbers_apart {UC : Unicode} {U : UserTypes} :
  forall r l lg,
    History l lg -> plain TTextTag l lg -> plain TChar l lg ->
    Forall (fun c => decimal_digit c = false) (decimal r :: delimiters r) -> numbers_apart l lg r.
Proof. exact thm_C40_numbers_apart. Qed.
Lemma apart1 : numbers_apart line1 lg1 amount_english.
Proof. exact (C40_numbers_apart amount_english line1 lg1 history1 plain_tag1 plain_char1 ltac:(repeat constructor)). Qed.
#[local] Hint Resolve apart1 : cases.
Example C40_case :
  History line1 lg1 /\ amounts line1 lg1 amount_english parse_decimal 0 [((11, 15), mkDecimal 100050 2)]
  /\ plain TTextTag line1 lg1 /\ plain TChar line1 lg1
  /\ Forall (fun c => decimal_digit c = false) (decimal amount_english :: delimiters amount_english)
  /\ numbers_apart line1 lg1 amount_english /\ is_number line1 lg1 13.
Proof. conj; first [now repeat constructor|res_fact]. Qed.

(** ** C41 The value of an amount *)
Theorem C41_value {UC : Unicode} {U : UserTypes} :
  forall parse r l lg out s e d,
    amounts l lg r parse 0 out -> In ((s, e), d) out ->
    exists u text, amount_at l lg r s e u text /\ parse text = Some d.
Proof. exact thm_C41_value. Qed.
Theorem C41_text {UC : Unicode} {U : UserTypes} :
  forall r l lg s e u text,
    numbers_apart l lg r -> amount_at l lg r s e u text ->
    (u = e /\ spells l lg r s e text)
    \/ (u = e + 1 /\ is_delimiter lg r u /\ spells l lg r s e text)
    \/ (u = e + 1 /\ is_decimal lg r u /\ ~ is_delimiter lg r u /\ ~ is_number l lg (u + 1)
        /\ exists body, spells l lg r s e body /\ text = body ++ point).
Proof. exact thm_C41_text. Qed.
Theorem C41_decimal {UC : Unicode} {U : UserTypes} :
  forall r l lg s e u text,
    History l lg -> plain TTextTag l lg -> amount_at l lg r s e u text -> decimal_text text.
Proof. exact thm_C41_decimal. Qed.
(** Also with a dangling point: "7." spells "7." *)
Definition line41 : LLLine := Eval vm_compute in line_from [InText (of_string "7. a") []].
Definition lg41 : list entry := Eval vm_compute in log_from [InText (of_string "7. a") []].
Example C41_case :
  History line1 lg1 /\ amounts line1 lg1 amount_english parse_decimal 0 [((11, 15), mkDecimal 100050 2)]
  /\ numbers_apart line1 lg1 amount_english /\ amount_at line1 lg1 amount_english 11 15 15 (of_string "1000.50")
  /\ plain TTextTag line1 lg1
  /\ amount_at line41 lg41 amount_english 0 0 1 (of_string "7.").
Proof.
  conj; [res_fact..|].
  apply (A_point line41 lg41 amount_english 0 0 (of_string "7")); try amount_fact. apply G_one. amount_fact.
Qed.

(** ** C42 Neighbouring numbers *)
Theorem C42_partial {UC : Unicode} {U : UserTypes} :
  forall r l lg s e u text i,
    History l lg -> numbers_apart l lg r -> amount_at l lg r s e u text ->
    s <= i < e -> is_number l lg i ->
    ((is_delimiter lg r (i + 1) \/ is_decimal lg r (i + 1)) /\ is_number l lg (i + 2) /\ i + 2 <= e)
    \/ (is_number l lg (i + 1) /\ i + 1 = e).
Proof. exact thm_C42_partial. Qed.
Theorem C42_no_neighbours {UC : Unicode} {U : UserTypes} :
  forall r l lg s e u text i,
    History l lg -> numbers_apart l lg r ->
    (forall j, ~ (is_number l lg j /\ is_number l lg (j + 1))) ->
    amount_at l lg r s e u text -> s <= i < e -> is_number l lg i ->
    (is_delimiter lg r (i + 1) \/ is_decimal lg r (i + 1)) /\ is_number l lg (i + 2) /\ i + 2 <= e.
Proof. exact thm_C42_no_neighbours. Qed.
Example C42_case :
  History line1 lg1 /\ numbers_apart line1 lg1 amount_english
  /\ amount_at line1 lg1 amount_english 11 15 15 (of_string "1000.50") /\ is_number line1 lg1 11
  /\ (forall j, ~ (is_number line1 lg1 j /\ is_number line1 lg1 (j + 1))).
Proof.
  conj; [res_fact..|].
  intros j [[t1 H1] [t2 H2]]. apply number_iff in H1, H2.
  assert (Hj : j < 16).
  { destruct (Nat.lt_ge_cases j 16) as [Hl|Hl]; [auto|]. unfold number_of in H1.
    now rewrite (proj2 (nth_error_None (ll_tokens line1) j) Hl) in H1. }
  below Hj; vm_compute in H1, H2; discriminate.
Qed.
Theorem C42_refuted :
  exists input l l',
    create_line_from_input_tokens tg64 input str_len = Ok l
    /\ map (fun tok => ltext (token tok)) (ll_tokens l) = [of_string "1"; of_string "2"]
    /\ run 5 l (amount_go parse_decimal amount_english) = Ok l'
    /\ query l' TAmount = Ok [((0, 1), of_string "12", [mkDecimal 12 0])].
Proof. exact thm_C42_refuted. Qed.

(** ** C43 Groups of digits and the presets *)
Theorem C43_grouped {UC : Unicode} {U : UserTypes} :
  forall parse r id l lg gs f d,
    History l lg -> grouped_number l lg r gs f -> parse (concat gs ++ point ++ f) = Some d ->
    amounts l lg r parse 0 [((0, 2 * length gs), d)]
    /\ runs_to id l lg (amount_go parse r) [((0, 2 * length gs), d)].
Proof. exact thm_C43_grouped. Qed.
Definition in43 : list InputToken := [InText (of_string "1'234,567.89") []].
Definition line43 : LLLine := Eval vm_compute in line_from in43.
Definition lg43 : list entry := Eval vm_compute in log_from in43.
Example C43_case :
  History line43 lg43
  /\ grouped_number line43 lg43 amount_english (map of_string ["1"; "234"; "567"]%string) (of_string "89")
  /\ parse_decimal (concat (map of_string ["1"; "234"; "567"]%string) ++ point ++ of_string "89") = Some (mkDecimal 123456789 2).
Proof.
  unfold grouped_number. conj.
  - apply (history_from in43); [wf_inputs|vm_compute; reflexivity|vm_compute; reflexivity].
  - discriminate.
  - reflexivity.
  - intros i g Hg. destruct i as [|[|[|i]]]; simpl in Hg; inversion Hg; subst; try amount_fact. destruct i; discriminate.
  - intros i Hi. simpl in Hi. destruct i as [|[|i]]; [amount_fact|amount_fact|lia].
  - amount_fact.
  - amount_fact.
  - amount_fact.
  - vm_compute. reflexivity.
Qed.
Theorem C43_documented :
  reads amount_english "1'000'240.00" [("1'000'240.00"%string, mkDecimal 100024000 2)]
  /\ reads amount_english "1,000,000" [("1,000,000"%string, mkDecimal 1000000 0)]
  /\ reads amount_english "1,00,00" [("1,00,00"%string, mkDecimal 10000 0)]
  /\ reads amount_french "1 000 000" [("1 000 000"%string, mkDecimal 1000000 0)].
Proof. exact thm_C43_documented. Qed.
Theorem C43_english_refuted :
  reads amount_english "1.00,00" [("1.00"%string, mkDecimal 100 2); ("00"%string, mkDecimal 0 0)]
  /\ ~ reads amount_english "1.00,00" [("1.00,00"%string, mkDecimal 10000 4)].
Proof. exact thm_C43_english_refuted. Qed.
Theorem C43_french_refuted :
  reads amount_french "1'000'240,00" [("1'000'240"%string, mkDecimal 1000240 0); ("00"%string, mkDecimal 0 0)]
  /\ reads amount_french "1,00" [("1"%string, mkDecimal 1 0); ("00"%string, mkDecimal 0 0)]
  /\ reads amount_french "1.00,00" [("1.00"%string, mkDecimal 100 0); ("00"%string, mkDecimal 0 0)]
  /\ ~ reads amount_french "1'000'240,00" [("1'000'240,00"%string, mkDecimal 100024000 2)]
  /\ ~ reads amount_french "1,00" [("1,00"%string, mkDecimal 100 2)]
  /\ ~ reads amount_french "1.00,00" [("1.00,00"%string, mkDecimal 10000 2)].
Proof. exact thm_C43_french_refuted. Qed.

(** ** C44 When the amount resolver panics *)
Theorem C44_run {UC : Unicode} {U : UserTypes} :
  forall parse r id l lg,
    History l lg ->
    (exists out, amounts l lg r parse 0 out /\ runs_to id l lg (amount_go parse r) out
       /\ (forall out', amounts l lg r parse 0 out' -> out' = out) /\ ~ amounts_fail l lg r parse 0)
    \/ (amounts_fail l lg r parse 0 /\ (forall out, ~ amounts l lg r parse 0 out)
        /\ exists p, run id l (amount_go parse r) = Panic p).
Proof. exact thm_C44_run. Qed.
Theorem C44_panics_iff {UC : Unicode} {U : UserTypes} :
  forall parse r id l lg,
    History l lg ->
    ((exists p, run id l (amount_go parse r) = Panic p) <-> amounts_fail l lg r parse 0).
Proof. exact thm_C44_panics_iff. Qed.
Theorem C44_text_only {UC : Unicode} {U : UserTypes} :
  forall parse r id l lg p,
    History l lg -> text_only l -> run id l (amount_go parse r) = Panic p ->
    exists s e u text, amount_at l lg r s e u text /\ parse text = None.
Proof. exact thm_C44_text_only. Qed.
(** A number before a custom token without attributes; and a text refused by the parser. *)
Definition in44 : list InputToken := [InText (of_string "1") []; InCustom 1 []].
Definition line44 : LLLine := Eval vm_compute in line_from in44.
Definition lg44 : list entry := Eval vm_compute in log_from in44.
Example C44_case :
  History line44 lg44 /\ amounts_fail line44 lg44 amount_english parse_decimal 0
  /\ run 5 line44 (amount_go parse_decimal amount_english) = Panic PFwdAtEnd
  /\ amounts_fail line1 lg1 amount_english (fun _ => None) 0
  /\ text_only line1 /\ run 5 line1 (amount_go (fun _ => None) amount_english) = Panic PDecimalParse
  /\ amounts line1 lg1 amount_english parse_decimal 0 [((11, 15), mkDecimal 100050 2)].
Proof.
  conj.
  - apply (history_from in44); [wf_inputs|vm_compute; reflexivity|vm_compute; reflexivity].
  - apply (AF_unreadable line44 lg44 amount_english parse_decimal 0 0 0 (of_string "1")).
    + split; [lia|]. split; [amount_fact|]. intros i Hi. lia.
    + apply G_one. amount_fact.
    + intros HR. specialize (HR ltac:(simpl; lia)). vm_compute in HR. intuition congruence.
  - vm_compute. reflexivity.
  - exact (AF_parse line1 lg1 amount_english (fun _ => None) 0 11 15 15 (of_string "1000.50") first1 amount1 eq_refl).
  - exact text_only1.
  - vm_compute. reflexivity.
  - exact amounts1.
Qed.

(** ** C45 Clause keywords *)
Theorem C45_keywords {UC : Unicode} {U : UserTypes} :
  forall id l lg r,
    History l lg ->
    exists out, runs_to id l lg (clause_keyword_go r) out
      /\ (forall a b k, In ((a, b), k) out <->
            a = b /\ exists tok text tag, nth_error (ll_tokens l) a = Some tok
                      /\ token tok = LText text tag /\ classified r text k)
      /\ StronglySorted lt (map (fun x => fst (fst x)) out).
Proof. exact thm_C45_keywords. Qed.
Example C45_case :
  History line1 lg1 /\ classified words (of_string "If") KConditionStart /\ classified words (of_string "THEN") KThen
  /\ run 5 line1 (clause_keyword_go words) = Ok line5
  /\ query line5 TKeyword = Ok [((0, 0), of_string "If", [KConditionStart]); ((7, 7), of_string "then", [KThen])].
Proof. conj; try fact; simpl; intuition discriminate. Qed.

(** ** C46 Letter case of keywords *)
Theorem C46_exact {UC : Unicode} {U : UserTypes} :
  forall id l lg r a,
    History l lg ->
    exists out, runs_to id l lg (clause_keyword_go r) out
      /\ ((exists k, In ((a, a), k) out) <->
           exists tok text tag, nth_error (ll_tokens l) a = Some tok
             /\ token tok = LText text tag /\ configured r (u_lower text)).
Proof. exact thm_C46_exact. Qed.
Theorem C46_lowercase_partial {UC : Unicode} {U : UserTypes} :
  forall id l lg r w a tok text tag,
    History l lg -> configured r w -> u_lower w = w ->
    nth_error (ll_tokens l) a = Some tok -> token tok = LText text tag -> u_lower text = u_lower w ->
    exists out k, runs_to id l lg (clause_keyword_go r) out /\ In ((a, a), k) out.
Proof. exact thm_C46_lowercase_partial. Qed.
Theorem C46_never {UC : Unicode} {U : UserTypes} :
  forall id l lg r a,
    History l lg -> (forall s, u_lower (u_lower s) = u_lower s) ->
    (forall w, configured r w -> u_lower w <> w) ->
    exists out, runs_to id l lg (clause_keyword_go r) out /\ forall k, ~ In ((a, a), k) out.
Proof. exact thm_C46_never. Qed.
Example C46_case :
  History line1 lg1 /\ configured words (of_string "if") /\ u_lower (of_string "if") = of_string "if"
  /\ u_lower (of_string "If") = u_lower (of_string "if")
  /\ (forall s : str, u_lower (u_lower s) = u_lower s)
  /\ (forall w, configured (mkClauseKeywordResolver [of_string "If"] [] [of_string "THEN"]) w -> u_lower w <> w).
Proof.
  conj; [fact|left; now left|reflexivity|reflexivity|exact latin_lower_idem|].
  intros w [[<-|[]]|[[<-|[]]|[]]]; discriminate.
Qed.
Theorem C46_refuted :
  exists (UC : Unicode) l lg r w out,
    History l lg /\ configured r w /\ text_tokens (ll_tokens l) = [(0, w)]
    /\ runs_to 5 l lg (clause_keyword_go r) out /\ out = [].
Proof. exact thm_C46_refuted. Qed.

(** ** The clauses of the line with keywords *)
Definition sepb (lg : list entry) (i : nat) : bool :=
  match values_on TKeyword (i, i) lg with _ :: _ => true | [] => existsb (TextTag_eqb PUNC) (values_on TTextTag (i, i) lg) end.
Definition spaceb (lg : list entry) (i : nat) : bool := existsb (TextTag_eqb SPACE) (values_on TTextTag (i, i) lg).
Lemma tag_in tag ts : In tag ts <-> existsb (TextTag_eqb tag) ts = true.
Proof.
  rewrite existsb_exists. split.
  - intros H. exists tag. split; [auto|now destruct tag].
  - intros (x & Hin & Hx). destruct tag, x; try discriminate; exact Hin.
Qed.
Lemma sep_iff lg i : separator lg i <-> sepb lg i = true.
Proof.
  unfold separator, sepb. destruct (values_on TKeyword (i, i) lg) as [|k ks].
  - rewrite <- tag_in. split; [intros [[k []]|H]; exact H|auto].
  - split; [auto|]. intros _. left. exists k. now left.
Qed.
Lemma space_iff lg i : space lg i <-> spaceb lg i = true.
Proof. apply tag_in. Qed.
Definition rc5 : RcLine := mkRc 6 line5.
Definition runs5 : list LLSelection := map (fun '(a, b) => mkSel rc5 a b) [(1, 4); (6, 6); (8, 11); (13, 13); (15, 15)].
Definition trims5 : list (option LLSelection) :=
  [Some (mkSel rc5 2 4); None; Some (mkSel rc5 9 11); Some (mkSel rc5 13 13); Some (mkSel rc5 15 15)].
Definition out5 : list (LRange * Clause) :=
  [((2, 4), Condition); ((9, 11), TrailingEffect); ((13, 13), TrailingEffect); ((15, 15), TrailingEffect)].
Ltac each H := repeat (destruct H as [H|H]; [inversion H; subst; clear H|]); try easy.
Lemma part_ofb (p : LLSelection) (P : nat -> Prop) (b : nat -> bool) o :
  (forall k, P k <-> b k = true) ->
  match o with
  | Some q => sel_line q = sel_line p /\ start_idx q <= end_idx q /\ start_idx p <= start_idx q /\ end_idx q <= end_idx p
              /\ forallb (fun k => Bool.eqb ((start_idx q <=? k) && (k <=? end_idx q)) (b k)) (seq (start_idx p) (S (end_idx p) - start_idx p)) = true
  | None => forallb (fun k => negb (b k)) (seq (start_idx p) (S (end_idx p) - start_idx p)) = true
  end -> part_of p P o.
Proof.
  intros HP. unfold part_of. destruct o as [q|].
  - intros (H1 & H2 & H3 & H4 & HB). split; [auto|]. split; [auto|]. intros k. rewrite forallb_forall in HB.
    unfold covers. rewrite HP. split.
    + intros Hk. split; [lia|]. specialize (HB k ltac:(apply in_seq; lia)). apply Bool.eqb_prop in HB. rewrite <- HB.
      apply andb_true_iff. rewrite !Nat.leb_le. lia.
    + intros [Hk Hb]. specialize (HB k ltac:(apply in_seq; lia)). apply Bool.eqb_prop in HB. rewrite Hb in HB.
      apply andb_true_iff in HB. rewrite !Nat.leb_le in HB. lia.
  - intros HB k [Hk Hb]. rewrite forallb_forall in HB. specialize (HB k ltac:(unfold covers in Hk; apply in_seq; lia)).
    rewrite (proj1 (HP k) Hb) in HB. discriminate.
Qed.
Lemma trimmedb lg p k :
  (~ (k = start_idx p /\ space lg k) /\ ~ (k = end_idx p /\ space lg k)) <->
  negb (Nat.eqb k (start_idx p) && spaceb lg k) && negb (Nat.eqb k (end_idx p) && spaceb lg k) = true.
Proof. rewrite andb_true_iff, !negb_true_iff, !andb_false_iff, !space_iff, !Nat.eqb_neq. destruct (spaceb lg k); intuition congruence. Qed.
Lemma clauses5 : clauses_of lg5 (whole 6 line5) runs5 trims5 out5.
Proof.
  constructor.
  - constructor.
    + intros p Hp. each Hp; simpl; repeat split; lia.
    + intros p k Hp Hk. rewrite sep_iff. unfold covers in Hk.
      assert (Hl : k < 16) by (each Hp; simpl in Hk; lia).
      below Hl; try (vm_compute; discriminate); exfalso; each Hp; simpl in Hk; lia.
    + intros p Hp. rewrite sep_iff. each Hp; right; vm_compute; reflexivity.
    + intros p Hp. rewrite sep_iff. each Hp; first [right; vm_compute; reflexivity|left; vm_compute; reflexivity].
    + intros k Hk HS. rewrite sep_iff in HS. unfold covers in *. assert (Hl : k < 16) by (simpl in Hk; lia). clear Hk.
      assert (HF : forallb (fun k => sepb lg5 k || existsb (fun p => (start_idx p <=? k) && (k <=? end_idx p)) runs5) (seq 0 16) = true)
        by (vm_compute; reflexivity).
      rewrite forallb_forall in HF. specialize (HF k ltac:(apply in_seq; lia)). apply orb_true_iff in HF.
      destruct HF as [HF|HF]; [contradiction|]. apply existsb_exists in HF. destruct HF as (p & Hp & HF).
      exists p. split; [auto|]. apply andb_true_iff in HF. rewrite !Nat.leb_le in HF. auto.
    + repeat constructor.
  - repeat apply Forall2_cons; try apply Forall2_nil;
      (eapply part_ofb; [intros k; apply trimmedb|]); simpl; repeat split; try lia; vm_compute; reflexivity.
  - reflexivity.
  - intros i rg c p t Ho Hw. unfold out5 in Ho. change (worded runs5 trims5) with
      (map (fun '(a, b, c, d) => (mkSel rc5 a b, mkSel rc5 c d)) [(1, 4, 2, 4); (8, 11, 9, 11); (13, 13, 13, 13); (15, 15, 15, 15)]) in Hw.
    do 4 (destruct i as [|i]; [cbn [nth_error map] in Ho, Hw; inversion Ho; inversion Hw; subst; vm_compute; reflexivity|]).
    destruct i; discriminate.
Qed.

(** ** C47 Clauses are the trimmed runs between separators *)
Theorem C47_clauses {UC : Unicode} {U : UserTypes} :
  forall id l lg,
    History l lg -> single lg TKeyword -> single lg TTextTag ->
    exists out, runs_to id l lg clause_go out
      /\ (ll_tokens l = [] -> out = [])
      /\ (ll_tokens l <> [] -> exists runs ts, clauses_of lg (whole id l) runs ts out).
Proof. exact thm_C47_clauses. Qed.
Theorem C47_disjoint {UC : Unicode} {U : UserTypes} :
  forall lg s runs ts out,
    clauses_of lg s runs ts out ->
    StronglySorted (fun x y : LRange * Clause => snd (fst x) < fst (fst y)) out
    /\ forall a b c, In ((a, b), c) out ->
         a <= b
         /\ (forall k, a <= k <= b -> covers s k /\ ~ separator lg k)
         /\ exists p, In p runs /\ start_idx p <= a <= start_idx p + 1 /\ b <= end_idx p <= b + 1
              /\ (a = start_idx p + 1 -> space lg (start_idx p))
              /\ (end_idx p = b + 1 -> space lg (end_idx p)).
Proof. exact thm_C47_disjoint. Qed.
Theorem C47_after_keywords {UC : Unicode} {U : UserTypes} :
  forall tg sz input l r id id',
    Forall wf_input input -> none_of TKeyword input -> none_of TTextTag input ->
    create_line_from_input_tokens tg input sz = Ok l -> ll_tokens l <> [] ->
    exists l1 l2 lg runs ts out,
      run id l (clause_keyword_go r) = Ok l1 /\ run id' l1 clause_go = Ok l2
      /\ History l1 lg /\ runs_to id' l1 lg clause_go out /\ clauses_of lg (whole id' l1) runs ts out
      /\ (forall i k, In k (values_on TKeyword (i, i) lg) <->
            exists tok text tag, nth_error (ll_tokens l) i = Some tok /\ token tok = LText text tag /\ classified r text k)
      /\ (forall i tag, In tag (values_on TTextTag (i, i) lg) <->
            exists tok text, nth_error (ll_tokens l) i = Some tok /\ token tok = LText text tag).
Proof. exact thm_C47_after_keywords. Qed.
#[local] Hint Resolve clauses5 : cases.
Example C47_case :
  History line5 lg5 /\ single lg5 TKeyword /\ single lg5 TTextTag /\ ll_tokens line5 <> []
  /\ clauses_of lg5 (whole 6 line5) runs5 trims5 out5
  /\ rmap (@pairs _) (l' <- run 6 line5 clause_go;; query l' TClause) = Ok out5.
Proof. facts. Qed.
Lemma none_of_in1 t : none_of t in1.
Proof. intros it a [<-|[]] []. Qed.
#[local] Hint Resolve none_of_in1 : cases.
Example C47_after_keywords_case :
  Forall wf_input in1 /\ none_of TKeyword in1 /\ none_of TTextTag in1
  /\ create_line_from_input_tokens tg64 in1 str_len = Ok line1 /\ ll_tokens line1 <> [].
Proof. conj; first [solve [auto with cases]|discriminate|repeat constructor]. Qed.

(** ** C48 The kinds of clauses *)
Theorem C48_kinds {UC : Unicode} {U : UserTypes} :
  forall lg s runs ts before rg c after p,
    clauses_of lg s runs ts (before ++ (rg, c) :: after) -> In p runs -> covers p (fst rg) ->
    c = clause_kind (Nat.eqb (length runs) 1) (map snd before) (keyword_before lg p).
Proof. exact thm_C48_kinds. Qed.
Theorem C48_no_leading_effect_after_condition {UC : Unicode} {U : UserTypes} :
  forall lg s runs ts a ra b rb c d,
    clauses_of lg s runs ts (a ++ (ra, Condition) :: b ++ (rb, c) :: d) -> c <> LeadingEffect /\ c <> Independent.
Proof. exact thm_C48_no_leading_effect_after_condition. Qed.
Theorem C48_independent {UC : Unicode} {U : UserTypes} :
  forall lg s runs ts out rg c,
    clauses_of lg s runs ts out -> In (rg, c) out ->
    (length runs <> 1 -> c <> Independent)
    /\ (length runs = 1 -> out = [(rg, c)] /\ (c = Condition \/ c = Independent)
        /\ (c = Condition <-> exists p, In p runs /\ keyword_before lg p = Some KConditionStart)).
Proof. exact thm_C48_independent. Qed.
Example C48_case :
  clauses_of lg5 (whole 6 line5) runs5 trims5 ([] ++ ((2, 4), Condition) :: [((9, 11), TrailingEffect)] ++ ((13, 13), TrailingEffect) :: [((15, 15), TrailingEffect)])
  /\ In (mkSel rc5 8 11) runs5 /\ covers (mkSel rc5 8 11) 9 /\ keyword_before lg5 (mkSel rc5 8 11) = Some KThen
  /\ keyword_before lg5 (mkSel rc5 13 13) = None /\ length runs5 <> 1.
Proof. conj; first [exact clauses5|solve [simpl; tauto]|fact]. Qed.
(** A line with one run only: "hold on" *)
Definition in48 : list InputToken := [InText (of_string "hold on") []].
Definition line48 : LLLine := Eval vm_compute in line_from in48.
Definition lg48 : list entry := Eval vm_compute in log_from in48.
Definition sel48 : LLSelection := mkSel (mkRc 6 line48) 0 2.
Example C48_independent_case : clauses_of lg48 (whole 6 line48) [sel48] [Some sel48] [((0, 2), Independent)].
Proof.
  assert (HS : forall k, covers sel48 k -> ~ separator lg48 k).
  { intros k [_ Hk]. apply le_n_S in Hk. change (k < 3) in Hk. rewrite sep_iff. below Hk; vm_compute; discriminate. }
  constructor.
  - constructor.
    + intros p [<-|[]]. vm_compute. repeat split; lia.
    + intros p k [<-|[]]. apply HS.
    + intros p [<-|[]]. now left.
    + intros p [<-|[]]. now left.
    + intros k Hk _. exists sel48. split; [now left|exact Hk].
    + repeat constructor.
  - repeat apply Forall2_cons; try apply Forall2_nil.
    eapply part_ofb; [intros k; apply trimmedb|]. simpl. repeat split; try lia; vm_compute; reflexivity.
  - reflexivity.
  - intros [|[|i]] rg c p t Ho Hw; vm_compute in Ho, Hw; inversion Ho; inversion Hw; subst; reflexivity.
Qed.

(** ** C49 Every word is in a clause *)
Theorem C49_covered {UC : Unicode} {U : UserTypes} :
  forall lg s runs ts out p k,
    clauses_of lg s runs ts out -> In p runs -> covers p k -> ~ space lg k ->
    exists x, In x out
      /\ start_idx p <= fst (fst x) /\ snd (fst x) <= end_idx p
      /\ (forall j, covers p j -> ~ space lg j -> fst (fst x) <= j <= snd (fst x))
      /\ forall y j, In y out -> fst (fst y) <= j <= snd (fst y) -> covers p j -> y = x.
Proof. exact thm_C49_covered. Qed.
Example C49_case :
  clauses_of lg5 (whole 6 line5) runs5 trims5 out5 /\ In (mkSel rc5 8 11) runs5 /\ covers (mkSel rc5 8 11) 10
  /\ covers (mkSel rc5 8 11) 11 /\ ~ space lg5 11 /\ space lg5 10.
Proof. conj; rewrite ?space_iff; first [exact clauses5|solve [simpl; tauto]|fact]. Qed.
Theorem C49_refuted :
  exists (UC : Unicode) l l',
    create_line_from_string tg64 [32; 9; 32]%N = Ok l
    /\ map token (ll_tokens l) = [LText [32%N] SPACE; LText [9%N] SPACE; LText [32%N] SPACE]
    /\ run 5 l clause_go = Ok l' /\ query l' TClause = Ok [((1, 1), [9%N], [Independent])].
Proof. exact thm_C49_refuted. Qed.

(** ** C50 Part of speech tags *)
Theorem C50_tags {UC : Unicode} {U : UserTypes} :
  forall id l lg dict noun,
    History l lg ->
    runs_to id l lg (pos_go dict noun)
      (on_tokens (fun i text => flat_map (fun _ => match dict (u_lower text) with Some tags => tags | None => [noun] end)
                                         (tagged WORD i lg)) (ll_tokens l)).
Proof. exact thm_C50_tags. Qed.
Theorem C50_plain {UC : Unicode} {U : UserTypes} :
  forall id l lg dict noun,
    History l lg -> plain_tags l lg ->
    exists out, runs_to id l lg (pos_go dict noun) out
      /\ forall i tok text tag, nth_error (ll_tokens l) i = Some tok -> token tok = LText text tag ->
          filter_map (fun x => if range_eqb (fst x) (i, i) then Some (snd x) else None) out
          = match tag with
            | WORD => match dict (u_lower text) with Some tags => tags | None => [noun] end
            | _ => []
            end.
Proof. exact thm_C50_plain. Qed.
Definition dict50 (w : str) : option (list N) :=
  if str_eqb w (of_string "rains") then Some [1; 2]%N else if str_eqb w (of_string "if") then Some []  else None.
Lemma plain_tags1 : plain_tags line1 lg1.
Proof.
  intros i tok s tag Hn Ht. assert (Hi : i < 16) by (apply (nth_error_Some (ll_tokens line1)); congruence).
  below Hi; vm_compute in Hn; inversion Hn; subst; simpl in Ht; inversion Ht; subst; reflexivity.
Qed.
Example C50_case :
  History line1 lg1 /\ plain_tags line1 lg1
  /\ rmap (@pairs _) (l' <- run 6 line1 (pos_go dict50 9%N);; query l' TPos)
     = Ok [((2, 2), 9%N); ((4, 4), 1%N); ((4, 4), 2%N); ((7, 7), 9%N); ((9, 9), 9%N)].
Proof. conj; [fact|exact plain_tags1|fact]. Qed.

(** ** C52 Pipelines of the library's resolvers *)
Theorem C52_created_single {UC : Unicode} {U : UserTypes} :
  forall tg sz input l,
    Forall wf_input input -> none_of TKeyword input -> none_of TTextTag input ->
    create_line_from_input_tokens tg input sz = Ok l ->
    exists lg, History l lg /\ single lg TKeyword /\ single lg TTextTag.
Proof. exact thm_C52_created_single. Qed.
Theorem C52_without_amounts {UC : Unicode} {U : UserTypes} :
  forall l lg steps,
    History l lg -> single lg TKeyword -> single lg TTextTag -> Forall no_amounts steps ->
    exists l', after_steps l steps l' /\ ll_tokens l' = ll_tokens l.
Proof. exact thm_C52_without_amounts. Qed.
Theorem C52_pipelines {UC : Unicode} {U : UserTypes} :
  forall tg sz input l steps,
    Forall wf_input input -> Forall is_text input -> none_of TKeyword input -> none_of TTextTag input ->
    create_line_from_input_tokens tg input sz = Ok l ->
    Forall decent steps ->
    exists l', after_steps l steps l' /\ ll_tokens l' = ll_tokens l.
Proof. exact thm_C52_pipelines. Qed.
Lemma read_digits_ok s acc : Forall (fun c => decimal_digit c = true) s -> read_digits s acc <> None.
Proof. revert acc. induction s as [|c s IH]; intros acc H; simpl; [discriminate|]. inversion H as [|x y H1 H2]; subst. rewrite H1. auto. Qed.
Lemma digit_not_point c : decimal_digit c = true -> N.eqb c 46 = false.
Proof. intros H. apply N.eqb_neq. intros ->. discriminate. Qed.
Lemma cut_digits a b : Forall (fun c => decimal_digit c = true) a ->
  cut_point a = (a, None) /\ cut_point (a ++ point ++ b) = (a, Some b).
Proof.
  induction a as [|c a IH]; intros H; [now split|]. inversion H as [|x y H1 H2]; subst. destruct (IH H2) as [E1 E2].
  simpl. rewrite (digit_not_point c H1), E1. split; [reflexivity|]. simpl in E2. now rewrite E2.
Qed.
Lemma parse_decimal_accepts text : decimal_text text -> parse_decimal text <> None.
Proof.
  assert (HD : forall a f z n, a <> [] -> Forall (fun c => decimal_digit c = true) a -> Forall (fun c => decimal_digit c = true) f ->
    match a with [] => None | _ :: _ => option_map (fun z => mkDecimal z n) (read_digits (a ++ f) z) end <> None).
  { intros a f z n Ha H1 H2. destruct a; [easy|]. destruct (read_digits _ z) eqn:E; [discriminate|].
    apply read_digits_ok in E; [easy|]. apply Forall_app. auto. }
  unfold parse_decimal. intros [[Hn Ha]|(a & b & [Hn Ha] & Hb & ->)].
  - rewrite (proj1 (cut_digits text [] Ha)). apply HD; auto.
  - rewrite (proj2 (cut_digits a b Ha)). apply HD; auto. destruct Hb as [->|[_ Hb]]; auto.
Qed.
Definition steps52 : list (N * step) :=
  [(1%N, RunTextMatch TNum (text_match_new_ci table37)); (2%N, RunClauseKeyword words); (3%N, RunClause);
   (4%N, RunPOSTag dict50 9%N); (5%N, RunAmount parse_decimal amount_english); (6%N, RunClause)].
Example C52_case :
  Forall wf_input in1 /\ Forall is_text in1 /\ none_of TKeyword in1 /\ none_of TTextTag in1
  /\ create_line_from_input_tokens tg64 in1 str_len = Ok line1 /\ Forall decent steps52
  /\ Forall no_amounts (firstn 4 steps52) /\ History line5 lg5 /\ single lg5 TKeyword /\ single lg5 TTextTag.
Proof.
  conj; first [solve [auto with cases]|repeat constructor; try discriminate]; exact parse_decimal_accepts.
Qed.
