(** What a user sees after running the library's resolvers on a new line, each with a
    concrete case: C37 to C42, C44, C45, C47 to C50, C59. *)

From Verif Require Export PropOrder ThmEnd.

Local Open Scope string_scope.
Local Open Scope list_scope.

Ltac new_line := first [solve [apply none_of_in1]|solve [auto with cases]|solve [repeat constructor]|discriminate|solve [facts]].

Ltac at_fact := eexists _, _; split; vm_compute; reflexivity.
Ltac not_at H := let tok := fresh in let x := fresh in let E := fresh in let E' := fresh in
  destruct H as (tok & x & E & E'); vm_compute in E; inversion E; subst; vm_compute in E'; try discriminate E'; inversion E'; subst; clear E E'.
Tactic Notation "not_sep" := let H := fresh in let Hk := fresh in let k := fresh in
  intros [(k & ? & H & Hk)|H]; not_at H; destruct k; vm_compute in Hk; intuition discriminate.

(** ** C37, C38 Text matches *)
Theorem C37_created {UC : Unicode} {U : UserTypes} :
  forall t tg sz input l id (table : list (str * list (den t))),
    Forall wf_input input -> none_of t input -> t <> TChar -> t <> TTextTag ->
    create_line_from_input_tokens tg input sz = Ok l -> NoDup (map fst table) ->
    exists l', run id l (text_match_go (text_match_new table)) = Ok l'
      /\ query l' t = Ok (rows_by (ll_tokens l) (fun text _ => entry_values (fun k => str_eqb k text) table)).
Proof. exact thm_C37_created. Qed.
Theorem C38_created {UC : Unicode} {U : UserTypes} :
  forall t tg sz input l id (table : list (str * list (den t))),
    Forall wf_input input -> none_of t input -> t <> TChar -> t <> TTextTag ->
    create_line_from_input_tokens tg input sz = Ok l ->
    exists l', run id l (text_match_go (text_match_new_ci table)) = Ok l'
      /\ query l' t = Ok (rows_by (ll_tokens l) (fun text _ => last_entry_values (fun k => same_ignoring_case k text) table)).
Proof. exact thm_C38_created. Qed.
(** "If it rains, then pay 1,000.50"; in the second table the last entry for "if" counts. *)
Definition table59 : list (str * list N) :=
  [(of_string "it", [1; 2]%N); (of_string "IF", [3%N]); (of_string "nothing", [4%N]); (of_string "if", [5%N]); (of_string "pay", [])].
Example C37_created_case :
  Forall wf_input in1 /\ none_of TNum in1 /\ TNum <> TChar /\ TNum <> TTextTag
  /\ create_line_from_input_tokens tg64 in1 str_len = Ok line1 /\ NoDup (map fst table59)
  /\ rows_by (V := N) (ll_tokens line1) (fun text _ => entry_values (fun k => str_eqb k text) table59)
     = [((2, 2), of_string "it", [1; 2]%N)]
  /\ rows_by (V := N) (ll_tokens line1) (fun text _ => last_entry_values (fun k => same_ignoring_case k text) table59)
     = [((0, 0), of_string "If", [5%N]); ((2, 2), of_string "it", [1; 2]%N)].
Proof. conj; try new_line. repeat constructor; simpl; intuition discriminate. Qed.

(** ** C39 to C42, C44 Amounts *)
Theorem C39_created {UC : Unicode} {U : UserTypes} :
  forall tg sz input l parse r id l',
    Forall wf_input input -> none_of TTextTag input -> none_of TChar input -> none_of TAmount input ->
    create_line_from_input_tokens tg input sz = Ok l -> no_digit_signs r ->
    run id l (amount_go parse r) = Ok l' ->
    exists rows, query l' TAmount = Ok rows /\ in_order rows
      /\ forall s e text ds, In ((s, e), text, ds) rows ->
           s <= e < length (ll_tokens l) /\ number_at (ll_tokens l) s /\ number_at (ll_tokens l) e
           /\ text = text_between (ll_tokens l) s e /\ length ds = 1.
Proof. exact thm_C39_created. Qed.
Theorem C40_created {UC : Unicode} {U : UserTypes} :
  forall tg sz input l parse r id l',
    Forall wf_input input -> none_of TTextTag input -> none_of TChar input -> none_of TAmount input ->
    create_line_from_input_tokens tg input sz = Ok l -> no_digit_signs r ->
    run id l (amount_go parse r) = Ok l' ->
    exists rows, query l' TAmount = Ok rows
      /\ forall i, number_at (ll_tokens l) i ->
           exists x, In x rows /\ fst (fst (fst x)) <= i <= snd (fst (fst x))
             /\ forall y, In y rows -> fst (fst (fst y)) <= i <= snd (fst (fst y)) -> y = x.
Proof. exact thm_C40_created. Qed.
Theorem C41_created {UC : Unicode} {U : UserTypes} :
  forall tg sz input l parse r id l',
    Forall wf_input input -> none_of TTextTag input -> none_of TChar input -> none_of TAmount input ->
    create_line_from_input_tokens tg input sz = Ok l -> no_digit_signs r ->
    run id l (amount_go parse r) = Ok l' ->
    exists rows, query l' TAmount = Ok rows
      /\ forall s e text ds, In ((s, e), text, ds) rows ->
           (forall i, s <= i <= e -> number_at (ll_tokens l) i \/ char_at (ll_tokens l) (signs r) i)
           /\ exists d tail, ds = [d] /\ parse (spelled (ll_tokens l) r s e ++ tail) = Some d
              /\ decimal_text (spelled (ll_tokens l) r s e ++ tail)
              /\ (tail = [] \/ (tail = point /\ dangling_point (ll_tokens l) r e)).
Proof. exact thm_C41_created. Qed.
Theorem C42_created {UC : Unicode} {U : UserTypes} :
  forall tg sz input l parse r id l',
    Forall wf_input input -> none_of TTextTag input -> none_of TChar input -> none_of TAmount input ->
    create_line_from_input_tokens tg input sz = Ok l -> no_digit_signs r ->
    run id l (amount_go parse r) = Ok l' ->
    exists rows, query l' TAmount = Ok rows
      /\ forall s e text ds, In ((s, e), text, ds) rows ->
           (forall i, s <= i < e -> number_at (ll_tokens l) i ->
              (char_at (ll_tokens l) (signs r) (i + 1) /\ number_at (ll_tokens l) (i + 2) /\ i + 2 <= e)
              \/ (number_at (ll_tokens l) (i + 1) /\ i + 1 = e))
           /\ (number_at (ll_tokens l) (e + 1) \/ (char_at (ll_tokens l) (signs r) (e + 1) /\ number_at (ll_tokens l) (e + 2)) ->
               s < e /\ (number_at (ll_tokens l) (e - 1)
                         \/ (char_at (ll_tokens l) [decimal r] (e - 1) /\ ~ char_at (ll_tokens l) (delimiters r) (e - 1)))).
Proof. exact thm_C42_created. Qed.
Theorem C44_created {UC : Unicode} {U : UserTypes} :
  forall tg sz input l parse r id p,
    Forall wf_input input -> Forall is_text input -> none_of TTextTag input -> none_of TChar input ->
    create_line_from_input_tokens tg input sz = Ok l -> no_digit_signs r ->
    run id l (amount_go parse r) = Panic p ->
    exists s e tail, s <= e < length (ll_tokens l) /\ number_at (ll_tokens l) s /\ number_at (ll_tokens l) e
      /\ decimal_text (spelled (ll_tokens l) r s e ++ tail) /\ parse (spelled (ll_tokens l) r s e ++ tail) = None
      /\ (tail = [] \/ (tail = point /\ dangling_point (ll_tokens l) r e)).
Proof. exact thm_C44_created. Qed.
(** Two amounts, the second with a dangling point: the parser is given "7." *)
Definition in59 : list InputToken := [InText (of_string "pay 1,000.50 or 7. ") []].
Definition line59 : LLLine := Eval vm_compute in line_from in59.
Definition line59a : LLLine := Eval vm_compute in
  match run 5 line59 (amount_go parse_decimal amount_english) with Ok l => l | _ => line59 end.
Lemma none_of_in59 t : none_of t in59.
Proof. intros it a [<-|[]] []. Qed.
Example C39_created_case :
  Forall wf_input in59 /\ none_of TTextTag in59 /\ none_of TChar in59 /\ none_of TAmount in59
  /\ create_line_from_input_tokens tg64 in59 str_len = Ok line59 /\ no_digit_signs amount_english
  /\ run 5 line59 (amount_go parse_decimal amount_english) = Ok line59a
  /\ query line59a TAmount = Ok [((2, 6), of_string "1,000.50", [mkDecimal 100050 2]); ((10, 10), of_string "7", [mkDecimal 7 0])]
  /\ number_at (ll_tokens line59) 4
  /\ spelled (ll_tokens line59) amount_english 2 6 = of_string "1000.50"
  /\ spelled (ll_tokens line59) amount_english 10 10 = of_string "7" /\ dangling_point (ll_tokens line59) amount_english 10
  /\ char_at (ll_tokens line59) (signs amount_english) 3 /\ number_at (ll_tokens line59) 4
  /\ Forall is_text in59 /\ run 5 line59 (amount_go (fun _ => None) amount_english) = Panic PDecimalParse.
Proof.
  conj; try solve [apply none_of_in59|wf_inputs|repeat constructor|fact].
  - at_fact.
  - split; [exists 46%N; split; [at_fact|now left]|split].
    + intros (c & H & Hin). not_at H. simpl in Hin. intuition discriminate.
    + intros H. not_at H.
  - exists 44%N. split; [at_fact|]. simpl. auto.
  - at_fact.
Qed.

(** ** C45, C50 Keywords and parts of speech *)
Theorem C45_created {UC : Unicode} {U : UserTypes} :
  forall tg sz input l id r,
    Forall wf_input input -> none_of TKeyword input -> create_line_from_input_tokens tg input sz = Ok l ->
    exists f l', run id l (clause_keyword_go r) = Ok l'
      /\ query l' TKeyword = Ok (rows_by (ll_tokens l) (fun text _ => f text)) /\ forall text, keywords_for r text (f text).
Proof. exact thm_C45_created. Qed.
Theorem C50_created {UC : Unicode} {U : UserTypes} :
  forall tg sz input l id dict noun,
    Forall wf_input input -> none_of TTextTag input -> none_of TPos input ->
    create_line_from_input_tokens tg input sz = Ok l ->
    exists l', run id l (pos_go dict noun) = Ok l'
      /\ query l' TPos = Ok (rows_by (ll_tokens l) (fun text tag =>
            match tag with
            | WORD => match dict (u_lower text) with Some tags => tags | None => [noun] end
            | _ => []
            end)).
Proof. exact thm_C50_created. Qed.
Example C45_created_case :
  Forall wf_input in1 /\ none_of TKeyword in1 /\ none_of TTextTag in1 /\ none_of TPos in1
  /\ create_line_from_input_tokens tg64 in1 str_len = Ok line1
  /\ keywords_for words (of_string "If") [KConditionStart] /\ keywords_for words (of_string "pay") []
  /\ query line5 TKeyword = Ok [((0, 0), of_string "If", [KConditionStart]); ((7, 7), of_string "then", [KThen])]
  /\ rows_by (V := N) (ll_tokens line1) (fun text tag => match tag with WORD => match dict50 (u_lower text) with Some tags => tags | None => [9%N] end | _ => [] end)
     = [((2, 2), of_string "it", [9%N]); ((4, 4), of_string "rains", [1; 2]%N); ((7, 7), of_string "then", [9%N]); ((9, 9), of_string "pay", [9%N])].
Proof.
  conj; try new_line.
  - left. exists KConditionStart. split; [reflexivity|]. vm_compute. auto.
  - right. split; [reflexivity|]. intros [] H; vm_compute in H; intuition discriminate.
Qed.

(** ** C47 to C49, C59 Clauses *)
Theorem C47_created {UC : Unicode} {U : UserTypes} :
  forall tg sz input l r id id' l1 l2,
    Forall wf_input input -> none_of TKeyword input -> none_of TTextTag input -> none_of TClause input ->
    create_line_from_input_tokens tg input sz = Ok l ->
    run id l (clause_keyword_go r) = Ok l1 -> run id' l1 clause_go = Ok l2 ->
    exists rows, query l2 TClause = Ok rows /\ in_order rows
      /\ forall a b text cs, In ((a, b), text, cs) rows ->
           a <= b /\ text = text_between (ll_tokens l) a b /\ length cs = 1
           /\ exists lo hi, stretch (ll_tokens l) r lo hi /\ lo <= a /\ b <= hi
              /\ (tag_at (ll_tokens l) lo SPACE -> a = lo + 1) /\ (~ tag_at (ll_tokens l) lo SPACE -> a = lo)
              /\ (tag_at (ll_tokens l) hi SPACE -> b + 1 = hi) /\ (~ tag_at (ll_tokens l) hi SPACE -> b = hi).
Proof. exact thm_C47_created. Qed.
Theorem C48_created {UC : Unicode} {U : UserTypes} :
  forall tg sz input l r id id' l1 l2,
    Forall wf_input input -> none_of TKeyword input -> none_of TTextTag input -> none_of TClause input ->
    create_line_from_input_tokens tg input sz = Ok l ->
    run id l (clause_keyword_go r) = Ok l1 -> run id' l1 clause_go = Ok l2 ->
    exists rows, query l2 TClause = Ok rows
      /\ forall a b text cs lo hi, In ((a, b), text, cs) rows -> stretch (ll_tokens l) r lo hi -> lo <= a <= hi ->
           exists c, cs = [c]
           /\ (c = Condition <-> follows (ll_tokens l) r lo KConditionStart)
           /\ (c = Independent <-> ~ follows (ll_tokens l) r lo KConditionStart /\ only_stretch (ll_tokens l) r lo hi)
           /\ (c = TrailingEffect <-> ~ follows (ll_tokens l) r lo KConditionStart /\ ~ only_stretch (ll_tokens l) r lo hi
                                      /\ (follows (ll_tokens l) r lo KThen \/ condition_before rows a))
           /\ (c = LeadingEffect <-> ~ follows (ll_tokens l) r lo KConditionStart /\ ~ only_stretch (ll_tokens l) r lo hi
                                     /\ ~ follows (ll_tokens l) r lo KThen /\ ~ condition_before rows a).
Proof. exact thm_C48_created. Qed.
Theorem C49_created {UC : Unicode} {U : UserTypes} :
  forall tg sz input l r id id' l1 l2,
    Forall wf_input input -> none_of TKeyword input -> none_of TTextTag input -> none_of TClause input ->
    create_line_from_input_tokens tg input sz = Ok l ->
    run id l (clause_keyword_go r) = Ok l1 -> run id' l1 clause_go = Ok l2 ->
    exists rows, query l2 TClause = Ok rows
      /\ forall lo hi k, stretch (ll_tokens l) r lo hi -> lo <= k <= hi -> ~ tag_at (ll_tokens l) k SPACE ->
           exists x, In x rows /\ lo <= fst (fst (fst x)) /\ snd (fst (fst x)) <= hi
             /\ (forall j, lo <= j <= hi -> ~ tag_at (ll_tokens l) j SPACE -> fst (fst (fst x)) <= j <= snd (fst (fst x)))
             /\ forall y j, In y rows -> fst (fst (fst y)) <= j <= snd (fst (fst y)) -> lo <= j <= hi -> y = x.
Proof. exact thm_C49_created. Qed.
Theorem C49_exact {UC : Unicode} {U : UserTypes} :
  forall tg sz input l r id id' l1 l2,
    Forall wf_input input -> none_of TKeyword input -> none_of TTextTag input -> none_of TClause input ->
    create_line_from_input_tokens tg input sz = Ok l ->
    run id l (clause_keyword_go r) = Ok l1 -> run id' l1 clause_go = Ok l2 ->
    exists rows, query l2 TClause = Ok rows /\ in_order rows
      /\ forall a b text, (exists cs, In ((a, b), text, cs) rows) <->
           text = text_between (ll_tokens l) a b
           /\ exists lo hi, stretch (ll_tokens l) r lo hi /\ without_end_spaces (ll_tokens l) lo hi a b.
Proof. exact thm_C49_exact. Qed.
Theorem C59_partition {UC : Unicode} {U : UserTypes} :
  forall tg sz input l r id id' l1 l2,
    Forall wf_input input -> none_of TKeyword input -> none_of TTextTag input -> none_of TClause input ->
    create_line_from_input_tokens tg input sz = Ok l ->
    run id l (clause_keyword_go r) = Ok l1 -> run id' l1 clause_go = Ok l2 ->
    exists rows, query l2 TClause = Ok rows
      /\ forall i, i < length (ll_tokens l) ->
           (separates (ll_tokens l) r i /\ forall x, In x rows -> ~ fst (fst (fst x)) <= i <= snd (fst (fst x)))
           \/ tag_at (ll_tokens l) i SPACE
           \/ exists x, In x rows /\ fst (fst (fst x)) <= i <= snd (fst (fst x))
                /\ forall y, In y rows -> fst (fst (fst y)) <= i <= snd (fst (fst y)) -> y = x.
Proof. exact thm_C59_partition. Qed.
(** "If it rains, then pay 1,000.50": the stretches are " it rains", " pay 1", "000" and "50". *)
Definition line59c : LLLine := Eval vm_compute in match run 6 line5 clause_go with Ok l => l | _ => line5 end.
Example C47_created_case :
  Forall wf_input in1 /\ none_of TKeyword in1 /\ none_of TTextTag in1 /\ none_of TClause in1
  /\ create_line_from_input_tokens tg64 in1 str_len = Ok line1
  /\ run 5 line1 (clause_keyword_go words) = Ok line5 /\ run 6 line5 clause_go = Ok line59c
  /\ query line59c TClause = Ok [((2, 4), of_string "it rains", [Condition]); ((9, 11), of_string "pay 1", [TrailingEffect]);
                                 ((13, 13), of_string "000", [TrailingEffect]); ((15, 15), of_string "50", [TrailingEffect])]
  /\ stretch (ll_tokens line1) words 8 11 /\ tag_at (ll_tokens line1) 8 SPACE /\ ~ tag_at (ll_tokens line1) 9 SPACE
  /\ follows (ll_tokens line1) words 8 KThen /\ ~ only_stretch (ll_tokens line1) words 8 11
  /\ separates (ll_tokens line1) words 12
  /\ without_end_spaces (ll_tokens line1) 8 11 9 11 /\ text_between (ll_tokens line1) 9 11 = of_string "pay 1".
Proof.
  conj; try new_line.
  - split; [simpl; lia|]. split; [|split].
    + intros i Hi. assert (Hc : i = 8 \/ i = 9 \/ i = 10 \/ i = 11) by lia. destruct Hc as [->|[->|[->| ->]]]; not_sep.
    + right. left. exists KThen, (of_string "then"). split; [at_fact|]. vm_compute. intuition discriminate.
    + right. right. at_fact.
  - at_fact.
  - intros H. not_at H.
  - split; [lia|]. exists (of_string "then"). split; [at_fact|]. vm_compute. intuition discriminate.
  - intros (_ & H). specialize (H 13 ltac:(simpl; lia)). enough (8 <= 13 <= 11) by lia. apply H. not_sep.
  - right. at_fact.
  - split; [lia|]. split; [left; split; [at_fact|reflexivity]|right; split; [intros H; not_at H|reflexivity]].
Qed.
