(** Configurations that are extended (C99), with concrete cases. *)

From Verif Require Export PropMerge ThmFinerRefuted.

Local Open Scope string_scope.
Local Open Scope list_scope.

(** ** C99 More keywords, delimiters and entries *)
Theorem C99_clauses {UC : Unicode} {U : UserTypes} :
  forall tg sz input l r r' id1 id2 id1' id2' l1 l2 l1' l2',
    Forall wf_input input -> none_of TKeyword input -> none_of TTextTag input -> none_of TClause input ->
    create_line_from_input_tokens tg input sz = Ok l -> more_words r r' ->
    run id1 l (clause_keyword_go r) = Ok l1 -> run id2 l1 clause_go = Ok l2 ->
    run id1' l (clause_keyword_go r') = Ok l1' -> run id2' l1' clause_go = Ok l2' ->
    exists rows rows', query l2 TClause = Ok rows /\ query l2' TClause = Ok rows'
      /\ (forall x', In x' rows' -> exists! x, In x rows /\ lies_in x' x)
      /\ forall a b text cs, In ((a, b), text, cs) rows ->
           (forall i, a <= i + 1 -> i <= b + 1 -> separates (ll_tokens l) r' i -> separates (ll_tokens l) r i) ->
           exists cs', In ((a, b), text, cs') rows'.
Proof. exact thm_C99_clauses. Qed.
Theorem C99_amounts {UC : Unicode} {U : UserTypes} :
  forall tg sz input l parse r r' id id' l1 l2,
    Forall wf_input input -> none_of TTextTag input -> none_of TChar input -> none_of TAmount input ->
    create_line_from_input_tokens tg input sz = Ok l -> no_digit_signs r -> no_digit_signs r' -> more_delimiters r r' ->
    run id l (amount_go parse r) = Ok l1 -> run id' l (amount_go parse r') = Ok l2 ->
    exists xs ys out out', grouped xs ys /\ parsed parse xs = Some out /\ parsed parse ys = Some out'
      /\ query l1 TAmount = Ok (map (amount_row (ll_tokens l)) out) /\ query l2 TAmount = Ok (map (amount_row (ll_tokens l)) out').
Proof. exact thm_C99_amounts. Qed.
Theorem C99_tables {UC : Unicode} {U : UserTypes} :
  forall t tg sz input l id id' (table table' : list (str * list (den t))),
    Forall wf_input input -> none_of t input -> t <> TChar -> t <> TTextTag ->
    create_line_from_input_tokens tg input sz = Ok l -> NoDup (map fst table) -> NoDup (map fst table') -> incl table table' ->
    exists l1 l2 rows rows', run id l (text_match_go (text_match_new table)) = Ok l1 /\ run id' l (text_match_go (text_match_new table')) = Ok l2
      /\ query l1 t = Ok rows /\ query l2 t = Ok rows' /\ incl rows rows'.
Proof. exact thm_C99_tables. Qed.
Theorem C99_tables_ci {UC : Unicode} {U : UserTypes} :
  forall t tg sz input l id id' (table new : list (str * list (den t))),
    Forall wf_input input -> none_of t input -> t <> TChar -> t <> TTextTag ->
    create_line_from_input_tokens tg input sz = Ok l ->
    exists l1 l2 rows rows', run id l (text_match_go (text_match_new_ci table)) = Ok l1 /\ run id' l (text_match_go (text_match_new_ci (new ++ table))) = Ok l2
      /\ query l1 t = Ok rows /\ query l2 t = Ok rows' /\ incl rows rows'.
Proof. exact thm_C99_tables_ci. Qed.
Theorem C99_point_refuted :
  exists input l r r' l1 l2 rows rows' x,
    Forall wf_input input /\ create_line_from_input_tokens tg64 input str_len = Ok l
    /\ decimal r' = decimal r /\ incl (delimiters r) (delimiters r') /\ no_digit_signs r /\ no_digit_signs r'
    /\ run 1 l (amount_go parse_decimal r) = Ok l1 /\ run 1 l (amount_go parse_decimal r') = Ok l2
    /\ query l1 TAmount = Ok rows /\ query l2 TAmount = Ok rows' /\ In x rows /\ forall x', In x' rows' -> ~ lies_in x x'.
Proof. exact thm_C99_point_refuted. Qed.
(** "If it rains, then pay 1,000.50" without keywords, and with. *)
Definition none99 : ClauseKeywordResolver := mkClauseKeywordResolver [] [] [].
Definition lines99 (r : ClauseKeywordResolver) : LLLine * LLLine :=
  let l1 := get no_line (run 1 line1 (clause_keyword_go r)) in (l1, get no_line (run 2 l1 clause_go)).
Example C99_case_clauses :
  create_line_from_input_tokens tg64 in1 str_len = Ok line1 /\ Forall wf_input in1 /\ (forall t, none_of t in1) /\ more_words none99 words
  /\ run 1 line1 (clause_keyword_go none99) = Ok (fst (lines99 none99)) /\ run 2 (fst (lines99 none99)) clause_go = Ok (snd (lines99 none99))
  /\ run 1 line1 (clause_keyword_go words) = Ok (fst (lines99 words)) /\ run 2 (fst (lines99 words)) clause_go = Ok (snd (lines99 words))
  /\ query (snd (lines99 none99)) TClause = Ok
       [((0, 4), of_string "If it rains", [LeadingEffect]); ((7, 11), of_string "then pay 1", [LeadingEffect]);
        ((13, 13), of_string "000", [LeadingEffect]); ((15, 15), of_string "50", [LeadingEffect])]
  /\ query (snd (lines99 words)) TClause = Ok
       [((2, 4), of_string "it rains", [Condition]); ((9, 11), of_string "pay 1", [TrailingEffect]);
        ((13, 13), of_string "000", [TrailingEffect]); ((15, 15), of_string "50", [TrailingEffect])]
  /\ forall i, 13 <= i + 1 -> i <= 13 + 1 -> separates (ll_tokens line1) words i -> separates (ll_tokens line1) none99 i.
Proof.
  split; [vm_compute; reflexivity|]. split; [repeat constructor|]. split; [intros t it a [<-|[]] []|]. split; [intros w [[]|[[]|[]]]|].
  do 6 (split; [vm_compute; reflexivity|]).
  intros i A B H. assert (i = 12 \/ i = 13 \/ i = 14) as [->|[->| ->]] by lia.
  - right. at_fact.
  - exfalso. revert H. not_sep.
  - right. at_fact.
Qed.
(** "pay 1 000,500.25 7" without and with the space as a delimiter: "1" and "000,500.25" are put together. *)
Definition in99a : list InputToken := [InText (of_string "pay 1 000,500.25 7") []].
Definition line99a : LLLine := Eval vm_compute in get no_line (create_line_from_input_tokens tg64 in99a str_len).
Definition space99 : AmountResolver := mkAmountResolver [32%N; 44%N] 46%N.
Example C99_case_amounts :
  create_line_from_input_tokens tg64 in99a str_len = Ok line99a /\ Forall wf_input in99a /\ (forall t, none_of t in99a)
  /\ no_digit_signs comma99 /\ no_digit_signs space99 /\ more_delimiters comma99 space99
  /\ (exists l1, run 1 line99a (amount_go parse_decimal comma99) = Ok l1 /\ query l1 TAmount = Ok
       [((2, 2), of_string "1", [mkDecimal 1 0]); ((4, 8), of_string "000,500.25", [mkDecimal 50025 2]); ((10, 10), of_string "7", [mkDecimal 7 0])])
  /\ (exists l2, run 2 line99a (amount_go parse_decimal space99) = Ok l2 /\ query l2 TAmount = Ok
       [((2, 8), of_string "1 000,500.25", [mkDecimal 100050025 2]); ((10, 10), of_string "7", [mkDecimal 7 0])])
  /\ grouped [((2, 2), of_string "1"); ((4, 8), of_string "000500.25"); ((10, 10), of_string "7")] [((2, 8), of_string "1000500.25"); ((10, 10), of_string "7")].
Proof.
  split; [vm_compute; reflexivity|]. split; [repeat constructor|]. split; [intros t it a [<-|[]] []|]. split; [repeat constructor|]. split; [repeat constructor|].
  split; [split; [reflexivity|]; split; [intros c [<-|[]]; right; now left|vm_compute; intuition discriminate]|].
  split; [eexists; split; vm_compute; reflexivity|]. split; [eexists; split; vm_compute; reflexivity|].
  apply (grouped_cons [((2, 2), of_string "1"); ((4, 8), of_string "000500.25")]); [do 2 eexists; repeat split; reflexivity|].
  apply (grouped_cons [((10, 10), of_string "7")]); [do 2 eexists; repeat split; reflexivity|constructor].
Qed.
(** A table for "pay", and one for "it" as well; ignoring case, an old entry for "PAY" counts. *)
Definition few99 : list (str * list (den TNum)) := [(of_string "pay", [3%N])].
Definition more99 : list (str * list (den TNum)) := [(of_string "it", [1%N; 2%N]); (of_string "pay", [3%N])].
Definition new99 : list (str * list (den TNum)) := [(of_string "it", [1%N]); (of_string "PAY", [8%N])].
Example C99_case_tables :
  NoDup (map fst few99) /\ NoDup (map fst more99) /\ incl few99 more99
  /\ (exists l1, run 1 line1 (text_match_go (text_match_new few99)) = Ok l1 /\ query l1 TNum = Ok [((9, 9), of_string "pay", [3%N])])
  /\ (exists l2, run 1 line1 (text_match_go (text_match_new more99)) = Ok l2 /\ query l2 TNum = Ok [((2, 2), of_string "it", [1%N; 2%N]); ((9, 9), of_string "pay", [3%N])])
  /\ (exists l3, run 1 line1 (text_match_go (text_match_new_ci (new99 ++ few99))) = Ok l3 /\ query l3 TNum = Ok [((2, 2), of_string "it", [1%N]); ((9, 9), of_string "pay", [3%N])]).
Proof.
  split; [repeat constructor; intros []|]. split; [repeat constructor; cbn; intuition discriminate|]. split; [intros x [<-|[]]; right; now left|].
  split; [eexists; split; vm_compute; reflexivity|]. split; eexists; split; vm_compute; reflexivity.
Qed.
