(** Tables and keyword lists taken apart (C98), with concrete cases. *)

From Verif Require Export PropBound ThmMergeRefuted.

Local Open Scope string_scope.
Local Open Scope list_scope.

(** ** C98 Tables and keyword lists may be taken apart *)
Theorem C98_tables {UC : Unicode} {U : UserTypes} :
  forall t l lg (tables tables' : list (N * list (str * list (den t)))),
    History l lg -> Forall (fun x => NoDup (map fst (snd x))) tables -> Forall (fun x => NoDup (map fst (snd x))) tables' ->
    (forall text, flat_map (fun x => entry_values (fun k => str_eqb k text) (snd x)) tables = flat_map (fun x => entry_values (fun k => str_eqb k text) (snd x)) tables') ->
    exists l1 l2, after_any l (map table_step tables) l1 /\ after_any l (map table_step tables') l2 /\ interchangeable t l1 l2.
Proof. exact thm_C98_tables. Qed.
Theorem C98_split {UC : Unicode} {U : UserTypes} :
  forall t l lg id (tables : list (N * list (str * list (den t)))),
    History l lg -> keys_apart (map snd tables) -> Forall (fun x => NoDup (map fst (snd x))) tables ->
    exists l1 l2, after_any l (map table_step tables) l1 /\ run id l (text_match_go (text_match_new (concat (map snd tables)))) = Ok l2 /\ interchangeable t l1 l2.
Proof. exact thm_C98_split. Qed.
Theorem C98_order {UC : Unicode} {U : UserTypes} :
  forall t l lg (tables tables' : list (N * list (str * list (den t)))),
    History l lg -> keys_apart (map snd tables) -> Forall (fun x => NoDup (map fst (snd x))) tables -> Permutation tables tables' ->
    exists l1 l2, after_any l (map table_step tables) l1 /\ after_any l (map table_step tables') l2 /\ interchangeable t l1 l2.
Proof. exact thm_C98_order. Qed.
Theorem C98_keywords {UC : Unicode} {U : UserTypes} :
  forall l lg id rs r,
    History l lg -> words_apart (map snd rs) -> all_words (map snd rs) r ->
    exists l1 l2, after_any l (map keyword_step rs) l1 /\ run id l (clause_keyword_go r) = Ok l2 /\ interchangeable TKeyword l1 l2.
Proof. exact thm_C98_keywords. Qed.
Theorem C98_mixed {UC : Unicode} {U : UserTypes} :
  forall t l lg (xs ys : list (N * Table t)),
    History l lg -> Forall (fun x => hash_table (snd x)) xs -> Forall (fun x => hash_table (snd x)) ys ->
    (forall text, flat_map (fun x => table_says text (snd x)) xs = flat_map (fun x => table_says text (snd x)) ys) ->
    exists l1 l2, after_any l (map any_table_step xs) l1 /\ after_any l (map any_table_step ys) l2 /\ interchangeable t l1 l2.
Proof. exact thm_C98_mixed. Qed.
Theorem C98_split_ci {UC : Unicode} {U : UserTypes} :
  forall t l lg id (tables : list (N * list (str * list (den t)))),
    History l lg -> keys_apart_ci (map snd tables) ->
    exists l1 l2, after_any l (map (fun x => any_table_step (fst x, IgnoringCase (snd x))) tables) l1
      /\ run id l (text_match_go (text_match_new_ci (concat (map snd tables)))) = Ok l2 /\ interchangeable t l1 l2.
Proof. exact thm_C98_split_ci. Qed.
Theorem C98_rows_refuted :
  exists l lg (a b : N * list (str * list (den TNum))) l1 l2,
    History l lg /\ keys_apart [snd a; snd b] /\ after_any l (map table_step [a; b]) l1 /\ after_any l (map table_step [b; a]) l2
    /\ query l1 TNum <> query l2 TNum.
Proof. exact thm_C98_rows_refuted. Qed.
Theorem C98_overlap_refuted :
  exists l lg rs r id id' l1 l2,
    History l lg /\ all_words (map snd rs) r
    /\ after_any l (map keyword_step rs ++ [(id', Lib RunClause)]) l1 /\ after_any l [(id, Lib (RunClauseKeyword r)); (id', Lib RunClause)] l2
    /\ query l1 TClause <> query l2 TClause.
Proof. exact thm_C98_overlap_refuted. Qed.
Theorem C98_case_refuted :
  exists l lg (a b : N * list (str * list (den TNum))) l1 l2,
    History l lg /\ keys_apart [snd a; snd b] /\ after_any l (map (fun x => any_table_step (fst x, IgnoringCase (snd x))) [a; b]) l1
    /\ run 3 l (text_match_go (text_match_new_ci (snd a ++ snd b))) = Ok l2
    /\ (exists rg text v w, query l1 TNum = Ok [(rg, text, [v; w])] /\ query l2 TNum = Ok [(rg, text, [w])]).
Proof. exact thm_C98_case_refuted. Qed.
(** "If it rains, then pay 1,000.50" with two tables, and with one that has all entries. *)
Example C98_case_tables :
  History line1 lg1 /\ keys_apart (map snd [it98; pay98]) /\ Forall (fun x => NoDup (map fst (snd x))) [it98; pay98] /\ Permutation [it98; pay98] [pay98; it98]
  /\ after_any line1 (map table_step [it98; pay98]) line98 /\ after_any line1 (map table_step [pay98; it98]) line98'
  /\ query line98 TNum = Ok [((2, 2), of_string "it", [1%N]); ((9, 9), of_string "pay", [3%N; 4%N])]
  /\ query line98' TNum = Ok [((9, 9), of_string "pay", [3%N; 4%N]); ((2, 2), of_string "it", [1%N])].
Proof.
  split; [exact history1|]. split; [exact apart98|].
  split; [repeat constructor; cbn; intuition discriminate|]. split; [apply perm_swap|].
  split; [eapply AA_step; [by_comp|]; eapply AA_step; [by_comp|]; apply AA_done|].
  split; [eapply AA_step; [by_comp|]; eapply AA_step; [by_comp|]; apply AA_done|]. split; vm_compute; reflexivity.
Qed.
(** Conditions, then the rest; or all keywords at once. *)
Definition kws98 : list (N * ClauseKeywordResolver) :=
  [(1%N, mkClauseKeywordResolver (kw_cond_start words) [] []); (2%N, mkClauseKeywordResolver [] (kw_and words) (kw_then words))].
Example C98_case_keywords :
  words_apart (map snd kws98) /\ all_words (map snd kws98) words
  /\ exists l1 l2 q, after_any line1 (map keyword_step kws98 ++ [(3%N, Lib RunClause)]) l1 /\ after_any line1 [(4%N, Lib (RunClauseKeyword words)); (3%N, Lib RunClause)] l2
       /\ query l1 TClause = Ok q /\ query l2 TClause = Ok q /\ map (fun x => (fst (fst x), snd x)) q = [((2, 4), [Condition]); ((9, 11), [TrailingEffect]); ((13, 13), [TrailingEffect]); ((15, 15), [TrailingEffect])].
Proof.
  split.
  { constructor; [constructor; [|constructor]|constructor; [constructor|constructor]]. intros w H C. unfold configured in H, C. vm_compute in H, C.
    repeat match goal with H : _ \/ _ |- _ => destruct H as [H|H] end; try contradiction; rewrite <- H in C; discriminate C. }
  split.
  { intros w. cbn [map snd kws98]. split; [|split]; (split; [|intros (r' & [<-|[<-|[]]] & Hw); cbn [kw_cond_start kw_then kw_and] in Hw; (exact Hw || destruct Hw)]); intros Hw.
    - exists (mkClauseKeywordResolver (kw_cond_start words) [] []). split; [left; reflexivity|exact Hw].
    - exists (mkClauseKeywordResolver [] (kw_and words) (kw_then words)). split; [right; left; reflexivity|exact Hw].
    - exists (mkClauseKeywordResolver [] (kw_and words) (kw_then words)). split; [right; left; reflexivity|exact Hw]. }
  do 3 eexists. split; [eapply AA_step; [vm_compute; reflexivity|]; eapply AA_step; [vm_compute; reflexivity|]; eapply AA_step; [vm_compute; reflexivity|]; apply AA_done|].
  split; [eapply AA_step; [vm_compute; reflexivity|]; eapply AA_step; [vm_compute; reflexivity|]; apply AA_done|]. split; [vm_compute; reflexivity|]. split; vm_compute; reflexivity.
Qed.
(** A table that ignores case and one that does not, in either order; two tables that ignore case, and one. *)
Definition loud98 : Table TNum := IgnoringCase (t := TNum) [(of_string "PAY", [3%N]); (of_string "Pay", [4%N])].
Definition plain98 : Table TNum := AsWritten (t := TNum) [(of_string "it", [1%N; 2%N])].
Example C98_case_mixed :
  History line1 lg1 /\ Forall (fun x => hash_table (snd x)) [(1%N, loud98); (2%N, plain98)]
  /\ (forall text, flat_map (fun x => table_says text (snd x)) [(1%N, loud98); (2%N, plain98)] = flat_map (fun x => table_says text (snd x)) [(2%N, plain98); (1%N, loud98)])
  /\ (exists l1, after_any line1 (map any_table_step [(1%N, loud98); (2%N, plain98)]) l1
        /\ query l1 TNum = Ok [((9, 9), of_string "pay", [4%N]); ((2, 2), of_string "it", [1%N; 2%N])])
  /\ keys_apart_ci [[(of_string "PAY", [3%N]); (of_string "Pay", [4%N])]; [(of_string "IT", [1%N])]]
  /\ exists l2, run 3 line1 (text_match_go (text_match_new_ci (t := TNum) ([(of_string "PAY", [3%N]); (of_string "Pay", [4%N])] ++ [(of_string "IT", [1%N])]))) = Ok l2
        /\ query l2 TNum = Ok [((2, 2), of_string "it", [1%N]); ((9, 9), of_string "pay", [4%N])].
Proof.
  split; [exact history1|]. split; [repeat constructor; intros []|]. split.
  { intros text. cbn [flat_map snd]. rewrite !app_nil_r. destruct (str_eqb (of_string "it") text) eqn:E.
    - apply str_eqb_spec in E. subst text. vm_compute. reflexivity.
    - replace (table_says text plain98) with (@nil (den TNum)); [now rewrite app_nil_r|]. unfold plain98, table_says, entry_values. cbn [flat_map]. rewrite E. reflexivity. }
  split; [eexists; split; [eapply AA_step; [vm_compute; reflexivity|]; eapply AA_step; [vm_compute; reflexivity|]; apply AA_done|vm_compute; reflexivity]|].
  split; [constructor; [constructor; [|constructor]|constructor; [constructor|constructor]]; intros k k' [<-|[<-|[]]] [<-|[]]; vm_compute; discriminate|].
  eexists. split; vm_compute; reflexivity.
Qed.
