(** C98: what does depend on the order, and on words being configured once. *)

From Verif Require Export ThmMergeCi ThmRefuted.

Local Open Scope string_scope.
Local Open Scope list_scope.

Definition it98 : N * list (str * list (den TNum)) := (1%N, [(of_string "it", [1%N]); (of_string "never", [2%N])]).
Definition pay98 : N * list (str * list (den TNum)) := (2%N, [(of_string "pay", [3%N; 4%N])]).
Definition line98 : LLLine := Eval vm_compute in get no_line (l1 <- run 1 line1 (text_match_go (text_match_new (snd it98)));; run 2 l1 (text_match_go (text_match_new (snd pay98)))).
Definition line98' : LLLine := Eval vm_compute in get no_line (l1 <- run 2 line1 (text_match_go (text_match_new (snd pay98)));; run 1 l1 (text_match_go (text_match_new (snd it98)))).
Lemma apart98 : keys_apart [snd it98; snd pay98].
Proof.
  constructor; [constructor; [|constructor]|constructor; [constructor|constructor]]. intros k [<-|[<-|[]]] C; vm_compute in C; destruct C as [C|[]]; discriminate C.
Qed.

(** C98: the rows of the query are in the order of the tables. *)
Lemma thm_C98_rows_refuted :
  exists l lg (a b : N * list (str * list (den TNum))) l1 l2,
    History l lg /\ keys_apart [snd a; snd b] /\ after_any l (map table_step [a; b]) l1 /\ after_any l (map table_step [b; a]) l2
    /\ query l1 TNum <> query l2 TNum.
Proof.
  exists line1, lg1, it98, pay98, line98, line98'. split; [exact history1|]. split; [exact apart98|].
  split; [eapply AA_step; [by_comp|]; eapply AA_step; [by_comp|]; apply AA_done|].
  split; [eapply AA_step; [by_comp|]; eapply AA_step; [by_comp|]; apply AA_done|]. vm_compute. discriminate.
Qed.

(** C98: a word configured in two lists can change the clauses. *)
Definition then98 : N * ClauseKeywordResolver := (1%N, mkClauseKeywordResolver [] [] [of_string "then"]).
Definition start98 : N * ClauseKeywordResolver := (2%N, mkClauseKeywordResolver [of_string "then"] [] []).
Definition both98 : ClauseKeywordResolver := mkClauseKeywordResolver [of_string "then"] [] [of_string "then"].
Definition parts98 : LLLine := Eval vm_compute in get no_line (l1 <- run_step 1 line1 (RunClauseKeyword (snd then98));; l2 <- run_step 2 l1 (RunClauseKeyword (snd start98));; run_step 3 l2 RunClause).
Definition whole98 : LLLine := Eval vm_compute in get no_line (l1 <- run_step 1 line1 (RunClauseKeyword both98);; run_step 3 l1 RunClause).
Lemma thm_C98_overlap_refuted :
  exists l lg rs r id id' l1 l2,
    History l lg /\ all_words (map snd rs) r
    /\ after_any l (map keyword_step rs ++ [(id', Lib RunClause)]) l1 /\ after_any l [(id, Lib (RunClauseKeyword r)); (id', Lib RunClause)] l2
    /\ query l1 TClause <> query l2 TClause.
Proof.
  exists line1, lg1, [then98; start98], both98, 1%N, 3%N, parts98, whole98. split; [exact history1|].
  split.
  { intros w. cbn. split; [|split]; (split; [|intros (r' & [<-|[<-|[]]] & Hw); cbn in Hw; tauto]).
    - intros [<-|[]]. exists (snd start98). cbn. auto.
    - intros [<-|[]]. exists (snd then98). cbn. auto.
    - intros []. }
  split; [eapply AA_step; [by_comp|]; eapply AA_step; [by_comp|]; eapply AA_step; [by_comp|]; apply AA_done|].
  split; [eapply AA_step; [by_comp|]; eapply AA_step; [by_comp|]; apply AA_done|]. vm_compute. discriminate.
Qed.

(** C98: ignoring case, "pay" and "PAY" are one key; both values from two tables, one from one. *)
Definition low98 : N * list (str * list (den TNum)) := (1%N, [(of_string "pay", [3%N])]).
Definition up98 : N * list (str * list (den TNum)) := (2%N, [(of_string "PAY", [4%N])]).
Lemma thm_C98_case_refuted :
  exists l lg (a b : N * list (str * list (den TNum))) l1 l2,
    History l lg /\ keys_apart [snd a; snd b] /\ after_any l (map (fun x => any_table_step (fst x, IgnoringCase (snd x))) [a; b]) l1
    /\ run 3 l (text_match_go (text_match_new_ci (snd a ++ snd b))) = Ok l2
    /\ (exists rg text v w, query l1 TNum = Ok [(rg, text, [v; w])] /\ query l2 TNum = Ok [(rg, text, [w])]).
Proof.
  exists line1, lg1, low98, up98. do 2 eexists. split; [exact history1|].
  split; [constructor; [constructor; [|constructor]|constructor; [constructor|constructor]]; intros k [<-|[]] C; vm_compute in C; destruct C as [C|[]]; discriminate C|].
  split; [eapply AA_step; [vm_compute; reflexivity|]; eapply AA_step; [vm_compute; reflexivity|]; apply AA_done|]. split; [vm_compute; reflexivity|].
  do 4 eexists. split; vm_compute; reflexivity.
Qed.
