(** The order of runs, and uniqueness of runs of tokens and of clauses, each with a
    concrete case: C27, C47, C58. *)

From Verif Require Export PropSel PropJoin ThmOrder.

Local Open Scope string_scope.
Local Open Scope list_scope.

(** ** C27 split_by has only one right answer *)
Theorem C27_unique {UC : Unicode} {U : UserTypes} :
  forall s P ps qs, maximal_runs s P ps -> maximal_runs s P qs -> ps = qs.
Proof. exact thm_C27_unique. Qed.
(** "it rains, then pay 1,000" without its first and last words, cut at the spaces. *)
Example C27_unique_case :
  exists found, find_by (mkSel rc1 2 9) x_whitespace = Ok found
    /\ maximal_runs (mkSel rc1 2 9) (touched found) [mkSel rc1 2 2; mkSel rc1 4 5; mkSel rc1 7 7; mkSel rc1 9 9].
Proof.
  destruct C27_single_tokens_case as (HO & (found & HF & _ & HS) & HP).
  exists found. split; [exact HF|].
  destruct (C27_single_tokens unit (mkSel rc1 2 9) x_whitespace found HO HF HS) as (ps & E & M).
  rewrite HP in E. injection E as E. rewrite E. exact M.
Qed.

(** ** C47 the clause resolver has only one right answer *)
Theorem C47_unique {UC : Unicode} {U : UserTypes} :
  forall lg s runs ts out runs' ts' out',
    clauses_of lg s runs ts out -> clauses_of lg s runs' ts' out' -> out = out'.
Proof. exact thm_C47_unique. Qed.
Example C47_unique_case : clauses_of lg5 (whole 6 line5) runs5 trims5 out5 /\ out5 <> [].
Proof. conj; [exact clauses5|discriminate]. Qed.

(** ** C58 Independent runs may be made in any order *)
Theorem C58_reorder {UC : Unicode} {U : UserTypes} :
  forall l lg ss ss' l1,
    History l lg -> attributed_for ss l lg -> reordered ss ss' ->
    after_any l ss l1 -> exists l2, after_any l ss' l2 /\ same_answers l1 l2.
Proof. exact thm_C58_reorder. Qed.
Theorem C58_created {UC : Unicode} {U : UserTypes} :
  forall tg sz input l ss ss',
    Forall wf_input input -> Forall is_text input \/ Forall (fun x => uses_chars (snd x) = false) ss ->
    create_line_from_input_tokens tg input sz = Ok l ->
    reordered ss ss' ->
    ((exists l1, after_any l ss l1) <-> (exists l2, after_any l ss' l2))
    /\ forall l1 l2, after_any l ss l1 -> after_any l ss' l2 -> same_answers l1 l2.
Proof. exact thm_C58_created. Qed.
(** "If it rains, then pay 1,000.50": keywords, clauses, parts of speech, amounts and a
    find of clauses; parts of speech and amounts may be moved to the front.  Keywords
    and clauses may not be exchanged, and exchanging them does change the answers. *)
Definition kw58 : N * any_step := (1%N, Lib (RunClauseKeyword words)).
Definition cl58 : N * any_step := (2%N, Lib RunClause).
Definition pos58 : N * any_step := (3%N, Lib (RunPOSTag dict50 9%N)).
Definition am58 : N * any_step := (4%N, Lib (RunAmount parse_decimal amount_english)).
Definition fd58 : N * any_step := (5%N, Find TNum _ (M_all2 _ _ (M_attr TClause) (M_attr TClause)) (fun _ => 1%N)).
Definition after58 (ss : list (N * any_step)) : res LLLine :=
  foldM (fun l '(id, s) => run_any id l s) ss line1.
Definition line58 : LLLine := Eval vm_compute in
  match after58 [kw58; cl58; pos58; am58; fd58] with Ok l => l | _ => line1 end.
Definition line58b : LLLine := Eval vm_compute in
  match after58 [pos58; am58; kw58; cl58; fd58] with Ok l => l | _ => line1 end.
Definition line58d : LLLine := Eval vm_compute in match after58 [kw58; cl58] with Ok l => l | _ => line1 end.
Definition line58e : LLLine := Eval vm_compute in match after58 [cl58; kw58] with Ok l => l | _ => line1 end.
Lemma after58_any ss : forall l l1, foldM (fun l '(id, s) => run_any id l s) ss l = Ok l1 -> after_any l ss l1.
Proof.
  induction ss as [|[id s] ss IH]; intros l l1; cbn [foldM]; intros E.
  - inversion E. constructor.
  - destruct (run_any id l s) as [l0| |] eqn:E0; cbn [bind] in E; try discriminate. econstructor; eauto.
Qed.
Ltac split58 := split; [discriminate|split; cbn; intuition discriminate].
Example C58_case :
  Forall wf_input in1 /\ Forall is_text in1
  /\ create_line_from_input_tokens tg64 in1 str_len = Ok line1
  /\ History line1 lg1 /\ attributed_for [kw58; cl58; pos58; am58; fd58] line1 lg1
  /\ reordered [kw58; cl58; pos58; am58; fd58] [pos58; am58; kw58; cl58; fd58]
  /\ after_any line1 [kw58; cl58; pos58; am58; fd58] line58
  /\ after_any line1 [pos58; am58; kw58; cl58; fd58] line58b
  /\ query line58 TNum = Ok [((2, 4), of_string "it rains", [1%N]); ((9, 11), of_string "pay 1", [1%N]);
                                ((13, 13), of_string "000", [1%N]); ((15, 15), of_string "50", [1%N])]
  /\ ~ independent (snd kw58) (snd cl58)
  /\ (exists l1 l2, after_any line1 [kw58; cl58] l1 /\ after_any line1 [cl58; kw58] l2 /\ ~ same_answers l1 l2).
Proof.
  conj; try fact.
  - repeat constructor.
  - intros _ i. apply text_attributed; [fact|exact text_only1].
  - apply (R_trans _ [kw58; pos58; cl58; am58; fd58]); [apply R_skip, R_swap; split58|].
    apply (R_trans _ [pos58; kw58; cl58; am58; fd58]); [apply R_swap; split58|]. apply R_skip.
    apply (R_trans _ [kw58; am58; cl58; fd58]); [apply R_skip, R_swap; split58|]. apply R_swap; split58.
  - apply after58_any. vm_compute. reflexivity.
  - apply after58_any. vm_compute. reflexivity.
  - intros (_ & N & _). apply N. now left.
  - exists line58d, line58e. split; [apply after58_any; vm_compute; reflexivity|].
    split; [apply after58_any; vm_compute; reflexivity|]. intros (_ & Q & _). specialize (Q TClause). vm_compute in Q. discriminate Q.
Qed.
(** A line with a value token, and a find that assigns keywords to pairs of tokens. *)
Definition pair58 : N * any_step := (6%N, Find TKeyword _ (M_seq2 _ _ M_text M_text) (fun _ => KThen)).
Definition txt58 : N * any_step := (7%N, Find TNum _ M_text (fun _ => 1%N)).
Definition in58 : list InputToken := [InText (of_string "if it") []; InCustom 5 []; InText (of_string "rains") []].
Definition line58c : LLLine := Eval vm_compute in
  match create_line_from_input_tokens tg64 in58 str_len with Ok l => l | _ => line1 end.
Definition after58c (ss : list (N * any_step)) : res LLLine := foldM (fun l '(id, s) => run_any id l s) ss line58c.
Example C58_values_case :
  Forall wf_input in58 /\ ~ Forall is_text in58 /\ Forall (fun x => uses_chars (snd x) = false) [pair58; txt58]
  /\ create_line_from_input_tokens tg64 in58 str_len = Ok line58c
  /\ reordered [pair58; txt58] [txt58; pair58]
  /\ (l <- after58c [pair58; txt58];; rmap (map (fun '(r, _, vs) => (r, vs))) (query l TKeyword))
     = Ok [((0, 1), [KThen]); ((1, 2), [KThen])]
  /\ exists l1 l2, after_any line58c [pair58; txt58] l1 /\ after_any line58c [txt58; pair58] l2.
Proof.
  conj; try fact.
  - repeat constructor.
  - intros HF. rewrite Forall_forall in HF. apply (HF (InCustom 5 [])). right. now left.
  - apply R_swap. split58.
  - eexists _, _. split; apply after58_any; vm_compute; reflexivity.
Qed.
