(** Lines keep answering (C80), with a concrete case. *)

From Verif Require Export PropWritten ThmGrown.

Local Open Scope string_scope.
Local Open Scope list_scope.

(** ** C80 Lines keep answering *)
Theorem C80_answers {UC : Unicode} {U : UserTypes} :
  forall l, grown l ->
    answers l
    /\ (forall id aft s, derived aft (mkRc id l) s -> sel_line s = mkRc id l /\ (sel_ok s \/ (aft = true /\ sel_past_end s)))
    /\ (forall t id (r : Resolver t), (ll_tokens l <> [] -> well_behaved id l r) ->
          exists l', run id l r = Ok l' /\ ll_tokens l' = ll_tokens l /\ grown l' /\ answers l').
Proof. exact thm_C80_answers. Qed.
Theorem C80_library {UC : Unicode} {U : UserTypes} :
  forall id l s l' lg, History l lg -> ll_tokens l <> [] -> run_step id l s = Ok l' -> behaves id l s.
Proof. exact thm_C80_library. Qed.
(** "If it rains, pay 1,000.5!" and a value token, after all library resolvers and a resolver of a user's. *)
Definition in80 : list InputToken := [InText (of_string "If it rains, pay 1,000.5!") []; InCustom 2%N [any_attribute_new TNum 4%N]].
Definition line80 : LLLine := Eval vm_compute in get_line (create_line_from_input_tokens tg64 in80 len68).
Definition keywords80 : ClauseKeywordResolver := mkClauseKeywordResolver [of_string "if"] [of_string "and"] [of_string "then"].
Definition steps80 : list (N * step) :=
  [(1%N, RunTextMatch TStr (text_match_new_ci_arr (t := TStr) [(of_string "PAY", of_string "owe")])); (2%N, RunClauseKeyword keywords80); (3%N, RunClause);
   (4%N, RunPOSTag (fun _ => None) 8%N); (5%N, RunAmount parse_decimal amount_english)].
Definition run80 (l : res LLLine) (x : N * step) : res LLLine := (l' <- l;; run_step (fst x) l' (snd x)).
Definition line80s : LLLine := Eval vm_compute in get_line (fold_left run80 steps80 (Ok line80)).
Lemma lengths_behave id l : ll_tokens l <> [] -> (exists g, lengths (whole id l) = Ok g) -> well_behaved id l lengths.
Proof.
  intros HN (g & Hg). exists g. split; [exact Hg|]. unfold lengths in Hg. inv_bind Hg. injection Hg as <-. split; [reflexivity|].
  intros x Hx. cbn [go_assignments] in Hx. unfold finish_with in Hx. apply in_map_iff in Hx. destruct Hx as ([s text] & <- & Hs).
  eexists s, _. split; [|reflexivity]. eapply (D_find_by false _ (whole id l) false); [now apply whole_derived|apply LM_token_text|eassumption|exact Hs].
Qed.
Example C80_case :
  grown line80s /\ ll_tokens line80s <> [] /\ well_behaved 6 line80s lengths
  /\ query line80s TClause = Ok [((2, 4), of_string "it rains", [Condition]); ((7, 9), of_string "pay 1", [TrailingEffect]);
       ((11, 11), of_string "000", [TrailingEffect]); ((13, 13), of_string "5", [TrailingEffect]); ((15, 15), [], [TrailingEffect])]
  /\ query line80s TAmount = Ok [((9, 13), of_string "1,000.5", [mkDecimal 10005 1])]
  /\ exists l', run 6 line80s lengths = Ok l'.
Proof.
  assert (HW : Forall wf_input in80) by wf_inputs.
  split; [|split; [discriminate|split; [|split; [vm_compute; reflexivity|split; [vm_compute; reflexivity|]]]]].
  - assert (HG : grown line80) by (apply (Gr_create tg64 len68 in80); [exact HW|vm_compute; reflexivity]).
    assert (HF : forall ss l l', fold_left run80 ss (Ok l) = Ok l' -> grown l -> grown l').
    { induction ss as [|[id s] ss IH]; intros l l' E G; cbn [fold_left] in E; [injection E as <-; exact G|].
      unfold run80 in E at 2. cbn [bind fst snd] in E. destruct (run_step id l s) as [l1|p|] eqn:E1.
      - eapply IH; [exact E|]. eapply Gr_library; eauto.
      - exfalso. clear -E. induction ss as [|x ss IH]; [discriminate|apply IH, E].
      - exfalso. clear -E. induction ss as [|x ss IH]; [discriminate|apply IH, E]. }
    apply (HF steps80 line80); [vm_compute; reflexivity|exact HG].
  - apply lengths_behave; [discriminate|]. eexists. vm_compute. reflexivity.
  - eexists. vm_compute. reflexivity.
Qed.
