(** C52: pipelines of the library's resolvers do not fail on text. *)

From Verif Require Export SpecPipe ThmClause ThmAmount.

Section ThmPipe.
Context {UC : Unicode} {U : UserTypes}.

Lemma assigned_other t t' (out : list (LRange * den t')) : t <> t' ->
  assigned t (map (fun '(rg, v) => (rg, mkany t' v)) out) = [].
Proof.
  intros HT. unfold assigned. rewrite filter_map_map. apply filter_map_none. intros [rg v] _. rewrite downcast_other; auto.
Qed.

Lemma assigned_same t (out : list (LRange * den t)) : assigned t (map (fun '(rg, v) => (rg, mkany t v)) out) = out.
Proof.
  induction out as [|[rg v] out IH]; auto. unfold assigned in *. simpl. rewrite downcast_same. now rewrite IH.
Qed.

Lemma single_app t t' lg (out : list (LRange * den t')) :
  (t = t' -> forall rg v, In (rg, v) out -> fst rg = snd rg) -> single lg t ->
  single (lg ++ map (fun '(rg, v) => (rg, mkany t' v)) out) t.
Proof.
  intros HO HS rg v Hin. rewrite assigned_app, in_app_iff in Hin. destruct Hin as [Hin|Hin]; [eauto|].
  destruct (ty_eq_dec t t') as [<-|N].
  - rewrite assigned_same in Hin. eauto.
  - rewrite assigned_other in Hin by auto. easy.
Qed.

Lemma on_tokens_single {A} (f : nat -> str -> list A) toks rg v : In (rg, v) (on_tokens f toks) -> fst rg = snd rg.
Proof. destruct rg as [a b]. rewrite on_tokens_In. simpl. tauto. Qed.

Lemma step_ok id s l lg : no_amounts (id, s) -> History l lg -> single lg TKeyword -> single lg TTextTag ->
  exists l' lg', run_step id l s = Ok l' /\ ll_tokens l' = ll_tokens l /\ History l' lg'
    /\ single lg' TKeyword /\ single lg' TTextTag.
Proof.
  intros HA H HK HT. destruct s as [t m|r| |dict noun|parse r]; simpl in *; [| | | |easy].
  - destruct (text_match_run id l lg m H) as (l' & E & ET & H'). exists l'. eexists. split; [exact E|]. split; auto. split; [exact H'|].
    split; apply single_app; auto; intros _ rg v; apply on_tokens_single.
  - destruct (thm_C45_keywords id l lg r H) as (out & (l' & E & ET & H') & HO & _). exists l'. eexists. split; [exact E|]. split; auto. split; [exact H'|].
    split; apply single_app; auto; try discriminate. intros _ [a b] v Hin. apply HO in Hin. simpl. tauto.
  - destruct (thm_C47_clauses id l lg H HK HT) as (out & (l' & E & ET & H') & _). exists l'. eexists. split; [exact E|]. split; auto. split; [exact H'|].
    split; apply single_app; auto; discriminate.
  - destruct (thm_C50_tags id l lg dict noun H) as (l' & E & ET & H'). exists l'. eexists. split; [exact E|]. split; auto. split; [exact H'|].
    split; apply single_app; auto; discriminate.
Qed.

(** C52 on any line whose clause keywords and text tags are on single tokens. *)
Lemma thm_C52_without_amounts :
  forall l lg steps,
    History l lg -> single lg TKeyword -> single lg TTextTag -> Forall no_amounts steps ->
    exists l', after_steps l steps l' /\ ll_tokens l' = ll_tokens l.
Proof.
  intros l lg steps H HK HT HF. revert l lg H HK HT. induction HF as [|[id s] steps HA HF IH]; intros l lg H HK HT.
  - exists l. split; [constructor|auto].
  - destruct (step_ok id s l lg HA H HK HT) as (l1 & lg1 & E & ET & H1 & HK1 & HT1).
    destruct (IH l1 lg1 H1 HK1 HT1) as (l2 & HS & ET2). exists l2. split; [|congruence]. econstructor; eauto.
Qed.

(** The lines the theorem is about: any text. *)
Lemma thm_C52_created_single :
  forall tg sz input l,
    Forall wf_input input -> none_of TKeyword input -> none_of TTextTag input ->
    create_line_from_input_tokens tg input sz = Ok l ->
    exists lg, History l lg /\ single lg TKeyword /\ single lg TTextTag.
Proof.
  intros tg sz input l HW HK HT H. destruct (thm_C07_created_plain tg sz input l HW H) as (lg & H' & HP).
  exists lg. split; auto. split; eapply plain_single; apply HP; auto.
Qed.

Lemma created_text_only tg sz input l : Forall wf_input input -> Forall is_text input ->
  create_line_from_input_tokens tg input sz = Ok l -> text_only l.
Proof.
  intros HW HI H. destruct (create_facts tg sz input l HW H) as (groups & H1 & _ & _ & HT & _).
  intros tok Hin. apply (in_map token) in Hin. rewrite HT, layout_by_tokens in Hin. clear HT H HW.
  induction H1 as [|it g input groups Hg HF IH]; simpl in Hin; [easy|].
  inversion HI; subst. rewrite map_app, in_app_iff in Hin. destruct Hin as [Hin|Hin]; [|auto].
  destruct it as [text ats|]; [|easy]. simpl in Hg. destruct (thm_C05_tags _ _ _ Hg) as (pss & _ & E). rewrite E in Hin.
  apply in_map_iff in Hin. destruct Hin as (p & <- & _). discriminate.
Qed.

Lemma step_ok_plain id s l lg : decent (id, s) -> History l lg -> text_only l -> plain TTextTag l lg -> single lg TKeyword ->
  exists l' lg', run_step id l s = Ok l' /\ ll_tokens l' = ll_tokens l /\ History l' lg'
    /\ plain TTextTag l' lg' /\ single lg' TKeyword.
Proof.
  intros HD H HX HP HK. pose proof (plain_single _ _ _ HP) as HT.
  assert (HG : forall t (r : Resolver t) out, t <> TTextTag -> runs_to id l lg r out ->
     (TKeyword = t -> forall rg v, In (rg, v) out -> fst rg = snd rg) ->
     exists l' lg', run id l r = Ok l' /\ ll_tokens l' = ll_tokens l /\ History l' lg'
    /\ plain TTextTag l' lg' /\ single lg' TKeyword).
  { intros t r out N HR HO. destruct (thm_C12_keeps_plain TTextTag t id l lg r out) as (l' & E & H' & HP'); auto.
    destruct HR as (l2 & E2 & ET & _). assert (l2 = l') by congruence. subst l2.
    exists l'. eexists. split; [exact E|]. split; auto. split; [exact H'|]. split; [exact HP'|]. now apply single_app. }
  destruct s as [t m|r| |dict noun|parse r]; simpl in *.
  - eapply HG; [exact HD|apply (text_match_run id l lg m H)|]. intros _ rg v. apply on_tokens_single.
  - destruct (thm_C45_keywords id l lg r H) as (out & HR & HO & _). eapply HG; [discriminate|exact HR|].
    intros _ [a b] v Hin. apply HO in Hin. simpl. tauto.
  - destruct (thm_C47_clauses id l lg H HK HT) as (out & HR & _). eapply HG; [discriminate|exact HR|discriminate].
  - eapply HG; [discriminate|apply (thm_C50_tags id l lg dict noun H)|discriminate].
  - destruct (thm_C44_run parse r id l lg H) as [(out & _ & HR & _)|(_ & _ & p & E)].
    + eapply HG; [discriminate|exact HR|discriminate].
    + exfalso. destruct (thm_C44_text_only parse r id l lg p H HX E) as (s & e & u & text & HA & HN).
      apply (HD text); auto. eapply thm_C41_decimal; eauto.
Qed.

(** C52, with amounts *)
Lemma thm_C52_pipelines :
  forall tg sz input l steps,
    Forall wf_input input -> Forall is_text input -> none_of TKeyword input -> none_of TTextTag input ->
    create_line_from_input_tokens tg input sz = Ok l ->
    Forall decent steps ->
    exists l', after_steps l steps l' /\ ll_tokens l' = ll_tokens l.
Proof.
  intros tg sz input l steps HW HI HK HT HC HF. pose proof (created_text_only tg sz input l HW HI HC) as HX.
  destruct (thm_C07_created_plain tg sz input l HW HC) as (lg & H & HP).
  pose proof (plain_single _ _ _ (HP _ HK)) as HKS. pose proof (HP _ HT) as HTP. clear HP HC HW HI HK HT input tg sz.
  revert l lg H HX HKS HTP. induction HF as [|[id s] steps HA HF IH]; intros l lg H HX HKS HTP.
  - exists l. split; [constructor|auto].
  - destruct (step_ok_plain id s l lg HA H HX HTP HKS) as (l1 & lg1 & E & ET & H1 & HT1 & HK1).
    destruct (IH l1 lg1 H1) as (l2 & HS & ET2); auto.
    { unfold text_only. rewrite ET. exact HX. }
    exists l2. split; [|congruence]. econstructor; eauto.
Qed.

(** C47-C49 on a line of text after the keyword resolver. *)
Lemma thm_C47_after_keywords :
  forall tg sz input l r id id',
    Forall wf_input input -> none_of TKeyword input -> none_of TTextTag input ->
    create_line_from_input_tokens tg input sz = Ok l -> ll_tokens l <> [] ->
    exists l1 l2 lg runs ts out,
      run id l (clause_keyword_go r) = Ok l1 /\ run id' l1 clause_go = Ok l2
      /\ History l1 lg /\ runs_to id' l1 lg clause_go out /\ clauses_of lg (whole id' l1) runs ts out
      /\ (forall i k, In k (values_on TKeyword (i, i) lg) <->
            exists tok text tag, nth_error (ll_tokens l) i = Some tok /\ token tok = LText text tag /\ classified r text k)
      /\ (forall i tag, In tag (values_on TTextTag (i, i) lg) <->
            exists tok text, nth_error (ll_tokens l) i = Some tok /\ token tok = LText text tag).
Proof.
  intros tg sz input l r id id' HW HK HT HC HN. destruct (thm_C07_created_plain tg sz input l HW HC) as (lg & H & HP).
  pose proof (HP _ HK) as PK. pose proof (HP _ HT) as PT.
  destruct (thm_C45_keywords id l lg r H) as (out & (l1 & E & ET & H1) & HO & _).
  set (lg1 := lg ++ map (fun '(rg, v) => (rg, mkany TKeyword v)) out) in *.
  assert (SK : single lg1 TKeyword).
  { apply single_app; [|eapply plain_single; eauto]. intros _ [a b] v Hin. apply HO in Hin. simpl. tauto. }
  assert (AT : assigned TTextTag lg1 = assigned TTextTag lg).
  { unfold lg1. rewrite assigned_app, assigned_other, app_nil_r by discriminate. reflexivity. }
  assert (ST : single lg1 TTextTag).
  { intros rg v Hin. rewrite AT in Hin. eapply plain_single; eauto. }
  destruct (thm_C47_clauses id' l1 lg1 H1 SK ST) as (out2 & HR & _ & HCl). destruct HCl as (runs & ts & HCl); [congruence|].
  destruct HR as (l2 & E2 & ET2 & H2).
  exists l1, l2, lg1, runs, ts, out2. split; auto. split; auto. split; auto. split; [exists l2; auto|]. split; auto. split.
  - intros i k.
    assert (EK : assigned TKeyword lg = []).
    { unfold plain in PK. rewrite PK. generalize 0 at 1. generalize (map token (ll_tokens l)).
      induction l0 as [|t0 tl IH]; intros k0; [reflexivity|]. cbn [tokens_log]. rewrite assigned_app, IH, app_nil_r.
      destruct t0 as [s tag|]; [|reflexivity]. destruct s as [|c [|]]; reflexivity. }
    assert (EO : assigned TKeyword lg1 = out) by (unfold lg1; rewrite assigned_app, EK, assigned_same; reflexivity).
    pose proof (values_on_assigned TKeyword (i, i) k lg1) as X. rewrite EO in X. specialize (HO i i k). tauto.
  - intros i tag. unfold values_on. rewrite AT. fold (values_on TTextTag (i, i) lg). split.
    + unfold values_on. unfold plain in PT. rewrite PT. fold (values_on TTextTag (i, i) (tokens_log 0 (map token (ll_tokens l)))).
      rewrite (tokens_log_values TTextTag (or_introl eq_refl)). cbn [Nat.leb]. rewrite Nat.sub_0_r, nth_error_map.
      destruct (nth_error (ll_tokens l) i) as [tok|] eqn:En; simpl; [|easy].
      intros Hin. destruct (token tok) as [s tag'|] eqn:Et; [|easy]. exists tok, s. split; auto. rewrite Et. f_equal.
      assert (X : values_on TTextTag (i, i) (token_entries i (LText s tag')) = [tag']).
      { unfold values_on, assigned. destruct s as [|c [|]]; simpl; rewrite ?range_eqb_refl; reflexivity. }
      rewrite X in Hin. destruct Hin as [->|[]]. reflexivity.
    + intros (tok & text & En & Et). rewrite (plain_plain_tags l lg PT i tok text tag En Et). now left.
Qed.

End ThmPipe.
