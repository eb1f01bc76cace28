(** C85: layers that do not read each other. *)

From Verif Require Import LemBase LemLine LemStore LemMatch.
From Verif Require Export ThmOrder ThmScan ThmPass SpecApart.

Section ThmApart.
Context {UC : Unicode} {U : UserTypes}.

Definition beside (P : ty -> Prop) (l0 : LLLine) (lg0 : list entry) (lp : LLLine) (lgp : list entry) (l : LLLine) (lg : list entry) : Prop :=
  History lp lgp /\ History l lg /\ ll_tokens lp = ll_tokens l0 /\ ll_tokens l = ll_tokens l0
  /\ (forall t, P t -> assigned t lgp = assigned t lg)
  /\ (forall i, attributed i lg0 -> attributed i lgp /\ attributed i lg).

Lemma beside_attributed P l0 lg0 lp lgp l lg : beside P l0 lg0 lp lgp l lg ->
  (forall i, i < length (ll_tokens l0) -> attributed i lg0) -> forall i, attributed i lgp <-> attributed i lg.
Proof.
  intros (Hp & H & Tp & T & _ & HA) H0 i. split; intros Hi.
  - apply HA, H0. rewrite <- Tp. exact (attributed_out _ _ _ Hp Hi).
  - apply HA, H0. rewrite <- T. exact (attributed_out _ _ _ H Hi).
Qed.

Lemma attributed_for_app ss x l lg : attributed_for (ss ++ [x]) l lg -> attributed_for ss l lg /\ attributed_for [x] l lg.
Proof.
  intros H. split; apply (attributed_for_sub (ss ++ [x])); auto; intros y Hy; apply in_or_app; [left|right]; exact Hy.
Qed.

Lemma attributed_for_id id id' s l lg : attributed_for [(id, s)] l lg -> attributed_for [(id', s)] l lg.
Proof. intros H (x & [<-|[]] & Ex). apply H. exists (id, s). split; [left; reflexivity|exact Ex]. Qed.

Lemma ran_tokens {t} (r : Resolver t) id l lg l' : History l lg -> run id l r = Ok l' ->
  ll_tokens l' = ll_tokens l /\ exists lg', History l' lg'.
Proof. intros H E. destruct (go_same r id l lg l' H E) as (out & (H' & T') & _). eauto. Qed.

Lemma beside_step P l0 lg0 lp lgp l lg id id' s l' :
  beside P l0 lg0 lp lgp l lg -> attributed_for [(id, s)] l0 lg0 -> P (writes s) -> (forall t, In t (SpecOrder.reads s) -> P t) ->
  run_any id l s = Ok l' ->
  exists lp' lgp' lg', run_any id' lp s = Ok lp' /\ beside P l0 lg0 lp' lgp' l' lg'.
Proof.
  intros HB HF Hw Hr E. pose proof (beside_attributed _ _ _ _ _ _ _ HB) as HE.
  destruct HB as (Hp & H & Tp & T & EA & HA).
  destruct (step_same s id l lg l' H E) as (out & (H' & T') & K).
  destruct (K id' lp lgp Hp) as (lp' & Ep & Hp' & Tp').
  { apply contents_tokens. congruence. }
  { intros t Ht. symmetry. auto. }
  { intros Eu i. symmetry. apply HE. apply HF. exists (id, s). split; [left; reflexivity|exact Eu]. }
  exists lp', (lgp ++ entries out), (lg ++ entries out). split; [exact Ep|].
  split; [exact Hp'|]. split; [exact H'|]. split; [congruence|]. split; [congruence|]. split.
  - intros t Ht. rewrite !LemStore.assigned_app. rewrite (EA t Ht). reflexivity.
  - intros i Hi. destruct (HA i Hi). split; apply attributed_app; assumption.
Qed.

Lemma beside_swap P l0 lg0 lp lgp l lg : beside P l0 lg0 lp lgp l lg -> beside P l0 lg0 l lg lp lgp.
Proof.
  intros (Hp & H & Tp & T & EA & HA). repeat (split; [assumption|]). split; [intros; symmetry; auto|].
  intros i Hi. destruct (HA i Hi). auto.
Qed.

Lemma interleaved_beside P l0 lg0 ss l : History l0 lg0 -> attributed_for ss l0 lg0 -> interleaved P l0 ss l ->
  exists lp lgp lg, after_any l0 ss lp /\ beside P l0 lg0 lp lgp l lg.
Proof.
  intros H0 HF HI. induction HI as [|ss l id s l' HI IH Hw Hr E|ss l t id r l' HI IH Ht E].
  - exists l0, lg0, lg0. split; [constructor|]. repeat (split; [auto|]). auto.
  - apply attributed_for_app in HF as [HF1 HF2]. destruct (IH HF1) as (lp & lgp & lg & A & HB).
    destruct (beside_step P l0 lg0 lp lgp l lg id id s l' HB HF2 Hw Hr E) as (lp' & lgp' & lg' & Ep & HB').
    exists lp', lgp', lg'. split; [|exact HB']. apply after_split. exists lp. split; [exact A|].
    econstructor; [exact Ep|constructor].
  - destruct (IH HF) as (lp & lgp & lg & A & Hp & H & Tp & T & EA & HA).
    destruct (go_same r id l lg l' H E) as (out & (H' & T') & _).
    exists lp, lgp, (lg ++ entries out). split; [exact A|]. split; [exact Hp|]. split; [exact H'|]. split; [exact Tp|].
    split; [congruence|]. split.
    + intros t' Ht'. rewrite LemStore.assigned_app, (EA t' Ht'). unfold entries. rewrite (assigned_other t' t) by congruence.
      now rewrite app_nil_r.
    + intros i Hi. destruct (HA i Hi). split; [|apply attributed_app]; assumption.
Qed.

Lemma beside_same P l0 lg0 lp lgp l lg : beside P l0 lg0 lp lgp l lg -> same_about P lp l.
Proof.
  intros (Hp & H & Tp & T & EA & HA). pose proof (history_repr _ _ Hp) as Rp. pose proof (history_repr _ _ H) as R.
  assert (ET : ll_tokens lp = ll_tokens l) by congruence.
  assert (EM : forall A (m : matcher A), lib_matcher P false A m -> forall d, m d lp = m d l).
  { intros A m HM. apply (lib_matcher_ext P false A m lp lgp l lg); auto. discriminate. }
  split; [exact ET|]. split; [|split; [|split]].
  - intros t Ht. eapply query_ext; eauto.
  - intros A m d HM. apply EM; assumption.
  - intros A m HM. unfold find, pos_start_at, pos_end_at. rewrite ET. apply flat_mapM_ext. intros i _. now rewrite (EM A m HM).
  - intros tg incs HI. eapply show_ext; eauto.
Qed.

Lemma thm_C85_layers :
  forall P l0 lg0 ss l,
    History l0 lg0 -> attributed_for ss l0 lg0 -> interleaved P l0 ss l ->
    exists lp, after_any l0 ss lp /\ same_about P lp l
      /\ forall id id' s, attributed_for [(id, s)] l0 lg0 -> P (writes s) -> (forall t, In t (SpecOrder.reads s) -> P t) ->
           ((exists lp', run_any id lp s = Ok lp') <-> (exists l', run_any id' l s = Ok l')).
Proof.
  intros P l0 lg0 ss l H0 HF HI. destruct (interleaved_beside P l0 lg0 ss l H0 HF HI) as (lp & lgp & lg & A & HB).
  exists lp. split; [exact A|]. split; [eapply beside_same; eauto|].
  intros id id' s HF' Hw Hr. split; intros (l' & E).
  - destruct (beside_step P l0 lg0 _ _ _ _ id id' s l' (beside_swap _ _ _ _ _ _ _ HB) HF' Hw Hr E) as (l1 & _ & _ & E1 & _). eauto.
  - destruct (beside_step P l0 lg0 _ _ _ _ id' id s l' HB ltac:(exact (attributed_for_id id id' s _ _ HF')) Hw Hr E) as (l1 & _ & _ & E1 & _). eauto.
Qed.

(** ... and so the clauses and the amounts of a line are the same whatever else was found. *)
Lemma thm_C85_clauses :
  forall tg sz input l0 r id id' ms l,
    Forall wf_input input -> none_of TKeyword input -> none_of TTextTag input -> none_of TClause input ->
    create_line_from_input_tokens tg input sz = Ok l0 -> Forall2 (marked r) (ll_tokens l0) ms ->
    interleaved (fun t => In t [TKeyword; TTextTag; TClause]) l0 [(id, Lib (RunClauseKeyword r)); (id', Lib RunClause)] l ->
    query l TClause = Ok (map (clause_row (ll_tokens l)) (scanned ms)).
Proof.
  intros tg sz input l0 r id id' ms l W N1 N2 N3 E HM HI.
  destruct (history_create tg sz input l0 W E) as (lg0 & H0).
  edestruct thm_C85_layers as (lp & A & (ET & EQ & _) & _); [exact H0| |exact HI|].
  { intros (x & [<-|[<-|[]]] & Ex); discriminate Ex. }
  destruct (thm_C81_scan tg sz input l0 r id id' ms W N1 N2 N3 E HM) as (l1 & l2 & R1 & R2 & Q).
  assert (lp = l2).
  { apply (after_unique l0 _ _ _ A). econstructor; [exact R1|]. econstructor; [exact R2|]. constructor. }
  subst lp. rewrite <- (EQ TClause) by (cbn; tauto). rewrite Q, <- ET.
  destruct (ran_tokens _ _ _ _ _ H0 R1) as (T1 & lg1 & H1). destruct (ran_tokens _ _ _ _ _ H1 R2) as (T2 & _).
  now rewrite T2, T1.
Qed.

Lemma thm_C85_amounts :
  forall tg sz input l0 parse r id ms l,
    Forall wf_input input -> Forall is_text input ->
    none_of TTextTag input -> none_of TChar input -> none_of TAmount input ->
    create_line_from_input_tokens tg input sz = Ok l0 -> no_digit_signs r -> number_marks l0 r ms ->
    interleaved (fun t => In t [TTextTag; TChar; TAmount]) l0 [(id, Lib (RunAmount parse r))] l ->
    exists xs out, whole_pass Idle 0 ms = Some xs /\ parsed parse xs = Some out
      /\ query l TAmount = Ok (map (amount_row (ll_tokens l)) out).
Proof.
  intros tg sz input l0 parse r id ms l W HX N1 N2 N3 E ND HM HI.
  destruct (history_create tg sz input l0 W E) as (lg0 & H0).
  edestruct thm_C85_layers as (lp & A & (ET & EQ & _) & _); [exact H0| |exact HI|].
  { intros _ i Hi. apply (text_attributed l0 lg0 i H0); [|exact Hi]. eapply created_text_only; eauto. }
  inversion A as [|? ? ? ? l1 ? R1 A']; subst. inversion A'; subst. cbn [run_any run_step] in R1.
  pose proof (thm_C82_pass tg sz input l0 parse r id ms W N1 N2 N3 E ND HM) as K.
  destruct (whole_pass Idle 0 ms) as [xs|]; [|destruct K as (p & K); congruence].
  destruct (parsed parse xs) as [out|] eqn:Ep; [|destruct K as (p & K); congruence].
  destruct K as (l2 & K & Q). assert (lp = l2) by congruence. subst l2.
  exists xs, out. split; [reflexivity|]. split; [exact Ep|]. rewrite <- (EQ TAmount) by (cbn; tauto). rewrite Q, <- ET.
  destruct (ran_tokens _ _ _ _ _ H0 R1) as (T1 & _). now rewrite T1.
Qed.

End ThmApart.
