(** C58: the order of independent runs does not matter.  On the way: the maximal
    runs and the clauses of a line are determined by their description (C27, C47). *)

From Verif Require Export ThmParam.
From Coq Require Import Permutation Sorted.

Section ThmOrder.
Context {UC : Unicode} {U : UserTypes}.

(** ** Uniqueness of runs *)

Definition idxs (p : LLSelection) : nat * nat := (start_idx p, end_idx p).

Lemma sorted_same : forall (xs ys : list (nat * nat)),
  Forall (fun x => fst x <= snd x) xs -> Forall (fun x => fst x <= snd x) ys ->
  StronglySorted (fun p q => snd p < fst q) xs -> StronglySorted (fun p q => snd p < fst q) ys ->
  (forall x, In x xs <-> In x ys) -> xs = ys.
Proof.
  induction xs as [|x xs IH]; intros [|y ys] FX FY SX SY HI.
  - reflexivity.
  - destruct (proj2 (HI y) (or_introl eq_refl)).
  - destruct (proj1 (HI x) (or_introl eq_refl)).
  - inversion FX as [|? ? Fx FX']; inversion FY as [|? ? Fy FY']; inversion SX as [|? ? SX' Sx]; inversion SY as [|? ? SY' Sy]; subst.
    rewrite Forall_forall in Sx, Sy.
    assert (x = y) as ->.
    { destruct (proj1 (HI x) (or_introl eq_refl)) as [E|Hx]; [now symmetry|].
      destruct (proj2 (HI y) (or_introl eq_refl)) as [E|Hy]; [assumption|].
      specialize (Sx _ Hy). specialize (Sy _ Hx). lia. }
    f_equal. apply IH; auto. intros z. split; intros Hz.
    + destruct (proj1 (HI z) (or_intror Hz)) as [<-|H]; [|assumption]. specialize (Sx _ Hz). lia.
    + destruct (proj2 (HI z) (or_intror Hz)) as [<-|H]; [|assumption]. specialize (Sy _ Hz). lia.
Qed.

Lemma runs_sub s s' P P' ps ps' :
  maximal_runs s P ps -> maximal_runs s' P' ps' -> idxs s = idxs s' -> (forall k, covers s k -> (P k <-> P' k)) ->
  forall p, In p ps -> In (idxs p) (map idxs ps').
Proof.
  intros M M' E HP p Hp. unfold idxs in E. inversion E as [[E1 E2]].
  destruct (runs_inside _ _ _ M p Hp) as (_ & A1 & A2 & A3).
  assert (C0 : covers s (start_idx p)) by (unfold covers; lia).
  assert (N0 : ~ P (start_idx p)) by (apply (runs_free _ _ _ M p); [assumption|unfold covers; lia]).
  destruct (runs_complete _ _ _ M' (start_idx p)) as (q & Hq & Cq).
  { unfold covers in *. lia. }
  { rewrite <- HP by assumption. assumption. }
  destruct (runs_inside _ _ _ M' q Hq) as (_ & B1 & B2 & B3). unfold covers in *.
  assert (idxs p = idxs q) as ->; [|now apply in_map]. unfold idxs. f_equal.
  - destruct (Nat.eq_dec (start_idx p) (start_idx q)) as [|D]; [assumption|exfalso].
    destruct (runs_maximal_left _ _ _ M p Hp) as [F|F]; [lia|].
    apply (runs_free _ _ _ M' q (start_idx p - 1) Hq); [unfold covers; lia|]. apply HP; [unfold covers; lia|assumption].
  - destruct (lt_eq_lt_dec (end_idx p) (end_idx q)) as [[D|D]|D]; [exfalso|assumption|exfalso].
    + destruct (runs_maximal_right _ _ _ M p Hp) as [F|F]; [lia|].
      apply (runs_free _ _ _ M' q (end_idx p + 1) Hq); [unfold covers; lia|]. apply HP; [unfold covers; lia|assumption].
    + destruct (runs_maximal_right _ _ _ M' q Hq) as [F|F]; [lia|].
      apply (runs_free _ _ _ M p (end_idx q + 1) Hp); [unfold covers; lia|]. apply HP; [unfold covers; lia|assumption].
Qed.

Lemma sorted_idxs ps : StronglySorted (fun p q => end_idx p < start_idx q) ps ->
  StronglySorted (fun p q : nat * nat => snd p < fst q) (map idxs ps).
Proof.
  induction 1 as [|p ps H IH HF]; simpl; constructor; auto. rewrite Forall_map. exact HF.
Qed.

Lemma runs_unique s s' P P' ps ps' :
  maximal_runs s P ps -> maximal_runs s' P' ps' -> idxs s = idxs s' -> (forall k, covers s k -> (P k <-> P' k)) ->
  map idxs ps = map idxs ps'.
Proof.
  intros M M' E HP. inversion E as [[E1 E2]]. apply sorted_same.
  - apply Forall_map, Forall_forall. intros p Hp. apply (runs_inside _ _ _ M p Hp).
  - apply Forall_map, Forall_forall. intros p Hp. apply (runs_inside _ _ _ M' p Hp).
  - apply sorted_idxs, (runs_ordered _ _ _ M).
  - apply sorted_idxs, (runs_ordered _ _ _ M').
  - intros x. split; intros H; apply in_map_iff in H; destruct H as (p & <- & Hp).
    + exact (runs_sub s s' P P' ps ps' M M' E HP p Hp).
    + apply (runs_sub s' s P' P ps' ps M' M (eq_sym E)); [|exact Hp]. intros k Hk. symmetry. apply HP. unfold covers in *. lia.
Qed.

(** C27: the description of the runs determines them. *)
Lemma thm_C27_unique :
  forall s P ps qs, maximal_runs s P ps -> maximal_runs s P qs -> ps = qs.
Proof.
  intros s P ps qs M M'. assert (E : map idxs ps = map idxs qs) by (eapply runs_unique; eauto; intros; reflexivity).
  pose proof (runs_inside _ _ _ M) as I1. pose proof (runs_inside _ _ _ M') as I2. clear M M'.
  revert qs E I2. induction ps as [|p ps IH]; intros [|q qs] E I2; try discriminate E; [reflexivity|].
  inversion E. f_equal.
  - destruct (I1 p (or_introl eq_refl)) as [A _]. destruct (I2 q (or_introl eq_refl)) as [B _].
    destruct p, q; simpl in *; congruence.
  - apply IH; auto; intros x Hx; [apply I1|apply I2]; now right.
Qed.

Lemma part_unique s s' P P' o o' :
  part_of s P o -> part_of s' P' o' -> idxs s = idxs s' -> (forall k, covers s k -> (P k <-> P' k)) ->
  option_map idxs o = option_map idxs o'.
Proof.
  intros H H' E HP. inversion E as [[E1 E2]]. unfold part_of, covers in *.
  assert (HC : forall k, start_idx s <= k <= end_idx s /\ P k <-> start_idx s' <= k <= end_idx s' /\ P' k).
  { intros k. split; intros [A B]; (split; [lia|]); apply HP; auto; lia. }
  destruct o as [p|], o' as [p'|]; simpl.
  - destruct H as (_ & L & H), H' as (_ & L' & H').
    assert (HX : forall k, start_idx p <= k <= end_idx p <-> start_idx p' <= k <= end_idx p').
    { intros k. now rewrite H, H', HC. }
    unfold idxs. f_equal.
    pose proof (proj1 (HX (start_idx p))). pose proof (proj2 (HX (start_idx p'))).
    pose proof (proj1 (HX (end_idx p))). pose proof (proj2 (HX (end_idx p'))).
    f_equal; lia.
  - exfalso. destruct H as (_ & L & H). apply (H' (start_idx p)). apply HC, H. lia.
  - exfalso. destruct H' as (_ & L & H'). apply (H (start_idx p')). apply HC, H'. lia.
  - reflexivity.
Qed.

(** ** Uniqueness of clauses *)

Lemma worded_idxs : forall runs ts,
  map (fun x => (idxs (fst x), idxs (snd x))) (worded runs ts)
  = filter_map (fun '(p, o) => option_map (pair p) o) (combine (map idxs runs) (map (option_map idxs) ts)).
Proof.
  unfold worded. induction runs as [|p runs IH]; intros [|o ts]; try reflexivity.
  cbn [combine map filter_map]. destruct o as [q|]; cbn [option_map map]; rewrite <- IH; reflexivity.
Qed.

Lemma trimmed_same lg lg' p p' o o' :
  (forall i, space lg i <-> space lg' i) -> trimmed_run lg p o -> trimmed_run lg' p' o' -> idxs p = idxs p' ->
  option_map idxs o = option_map idxs o'.
Proof.
  intros HS T T' E. eapply part_unique; eauto. inversion E as [[E1 E2]]. intros k _. cbv beta.
  rewrite (HS k), E1, E2. reflexivity.
Qed.

Lemma trims_same lg lg' : (forall i, space lg i <-> space lg' i) -> forall runs ts, Forall2 (trimmed_run lg) runs ts ->
  forall runs' ts', Forall2 (trimmed_run lg') runs' ts' -> map idxs runs = map idxs runs' ->
  map (option_map idxs) ts = map (option_map idxs) ts'.
Proof.
  intros HS runs ts F. induction F as [|p o runs ts T F IH]; intros runs' ts' F' E.
  - destruct F'; [reflexivity|discriminate E].
  - destruct F' as [|p' o' runs' ts' T' F']; [discriminate E|]. inversion E. cbn [map]. f_equal.
    + eapply trimmed_same; eauto. unfold idxs. congruence.
    + eapply IH; eauto.
Qed.

Lemma keyword_before_same lg lg' p p' :
  (forall i, values_on TKeyword (i, i) lg = values_on TKeyword (i, i) lg') -> start_idx p = start_idx p' ->
  keyword_before lg p = keyword_before lg' p'.
Proof. intros HK E. unfold keyword_before. rewrite <- E. destruct (start_idx p); [reflexivity|]. now rewrite HK. Qed.

Lemma nth_error_ext {A} (xs ys : list A) : (forall i, nth_error xs i = nth_error ys i) -> xs = ys.
Proof.
  revert ys. induction xs as [|x xs IH]; intros [|y ys] H; auto.
  - specialize (H 0). discriminate.
  - specialize (H 0). discriminate.
  - pose proof (H 0) as H0. simpl in H0. inversion H0. f_equal. apply IH. intros i. apply (H (S i)).
Qed.

Lemma firstn_ext {A} (xs ys : list A) n : (forall i, i < n -> nth_error xs i = nth_error ys i) -> firstn n xs = firstn n ys.
Proof.
  revert xs ys. induction n as [|n IH]; intros xs ys H; [reflexivity|].
  pose proof (H 0 ltac:(lia)) as H0. destruct xs as [|x xs], ys as [|y ys]; simpl in H0; try discriminate; [reflexivity|].
  inversion H0. simpl. f_equal. apply IH. intros i Hi. apply (H (S i)). lia.
Qed.

Lemma clauses_same lg lg' s s' runs runs' ts ts' out out' :
  (forall i, values_on TKeyword (i, i) lg = values_on TKeyword (i, i) lg') ->
  (forall i, values_on TTextTag (i, i) lg = values_on TTextTag (i, i) lg') ->
  idxs s = idxs s' -> clauses_of lg s runs ts out -> clauses_of lg' s' runs' ts' out' -> out = out'.
Proof.
  intros HK HT E C C'.
  assert (ER : map idxs runs = map idxs runs').
  { eapply runs_unique; [apply (cl_runs _ _ _ _ _ C)|apply (cl_runs _ _ _ _ _ C')|assumption|].
    intros k _. unfold separator. now rewrite HK, HT. }
  assert (ET : map (option_map idxs) ts = map (option_map idxs) ts').
  { eapply trims_same; [|apply (cl_trimmed _ _ _ _ _ C)|apply (cl_trimmed _ _ _ _ _ C')|assumption].
    intros i. unfold space. now rewrite HT. }
  assert (EW : map (fun x => (idxs (fst x), idxs (snd x))) (worded runs ts)
             = map (fun x => (idxs (fst x), idxs (snd x))) (worded runs' ts')).
  { now rewrite !worded_idxs, ER, ET. }
  assert (EF : map fst out = map fst out').
  { rewrite (cl_ranges _ _ _ _ _ C), (cl_ranges _ _ _ _ _ C').
    transitivity (map (fun x : (nat * nat) * (nat * nat) => snd x) (map (fun x => (idxs (fst x), idxs (snd x))) (worded runs ts))).
    - rewrite map_map. apply map_ext. intros [a b]. reflexivity.
    - rewrite EW, map_map. apply map_ext. intros [a b]. reflexivity. }
  assert (EL : length runs = length runs') by (rewrite <- (map_length idxs runs), ER; apply map_length).
  apply nth_error_ext. intros i. induction i as [i IH] using lt_wf_ind.
  assert (EN : option_map fst (nth_error out i) = option_map fst (nth_error out' i)) by (rewrite <- !nth_error_map; now rewrite EF).
  assert (EWi : option_map (fun x => (idxs (fst x), idxs (snd x))) (nth_error (worded runs ts) i)
              = option_map (fun x => (idxs (fst x), idxs (snd x))) (nth_error (worded runs' ts') i))
    by (rewrite <- !nth_error_map; now rewrite EW).
  destruct (nth_error out i) as [[rg c]|] eqn:E1, (nth_error out' i) as [[rg' c']|] eqn:E2; try discriminate EN; [|reflexivity].
  simpl in EN. inversion EN; subst rg'. f_equal. f_equal.
  assert (W : forall lg0 s0 runs0 ts0 out0 rg0 c0, clauses_of lg0 s0 runs0 ts0 out0 -> nth_error out0 i = Some (rg0, c0) ->
     exists x, nth_error (worded runs0 ts0) i = Some x).
  { intros lg0 s0 runs0 ts0 out0 rg0 c0 C0 E0.
    destruct (nth_error (worded runs0 ts0) i) as [x|] eqn:Ex; [now exists x|exfalso].
    apply nth_error_None in Ex. apply (f_equal (@length _)) in E0 || idtac.
    assert (i < length out0) by (apply nth_error_Some; congruence).
    pose proof (f_equal (@length _) (cl_ranges _ _ _ _ _ C0)) as X. rewrite !map_length in X. lia. }
  destruct (W _ _ _ _ _ _ _ C E1) as ([p t] & Ep). destruct (W _ _ _ _ _ _ _ C' E2) as ([p' t'] & Ep').
  rewrite (cl_kinds _ _ _ _ _ C i rg c p t E1 Ep), (cl_kinds _ _ _ _ _ C' i rg c' p' t' E2 Ep').
  rewrite EL. rewrite (firstn_ext out out' i IH). f_equal.
  rewrite Ep, Ep' in EWi. simpl in EWi. inversion EWi. now apply keyword_before_same.
Qed.

(** C47: the description of the clauses determines them. *)
Lemma thm_C47_unique :
  forall lg s runs ts out runs' ts' out',
    clauses_of lg s runs ts out -> clauses_of lg s runs' ts' out' -> out = out'.
Proof. intros. eapply clauses_same; eauto. Qed.

Lemma values_on_assigned t r lg lg' : assigned t lg = assigned t lg' -> values_on t r lg = values_on t r lg'.
Proof. intros E. unfold values_on. now rewrite E. Qed.

Lemma text_attributed l lg i : History l lg -> text_only l -> i < length (ll_tokens l) -> attributed i lg.
Proof.
  intros H HX Hi. destruct (attributed_dec i lg) as [|N]; auto. exfalso.
  apply (thm_C18_unattributed l lg i H Hi) in N. destruct N as (tok & Hn & Et & _).
  apply (HX tok); auto. eapply nth_error_In; eauto.
Qed.

(** ** Steps *)

Definition entries {t : ty} (out : list (LRange * den t)) : list entry := map (fun '(rg, v) => (rg, mkany t v)) out.

(** Equal answers of a resolver have equal effects. *)
Lemma go_same {t} (r : Resolver t) id l lg l1 : History l lg -> run id l r = Ok l1 ->
  exists out : list (LRange * den t), (History l1 (lg ++ entries out) /\ ll_tokens l1 = ll_tokens l) /\ forall id' l' lg', History l' lg' -> length (ll_tokens l) = length (ll_tokens l') -> r (whole id l) = r (whole id' l') ->
      exists l1', run id' l' r = Ok l1' /\ History l1' (lg' ++ entries out) /\ ll_tokens l1' = ll_tokens l'.
Proof.
  intros H HR.
  assert (HX : exists out, runs_to id l lg r out /\ forall id' l' lg', History l' lg' -> length (ll_tokens l) = length (ll_tokens l') -> r (whole id l) = r (whole id' l') ->
      runs_to id' l' lg' r out).
  { destruct (ll_tokens l) as [|tok toks] eqn:EL.
    - exists []. split; [apply runs_to_intro; auto; congruence|].
      intros id' l' lg' H' ET EG. symmetry in ET. apply length_zero_iff_nil in ET. apply runs_to_intro; auto; congruence.
    - assert (HN : ll_tokens l <> []) by congruence.
      destruct (run_inv id l lg r l1 (history_repr _ _ H) HN HR) as (g & Hg & Hret & Hin & _ & _).
      assert (Eg : g = mkGo (go_assignments g) false) by (destruct g; simpl in *; congruence).
      exists (map as_pair (go_assignments g)).
      assert (HF : Forall (fun x => fst (fst x) < length (ll_tokens l) /\ snd (fst x) < length (ll_tokens l)) (map as_pair (go_assignments g))).
      { apply Forall_map. exact Hin. }
      split.
      + apply runs_to_intro; auto; [congruence|]. intros _. exists (go_assignments g). split; [congruence|reflexivity].
      + intros id' l' lg' H' ET EG. rewrite <- EL in ET. apply runs_to_intro; auto.
        * intros E. rewrite E in ET. apply length_zero_iff_nil in ET. congruence.
        * intros _. exists (go_assignments g). split; [congruence|reflexivity].
        * rewrite <- ET. exact HF. }
  destruct HX as (out & (l2 & E2 & T2 & H2) & K). assert (l2 = l1) by congruence. subst l2. exists out. split; [split; assumption|].
  intros id' l' lg' H' EL EG. destruct (K id' l' lg' H' EL EG) as (l3 & E3 & T3 & H3). eauto.
Qed.

(** The same step on lines that agree on what it reads. *)
Lemma step_same s id l lg l1 : History l lg -> run_any id l s = Ok l1 ->
  exists out : list (LRange * den (writes s)),
    (History l1 (lg ++ entries out) /\ ll_tokens l1 = ll_tokens l)
    /\ forall id' l' lg', History l' lg' -> contents l = contents l' ->
       (forall t, In t (reads s) -> assigned t lg = assigned t lg') ->
       (uses_chars s = true -> forall i, attributed i lg <-> attributed i lg') ->
       exists l1', run_any id' l' s = Ok l1' /\ History l1' (lg' ++ entries out) /\ ll_tokens l1' = ll_tokens l'.
Proof.
  intros H HR. rewrite run_any_run in HR. destruct (go_same _ id l lg l1 H HR) as (out & K1 & K2). exists out. split; [exact K1|].
  intros id' l' lg' H' HC HA HU. rewrite run_any_run. apply K2; auto; [now apply contents_len|].
  apply resolver_same; [assumption|intros has A m HH HM|intros t Ht|intros tg incs HI].
  - apply (lib_matcher_contents _ _ _ _ l lg l' lg' HM); auto using history_repr.
  - apply (query_contents l lg l' lg'); auto using history_repr.
  - apply (show_contents tg l lg l' lg'); auto using history_repr.
Qed.

Lemma attributed_out l lg i : History l lg -> attributed i lg -> i < length (ll_tokens l).
Proof.
  intros H0 HI. unfold attributed in HI. apply in_map_iff in HI. destruct HI as ([rg x] & Ex & Hx).
  pose proof (rp_in _ _ (history_repr _ _ H0)) as RI. unfold in_line in RI. rewrite Forall_forall in RI.
  specialize (RI _ Hx). simpl in *. subst rg. simpl in RI. lia.
Qed.

Lemma attributed_same l lg l' lg' : History l lg -> History l' lg' -> contents l = contents l' ->
  (forall i, i < length (ll_tokens l) -> attributed i lg) -> (forall i, i < length (ll_tokens l') -> attributed i lg') ->
  forall i, attributed i lg <-> attributed i lg'.
Proof.
  intros H H' HC HA HA' i. pose proof (contents_len _ _ HC) as EL. split; intros HI.
  - apply HA'. rewrite <- EL. eapply attributed_out; eauto.
  - apply HA. rewrite EL. eapply attributed_out; eauto.
Qed.

Lemma attributed_app i lg lg' : attributed i lg -> attributed i (lg ++ lg').
Proof. unfold attributed. rewrite map_app, in_app_iff. auto. Qed.

(** ** Reordering *)

Lemma assigned_step t s lg (out : list (LRange * den (writes s))) : t <> writes s ->
  assigned t (lg ++ entries out) = assigned t lg.
Proof.
  intros N. rewrite LemStore.assigned_app. unfold entries. rewrite (assigned_other t (writes s)) by auto. now rewrite app_nil_r.
Qed.

Definition alike (l : LLLine) (lg : list entry) (l' : LLLine) (lg' : list entry) : Prop :=
  History l lg /\ History l' lg' /\ contents l = contents l' /\ forall t, assigned t lg = assigned t lg'.

Lemma alike_attributed l lg l' lg' : alike l lg l' lg' -> forall i, attributed i lg <-> attributed i lg'.
Proof.
  assert (K : forall lg lg', (forall t, assigned t lg = assigned t lg') -> forall i, attributed i lg -> attributed i lg').
  { clear. intros lg lg' EA i. unfold attributed. rewrite !in_map_iff. intros ([r [t v]] & E & HI). exists (r, mkany t v). split; [exact E|].
    apply assigned_In. rewrite <- EA. now apply assigned_In. }
  intros (_ & _ & _ & EA) i. split; apply K; intros t; now rewrite EA.
Qed.

Lemma contents_tokens l l' : ll_tokens l = ll_tokens l' -> contents l = contents l'.
Proof. intros E. unfold contents. now rewrite E. Qed.

Lemma after_alike ss : forall l lg l' lg' l1, alike l lg l' lg' -> after_any l ss l1 ->
  exists l1' lg1 lg1', after_any l' ss l1' /\ alike l1 lg1 l1' lg1' /\ ll_tokens l1 = ll_tokens l /\ ll_tokens l1' = ll_tokens l'.
Proof.
  induction ss as [|[id s] ss IH]; intros l lg l' lg' l1 HA HR; inversion HR; subst.
  - exists l', lg, lg'. split; [constructor|auto].
  - pose proof (alike_attributed _ _ _ _ HA) as HT. destruct HA as (HD & HD' & ET & EA).
    destruct (step_same s id l lg l'0) as (out & (D1 & T1) & K); auto.
    destruct (K id l' lg' HD' ET) as (l2 & R2 & D2 & T2); [auto..|].
    destruct (IH l'0 (lg ++ entries out) l2 (lg' ++ entries out) l1) as (l3 & a & b & R3 & HA3 & E3 & E3'); auto.
    + split; [assumption|]. split; [assumption|]. split; [unfold contents in *; congruence|]. intros t. rewrite !LemStore.assigned_app. now rewrite EA.
    + exists l3, a, b. split; [econstructor; eauto|]. split; [assumption|]. split; congruence.
Qed.

Lemma swap_alike x y l lg l1 : History l lg -> attributed_for [x; y] l lg -> independent (snd x) (snd y) ->
  after_any l [x; y] l1 ->
  exists l1' lg1 lg1', after_any l [y; x] l1' /\ alike l1 lg1 l1' lg1' /\ ll_tokens l1 = ll_tokens l /\ ll_tokens l1' = ll_tokens l.
Proof.
  destruct x as [ix x], y as [iy y]. cbn [snd]. intros HD HU (NW & NXY & NYX) HR.
  inversion HR as [|? ? ? ? la ? RX HR']; subst. inversion HR' as [|? ? ? ? lb ? RY HR'']; subst. inversion HR''; subst.
  destruct (step_same x ix l lg la) as (ox & (DX & TKX) & KX); auto.
  destruct (step_same y iy la (lg ++ entries ox) l1) as (oy & (DY & TKY) & KY); auto.
  destruct (KY iy l lg HD (contents_tokens _ _ TKX)) as (l2 & R2 & D2 & T2).
  { intros t Ht. apply assigned_step. congruence. }
  { intros E i. assert (HU' : forall i, i < length (ll_tokens l) -> attributed i lg).
    { apply HU. exists (iy, y). split; [right; now left|exact E]. }
    apply (attributed_same la _ l _ DX HD (contents_tokens _ _ TKX)); auto. intros j. rewrite TKX. intros Hj. now apply attributed_app, HU'. }
  destruct (KX ix l2 (lg ++ entries oy) D2 (contents_tokens _ _ (eq_sym T2))) as (l3 & R3 & D3 & T3).
  { intros t Ht. symmetry. apply assigned_step. congruence. }
  { intros E i. assert (HU' : forall i, i < length (ll_tokens l) -> attributed i lg).
    { apply HU. exists (ix, x). split; [now left|exact E]. }
    apply (attributed_same l _ l2 _ HD D2 (contents_tokens _ _ (eq_sym T2))); auto. intros j. rewrite T2. intros Hj. now apply attributed_app, HU'. }
  exists l3, ((lg ++ entries ox) ++ entries oy), ((lg ++ entries oy) ++ entries ox).
  split; [econstructor; [exact R2|]; econstructor; [exact R3|constructor]|].
  split; [|split; congruence].
  split; [assumption|]. split; [assumption|]. split; [apply contents_tokens; congruence|].
  intros t. destruct (ty_eq_dec t (writes x)) as [E|N].
  - rewrite (assigned_step t y (lg ++ entries ox)) by congruence. rewrite !LemStore.assigned_app. f_equal.
    unfold entries. rewrite (assigned_other t (writes y)) by congruence. now rewrite app_nil_r.
  - rewrite (assigned_step t x (lg ++ entries oy)) by assumption. rewrite !LemStore.assigned_app. f_equal.
    unfold entries. rewrite (assigned_other t (writes x)) by assumption. now rewrite app_nil_r.
Qed.

Lemma after_split ss : forall ss' l l1, after_any l (ss ++ ss') l1 <-> exists l0, after_any l ss l0 /\ after_any l0 ss' l1.
Proof.
  induction ss as [|[id s] ss IH]; intros ss' l l1; cbn [app].
  - split; [intros H; exists l; split; [constructor|assumption]|]. intros (l0 & H & H'). inversion H; subst. assumption.
  - split.
    + intros H. inversion H; subst. apply IH in H6. destruct H6 as (l0 & A & B). exists l0. split; [econstructor; eauto|assumption].
    + intros (l0 & H & H'). inversion H; subst. econstructor; eauto. apply IH. eauto.
Qed.

Lemma alike_answers l lg l' lg' : alike l lg l' lg' -> ll_tokens l = ll_tokens l' -> same_answers l l'.
Proof.
  intros HK ET. pose proof (alike_attributed _ _ _ _ HK) as HT. destruct HK as (H & H' & _ & EA).
  pose proof (history_repr _ _ H) as R. pose proof (history_repr _ _ H') as R'.
  assert (EM : forall has A (m : matcher A), lib_matcher any_ty has A m -> forall d, m d l = m d l').
  { intros has A m HM. eapply lib_matcher_ext; eauto. }
  split; [exact ET|]. split; [|split; [|split]].
  - intros t. eapply query_ext; eauto.
  - intros has A m d HM. eapply EM; eauto.
  - intros has A m HM. unfold find, pos_start_at, pos_end_at. rewrite ET. apply flat_mapM_ext. intros i _.
    now rewrite (EM has A m HM).
  - intros tg incs. eapply show_ext; eauto.
Qed.

Lemma answers_refl l : same_answers l l.
Proof. unfold same_answers. auto 10. Qed.

Lemma answers_trans l1 l2 l3 : same_answers l1 l2 -> same_answers l2 l3 -> same_answers l1 l3.
Proof.
  intros (T & Q & M & F & S) (T' & Q' & M' & F' & S'). split; [congruence|]. split; [|split; [|split]].
  - intros t. now rewrite Q.
  - intros has A m d HM. rewrite (M has A m d HM). eauto.
  - intros has A m HM. rewrite (F has A m HM). eauto.
  - intros tg incs. now rewrite S.
Qed.

Lemma reordered_steps ss ss' : reordered ss ss' -> forall x, In x ss <-> In x ss'.
Proof. induction 1; intros z; cbn [In] in *; try rewrite IHreordered; try tauto. now rewrite IHreordered1. Qed.

Lemma attributed_for_sub ss ss' l lg : (forall x, In x ss' -> In x ss) -> attributed_for ss l lg -> attributed_for ss' l lg.
Proof. intros HS HA (x & Hx & Ex). apply HA. exists x. auto. Qed.

Lemma reorder_alike ss ss' : reordered ss ss' -> forall l lg l1, History l lg -> attributed_for ss l lg ->
  after_any l ss l1 -> exists l2, after_any l ss' l2 /\ same_answers l1 l2.
Proof.
  induction 1 as [ss|x y ss HI|[id s] ss ss' HR IH|ss1 ss2 ss3 HR1 IH1 HR2 IH2]; intros l lg l1 HD HF HA.
  - exists l1. split; [assumption|apply answers_refl].
  - change (x :: y :: ss) with ([x; y] ++ ss) in HA. apply after_split in HA. destruct HA as (l0 & HA & HB).
    destruct (swap_alike x y l lg l0 HD) as (l0' & a & b & HA' & HK & T0 & T0'); auto.
    { eapply attributed_for_sub; [|exact HF]. intros z [->|[->|[]]]; [now left|right; now left]. }
    destruct (after_alike ss l0 a l0' b l1 HK HB) as (l1' & c & d & HB' & HK' & T1 & T1').
    exists l1'. split; [|eapply alike_answers; eauto; congruence].
    change (y :: x :: ss) with ([y; x] ++ ss). apply after_split. eauto.
  - inversion HA; subst. destruct (step_same s id l lg l') as (out & (D1 & T1) & _); auto.
    destruct (IH l' (lg ++ entries out) l1) as (l2 & A2 & S2); auto.
    { intros (z & Hz & Ez) i. rewrite T1. intros Hi. apply attributed_app, HF; auto. exists z. split; [now right|assumption]. }
    exists l2. split; [econstructor; eauto|assumption].
  - destruct (IH1 l lg l1 HD HF HA) as (l2 & A2 & S2).
    destruct (IH2 l lg l2 HD) as (l3 & A3 & S3); auto.
    { eapply attributed_for_sub; [|exact HF]. intros z. apply (reordered_steps _ _ HR1). }
    exists l3. split; [assumption|]. eapply answers_trans; eauto.
Qed.

(** C58: independent runs may be made in any order. *)
Lemma thm_C58_reorder :
  forall l lg ss ss' l1,
    History l lg -> attributed_for ss l lg -> reordered ss ss' ->
    after_any l ss l1 -> exists l2, after_any l ss' l2 /\ same_answers l1 l2.
Proof. intros l lg ss ss' l1 H HU HR HA. apply (reorder_alike ss ss' HR l lg l1); auto. Qed.

Lemma after_unique l ss l1 l2 : after_any l ss l1 -> after_any l ss l2 -> l1 = l2.
Proof. intros A1. revert l2. induction A1; intros l3 A3; inversion A3; subst; auto. apply IHA1. congruence. Qed.

(** ... in particular on created lines, where either order can be the one that panics only if the other does. *)
Lemma thm_C58_created :
  forall tg sz input l ss ss',
    Forall wf_input input -> Forall is_text input \/ Forall (fun x => uses_chars (snd x) = false) ss ->
    create_line_from_input_tokens tg input sz = Ok l ->
    reordered ss ss' ->
    ((exists l1, after_any l ss l1) <-> (exists l2, after_any l ss' l2))
    /\ forall l1 l2, after_any l ss l1 -> after_any l ss' l2 -> same_answers l1 l2.
Proof.
  intros tg sz input l ss ss' HW HI HC HR.
  destruct (thm_C07_created_plain tg sz input l HW HC) as (lg & H & _).
  assert (HF : attributed_for ss l lg).
  { intros (x & Hx & Ex). destruct HI as [HI|HI].
    - intros i. apply text_attributed; auto. eapply created_text_only; eauto.
    - rewrite Forall_forall in HI. rewrite (HI x Hx) in Ex. discriminate. }
  assert (HS : reordered ss' ss).
  { clear -HR. induction HR; try (econstructor; eauto; fail). apply R_swap. unfold independent in *. intuition. }
  split.
  - split; intros (l1 & A1).
    + destruct (reorder_alike ss ss' HR l lg l1 H HF A1) as (l2 & A2 & _). eauto.
    + destruct (reorder_alike ss' ss HS l lg l1 H) as (l2 & A2 & _); eauto.
      eapply attributed_for_sub; [|exact HF]. intros z. apply (reordered_steps _ _ HS).
  - intros l1 l2 A1 A2. destruct (reorder_alike ss ss' HR l lg l1 H HF A1) as (l2' & A2' & S).
    rewrite (after_unique _ _ _ _ A2 A2'). exact S.
Qed.

End ThmOrder.
