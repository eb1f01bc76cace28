(** Proofs of the properties of selections (C24-C34). *)

From Verif Require Export ThmMatch SpecSel.

Section ThmSel.
Context {UC : Unicode} {U : UserTypes}.

(** ** Elementary facts *)

Lemma flat_mapM_fun {A B} (f : A -> res (list B)) l bs : flat_mapM f l = Ok bs ->
  exists g, (forall a, In a l -> f a = Ok (g a)) /\ bs = flat_map g l.
Proof.
  intros H. exists (fun a => match f a with Ok b => b | _ => [] end).
  assert (HF : forall a, In a l -> f a = Ok (match f a with Ok b => b | _ => [] end)).
  { intros a Ha. destruct (proj1 (flat_mapM_ok_iff f l) (ex_intro _ bs H) a Ha) as (b & E). now rewrite E. }
  split; auto. rewrite (flat_mapM_ok f _ l HF) in H. congruence.
Qed.

Lemma filter_none {A} (p : A -> bool) l : (forall x, In x l -> p x = false) -> filter p l = [].
Proof. induction l as [|x l IH]; simpl; auto. intros H. rewrite (H x) by auto. auto. Qed.
Lemma filter_all {A} (p : A -> bool) l : (forall x, In x l -> p x = true) -> filter p l = l.
Proof. induction l as [|x l IH]; simpl; auto. intros H. rewrite (H x) by auto. f_equal. auto. Qed.

Lemma in_range_incl a b k : In k (range_incl a b) <-> a <= k <= b.
Proof. unfold range_incl. rewrite in_seq. lia. Qed.

Lemma sel_ext s s' : sel_line s = sel_line s' -> start_idx s = start_idx s' -> end_idx s = end_idx s' -> s = s'.
Proof. destruct s, s'; simpl; intros; subst; reflexivity. Qed.

Lemma selection_from_spec s a b p : selection_from s a b = Some p <->
  sel_line p = sel_line s /\ start_idx p = Nat.max a (start_idx s) /\ end_idx p = Nat.min b (end_idx s)
  /\ start_idx p <= end_idx p.
Proof.
  unfold selection_from. destruct (Nat.max a (start_idx s) <=? Nat.min b (end_idx s)) eqn:E.
  - apply Nat.leb_le in E. split.
    + intros H. inversion H; subst. simpl. auto.
    + intros (H1 & H2 & H3 & H4). f_equal. apply sel_ext; simpl; auto.
  - apply Nat.leb_gt in E. split; [discriminate|]. intros (H1 & H2 & H3 & H4). lia.
Qed.

Lemma selection_from_none s a b : selection_from s a b = None <-> Nat.min b (end_idx s) < Nat.max a (start_idx s).
Proof.
  unfold selection_from. destruct (Nat.max a (start_idx s) <=? Nat.min b (end_idx s)) eqn:E.
  - apply Nat.leb_le in E. split; [discriminate|lia].
  - apply Nat.leb_gt in E. tauto.
Qed.

Lemma selection_from_part s a b : part_of s (fun k => a <= k <= b) (selection_from s a b).
Proof.
  destruct (selection_from s a b) as [p|] eqn:E; simpl.
  - apply selection_from_spec in E. destruct E as (H1 & H2 & H3 & H4). split; auto. split; auto.
    intros k. unfold covers. lia.
  - apply selection_from_none in E. unfold covers. intros k. lia.
Qed.

Lemma selection_before_spec s a b p : selection_before s a b = Some p <->
  0 < b /\ selection_from s a (b - 1) = Some p.
Proof.
  unfold selection_before, checked_sub. destruct b as [|b].
  - simpl. split; [discriminate|lia].
  - simpl. split; [|tauto]. intros H. split; [lia|exact H].
Qed.

Lemma find_by_In {A} s (m : matcher A) found s' a :
  find_by s m = Ok found ->
  (In (s', a) found <->
   sel_line s' = sel_line s /\ covers s (start_idx s')
   /\ exists ms, m (Fwd (start_idx s')) (line_of s) = Ok ms /\ In (a, end_idx s') ms).
Proof.
  intros H. unfold find_by in H. split.
  - intros Hin. destruct (flat_mapM_In _ _ _ _ H Hin) as (i & bl & H1 & H2 & H3).
    inv_bind H2. inversion H2; subst. apply in_map_iff in H3. destruct H3 as ([b j] & E3 & H3).
    inversion E3; subst. simpl. split; auto. split; [now apply in_range_incl|]. eauto.
  - intros (H1 & H2 & ms & H3 & H4).
    eapply flat_mapM_In_rev; [exact H|apply in_range_incl; exact H2| |].
    + cbv beta. rewrite H3. simpl. reflexivity.
    + apply in_map_iff. exists (a, end_idx s'). split; auto. f_equal. apply sel_ext; simpl; auto.
Qed.

Lemma both_In {A} s (m : matcher A) found s' a :
  find_by_forwards_and_backwards s m = Ok found ->
  (In (s', a) found <->
   sel_line s' = sel_line s /\
   ((covers s (start_idx s') /\ exists ms, m (Fwd (start_idx s')) (line_of s) = Ok ms /\ In (a, end_idx s') ms)
    \/ (covers s (end_idx s') /\ exists ms, m (Bwd (end_idx s')) (line_of s) = Ok ms /\ In (a, start_idx s') ms))).
Proof.
  intros H. unfold find_by_forwards_and_backwards in H. split.
  - intros Hin. destruct (flat_mapM_In _ _ _ _ H Hin) as (i & bl & H1 & H2 & H3).
    inv_bind H2. inv_bind H2. inversion H2; subst. apply in_range_incl in H1.
    apply in_app_or in H3. destruct H3 as [H3|H3]; apply in_map_iff in H3; destruct H3 as ([b j] & E3 & H3);
      inversion E3; subst; simpl; split; auto; [left|right]; (split; [exact H1|eauto]).
  - intros (H1 & H2).
    assert (HO : forall i, covers s i -> exists fs bs, m (Fwd i) (line_of s) = Ok fs /\ m (Bwd i) (line_of s) = Ok bs).
    { intros i Hi. pose proof (proj1 (flat_mapM_ok_iff _ _) (ex_intro _ found H) i (proj2 (in_range_incl _ _ _) Hi)) as [r Hr].
      simpl in Hr. inv_bind Hr. inv_bind Hr. eauto. }
    destruct H2 as [(H2 & ms & H3 & H4)|(H2 & ms & H3 & H4)]; destruct (HO _ H2) as (fs & bs & Ef & Eb).
    + eapply flat_mapM_In_rev; [exact H|apply in_range_incl; exact H2| |].
      * cbv beta. rewrite Ef, Eb. simpl. reflexivity.
      * apply in_or_app. left. assert (ms = fs) by congruence. subst. apply in_map_iff.
        exists (a, end_idx s'). split; auto. f_equal. apply sel_ext; simpl; auto.
    + eapply flat_mapM_In_rev; [exact H|apply in_range_incl; exact H2| |].
      * cbv beta. rewrite Ef, Eb. simpl. reflexivity.
      * apply in_or_app. right. assert (ms = bs) by congruence. subst. apply in_map_iff.
        exists (a, start_idx s'). split; auto. f_equal. apply sel_ext; simpl; auto.
Qed.

Lemma hd_opt_In {A} (l : list A) x : hd_opt l = Some x -> In x l.
Proof. destruct l; simpl; intros H; inversion H; auto. Qed.

(** Pieces of [split_by]. *)
Lemma split_by_pieces {A} s (m : matcher A) ps p : split_by s m = Ok ps -> In p ps ->
  p = s \/ exists a b, selection_from s a b = Some p.
Proof.
  intros H Hin. unfold split_by in H. inv_bind H.
  assert (SB : forall a b q, In q (opt_list (selection_before s a b)) -> exists a b, selection_from s a b = Some q).
  { intros x y q Hq. destruct (selection_before s x y) eqn:E'; simpl in Hq; [|easy].
    destruct Hq as [->|[]]. apply selection_before_spec in E'. destruct E'; eauto. }
  assert (SF : forall a b q, In q (opt_list (selection_from s a b)) -> exists a b, selection_from s a b = Some q).
  { intros x y q Hq. destruct (selection_from s x y) eqn:E'; simpl in Hq; [|easy].
    destruct Hq as [->|[]]. eauto. }
  destruct a as [|m0 [|m1 ms]].
  - inversion H; subst. destruct Hin as [<-|[]]. auto.
  - inversion H; subst. right. apply in_app_or in Hin. destruct Hin; eauto.
  - apply Ok_inj in H. subst ps. right. apply in_app_or in Hin. destruct Hin as [Hin|Hin]; eauto.
    apply in_app_or in Hin. destruct Hin as [Hin|Hin]; eauto.
    apply in_filter_map in Hin. destruct Hin as ([w0 w1] & _ & Hw).
    apply selection_before_spec in Hw. destruct Hw; eauto.
Qed.

(** ** C24 *)

Lemma lib_panics_out l lg P has A (m : matcher A) :
  Repr l lg -> lib_matcher P has A m -> forall i, length (ll_tokens l) <= i -> exists p, m (Fwd i) l = Panic p.
Proof.
  intros HR HM i Hi.
  assert (HL : (i <? length (ll_tokens l)) = false) by (apply Nat.ltb_ge; lia).
  induction HM.
  - unfold x_attr. rewrite (dir_attr_run l lg) by auto. simpl. rewrite HL. eauto.
  - unfold x_attr_eq. rewrite (dir_attr_eq_run l lg) by auto. simpl. rewrite HL. eauto.
  - unfold x_token_has_any. rewrite (token_attr_one_of_fwd l lg) by auto.
    destruct (attributed_dec i lg) as [HA|]; eauto. exfalso. apply in_map_iff in HA.
    destruct HA as (e & E & He). destruct (in_line_entry _ _ _ (rp_in l lg HR) He) as [H1 _].
    rewrite E in H1. simpl in H1. lia.
  - unfold x_token_text, dir_text_token. rewrite (proj2 (nth_error_None _ _) Hi). simpl. eauto.
  - destruct IHHM1 as (p1 & E1). destruct IHHM2 as (p2 & E2). unfold x_all2. rewrite E1, E2. simpl. eauto.
  - destruct IHHM1 as (p1 & E1). destruct IHHM2 as (p2 & E2). destruct IHHM3 as (p3 & E3).
    unfold x_all3. rewrite E1, E2, E3. simpl. eauto.
  - destruct IHHM1 as (p1 & E1). unfold x_any_of2. rewrite E1. simpl. eauto.
  - destruct IHHM1 as (p1 & E1). unfold x_any_of3. rewrite E1. simpl. eauto.
  - destruct IHHM1 as (p1 & E1). unfold x_seq2. rewrite E1. simpl. eauto.
  - destruct IHHM1 as (p1 & E1). unfold x_seq3. rewrite E1. simpl. eauto.
Qed.

Lemma selection_from_ok s a b p : selection_from s a b = Some p ->
  end_idx s < line_len s -> sel_line p = sel_line s /\ sel_ok p.
Proof.
  intros H He. apply selection_from_spec in H. destruct H as (H1 & H2 & H3 & H4). split; auto.
  unfold sel_ok, line_len, line_of in *. rewrite H1. lia.
Qed.

Section Derived.
Variables (rc : RcLine) (lg : list entry).
Hypothesis HH : History (rc_line rc) lg.
Hypothesis HP : proper lg.
Let n := length (ll_tokens (rc_line rc)).

Definition fine (aft : bool) (s : LLSelection) : Prop :=
  sel_line s = rc /\ (sel_ok s \/ (aft = true /\ sel_past_end s)).

Lemma fine_bounds aft s : fine aft s ->
  line_of s = rc_line rc /\ line_len s = n /\ 0 < n /\ end_idx s < n /\ start_idx s <= n
  /\ start_idx s <= S (end_idx s).
Proof.
  intros [H1 H2]. unfold line_of, sel_ok, sel_past_end, line_len, line_of in *. rewrite H1 in *. fold n in H2 |- *.
  split; auto. split; auto. destruct H2 as [H2|[_ H2]]; lia.
Qed.

Lemma fine_mk aft i j : i <= j < n -> fine aft (mkSel rc i j).
Proof. intros H. split; auto. Qed.

Lemma derived_fine aft s : derived aft rc s -> fine aft s.
Proof.
  assert (HB : forall has A (m : matcher A), lib_matcher any_ty has A m -> bounded m (rc_line rc)).
  { intros has A m HM. exact (thm_C22_inside _ _ _ _ _ m HH HP HM). }
  assert (FB : forall s has A (m : matcher A) fs s' a, fine aft s -> lib_matcher any_ty has A m ->
     find_by s m = Ok fs -> In (s', a) fs -> fine aft s').
  { intros s0 has A m fs s' a IH HM H Hin. destruct (fine_bounds _ _ IH) as (L & N & Hn & He & Hs & Hc).
    apply (find_by_In _ _ _ _ _ H) in Hin. destruct Hin as (H1 & H2 & ms & H3 & H4).
    rewrite L in H3. unfold covers in H2. pose proof (HB _ _ _ HM (Fwd (start_idx s')) ms a (end_idx s')) as HI.
    simpl in HI. fold n in HI. specialize (HI ltac:(lia) H3 H4).
    destruct IH as [E _]. split; [congruence|]. left. unfold sel_ok, line_len, line_of. rewrite H1, E. fold n. lia. }
  assert (MF : forall s has A (m : matcher A) fs s' a, fine aft s -> lib_matcher any_ty has A m ->
     match_forwards s m = Ok fs -> In (s', a) fs -> fine aft s').
  { intros s0 has A m fs s' a IH HM H Hin. destruct (fine_bounds _ _ IH) as (L & N & Hn & He & Hs & Hc).
    unfold match_forwards in H. rewrite N, L in H. destruct (Nat.eqb (S (end_idx s0)) n) eqn:E.
    - inversion H; subst. easy.
    - apply Nat.eqb_neq in E. inv_bind H. inversion H; subst. apply in_map_iff in Hin.
      destruct Hin as ([b j] & E1 & H1). inversion E1; subst.
      pose proof (HB _ _ _ HM (Fwd (S (end_idx s0))) a0 a j) as HI. simpl in HI. fold n in HI.
      specialize (HI ltac:(lia) E0 H1). destruct IH as [E2 _]. rewrite E2. apply fine_mk. lia. }
  assert (MB : forall s has A (m : matcher A) fs s' a, fine aft s -> lib_matcher any_ty has A m ->
     match_backwards s m = Ok fs -> In (s', a) fs -> fine aft s').
  { intros s0 has A m fs s' a IH HM H Hin. destruct (fine_bounds _ _ IH) as (L & N & Hn & He & Hs & Hc).
    unfold match_backwards in H. rewrite L in H. destruct (Nat.eqb (start_idx s0) 0) eqn:E.
    - inversion H; subst. easy.
    - apply Nat.eqb_neq in E. inv_bind H. inversion H; subst. apply in_map_iff in Hin.
      destruct Hin as ([b j] & E1 & H1). inversion E1; subst.
      pose proof (HB _ _ _ HM (Bwd (start_idx s0 - 1)) a0 a j) as HI. simpl in HI. fold n in HI.
      specialize (HI ltac:(lia) E0 H1). destruct IH as [E2 _]. rewrite E2. apply fine_mk. lia. }
  assert (SF : forall s a b p, fine aft s -> selection_from s a b = Some p -> fine aft p).
  { intros s0 a b p IH H. destruct (fine_bounds _ _ IH) as (L & N & Hn & He & Hs & Hc).
    destruct (selection_from_ok _ _ _ _ H) as [E1 E2]; [lia|]. destruct IH as [E _]. split; [congruence|auto]. }
  assert (TR : forall s has A (m : matcher A) f1 f2 s', fine aft s -> lib_matcher any_ty has A m ->
     trim_selection s m f1 f2 = Ok (Some s') -> fine aft s').
  { intros s0 has A m f1 f2 s' IH HM H. destruct (fine_bounds _ _ IH) as (L & N & Hn & He & Hs & Hc).
    unfold trim_selection in H. rewrite L in H. inv_bind H. inv_bind H. rename a into ns, a0 into ne.
    destruct ((start_idx s0 <=? ne) && (ns <=? ne)) eqn:C; [|discriminate].
    apply andb_true_iff in C. destruct C as [C1 C2]. apply Nat.leb_le in C1, C2.
    inversion H; subst. assert (ne <= end_idx s0).
    { destruct f2; [|inversion E0; lia]. inv_bind E0. destruct a as [|[x j] a]; [inversion E0; lia|].
      pose proof (HB _ _ _ HM (Bwd (end_idx s0)) _ x j He E1 (or_introl eq_refl)) as HI. simpl in HI.
      unfold checked_sub in E0. destruct (1 <=? j); inversion E0; lia. }
    destruct IH as [E2 _]. rewrite E2. apply fine_mk. lia. }
  intros HD. induction HD.
  - unfold from_line in H. destruct (0 <? length (ll_tokens (rc_line rc))) eqn:E; [|discriminate].
    apply Nat.ltb_lt in E. inversion H; subst. apply fine_mk. unfold n. lia.
  - destruct (split_by_pieces _ _ _ _ H0 H1) as [->|(a & b & Hp)]; [exact IHHD|]. eapply SF; eauto.
  - eapply FB; eauto.
  - unfold find_first_by in H0. apply rmap_ok_inv in H0. destruct H0 as (fs & E & E2). symmetry in E2.
    apply hd_opt_In in E2. eapply FB; eauto.
  - destruct (fine_bounds _ _ IHHD) as (L & N & Hn & He & Hs & Hc).
    apply (both_In _ _ _ _ _ H0) in H1. destruct H1 as (E1 & H1). rewrite L in H1. unfold covers in H1.
    assert (sel_line s' = rc) by (destruct IHHD; congruence).
    split; auto. left. unfold sel_ok, line_len, line_of. rewrite H2. fold n.
    destruct H1 as [(H3 & ms & H4 & H5)|(H3 & ms & H4 & H5)].
    + pose proof (HB _ _ _ H (Fwd (start_idx s')) ms a (end_idx s')) as HI. simpl in HI. fold n in HI.
      specialize (HI ltac:(lia) H4 H5). lia.
    + pose proof (HB _ _ _ H (Bwd (end_idx s')) ms a (start_idx s')) as HI. simpl in HI. fold n in HI.
      specialize (HI ltac:(lia) H4 H5). lia.
  - eapply MF; eauto.
  - unfold match_first_forwards in H0. apply rmap_ok_inv in H0. destruct H0 as (fs & E & E2). symmetry in E2.
    apply hd_opt_In in E2. eapply MF; eauto.
  - eapply MB; eauto.
  - unfold match_first_backwards in H0. apply rmap_ok_inv in H0. destruct H0 as (fs & E & E2). symmetry in E2.
    apply hd_opt_In in E2. eapply MB; eauto.
  - unfold split_with in H. destruct (N.eqb _ _); [|discriminate]. destruct (0 <? start_idx o); inversion H.
    eapply SF; [exact IHHD1|eassumption].
  - unfold split_with in H. destruct (N.eqb _ _); [|discriminate]. destruct (0 <? start_idx o); inversion H;
    (eapply SF; [exact IHHD1|eassumption]).
  - exact (TR s has A m true true s' IHHD H H0).
  - exact (TR s has A m true false s' IHHD H H0).
  - exact (TR s has A m false true s' IHHD H H0).
  - destruct (fine_bounds _ _ IHHD) as (L & N & Hn & He & Hs & Hc).
    unfold sel_after in H0. inv_bind H0. rewrite N in E. unfold sub_usize, checked_sub in E.
    destruct (1 <=? n) eqn:E1; [|discriminate]. inversion E; subst a.
    destruct (Nat.eqb _ _) eqn:E2; [discriminate|]. inversion H0; subst. destruct IHHD as [E3 _].
    rewrite E3. split; auto. unfold sel_ok, sel_past_end, line_len, line_of. simpl. fold n. lia.
Qed.
End Derived.

(** C24: selections made from the whole line are non-empty and in range. *)
Lemma thm_C24_in_range :
  forall rc lg s,
    History (rc_line rc) lg -> proper lg -> derived false rc s -> sel_line s = rc /\ sel_ok s.
Proof.
  intros rc lg s HH HP HD. destruct (derived_fine rc lg HH HP false s HD) as [H1 [H2|[H2 _]]]; auto. discriminate.
Qed.

(** With [after] the empty selection past the end is the only other possibility. *)
Lemma thm_C24_with_after :
  forall rc lg s,
    History (rc_line rc) lg -> proper lg -> derived true rc s -> sel_line s = rc /\ (sel_ok s \/ sel_past_end s).
Proof.
  intros rc lg s HH HP HD. destruct (derived_fine rc lg HH HP true s HD) as [H1 [H2|[_ H2]]]; auto.
Qed.

Lemma input_log_proper : forall groups input i, Forall (fun g => g <> []) groups -> proper (input_log i groups input).
Proof.
  induction groups as [|g groups IH]; intros [|it input] i HF; simpl; try constructor.
  inversion HF; subst. unfold proper in *. apply Forall_app. split; [|apply IH; auto].
  apply Forall_forall. intros e He. apply in_map_iff in He. destruct He as (a & <- & _). simpl.
  destruct g; [easy|]. simpl. lia.
Qed.

Lemma tokens_log_proper ts : forall i, proper (tokens_log i ts).
Proof.
  induction ts as [|t ts IH]; intros i; simpl; [constructor|]. unfold proper in *. apply Forall_app. split; auto.
  apply Forall_forall. intros e He. apply token_entries_ranges in He. destruct e as [r x]. simpl in *. subst r. simpl. lia.
Qed.

(** The hypothesis of C22 and C24 holds of created lines, and is kept by resolvers
    that only finish selections made from the one they are given. *)
Lemma thm_C24_created :
  forall tg sz input l,
    Forall wf_input input -> create_line_from_input_tokens tg input sz = Ok l ->
    exists lg, History l lg /\ proper lg.
Proof.
  intros tg sz input l HW H. destruct (create_facts tg sz input l HW H) as (groups & H1 & H2 & _).
  exists (creation_log (map (map fst) groups) input). split.
  - eapply H_create; eauto.
  - unfold creation_log, proper. apply Forall_app. split; [apply tokens_log_proper|].
    apply input_log_proper. apply Forall_forall. intros g Hg. apply in_map_iff in Hg. destruct Hg as (g' & <- & Hg').
    rewrite Forall_forall in H2. specialize (H2 _ Hg'). destruct g'; simpl; [easy|discriminate].
Qed.

Lemma thm_C24_run :
  forall t l lg id (r : Resolver t),
    History l lg -> proper lg -> (ll_tokens l <> [] -> well_behaved id l r) ->
    exists l' lg', run id l r = Ok l' /\ History l' (lg ++ lg') /\ proper (lg ++ lg').
Proof.
  intros t l lg id r H HP HW. destruct (ll_tokens l) as [|t0 ts] eqn:ET.
  - exists l, []. rewrite app_nil_r. split; auto. unfold run. now rewrite ET.
  - destruct (HW ltac:(discriminate)) as (g & Hg & Hr & Hs).
    assert (HS : forall x, In x (go_assignments g) -> as_start x <= as_end x < length (ll_tokens l)).
    { intros x Hx. destruct (Hs x Hx) as (s & v & HD & ->).
      destruct (thm_C24_in_range (mkRc id l) lg s H HP HD) as [E1 E2]. unfold finish_with_attr. simpl.
      unfold sel_ok, line_len, line_of in E2. rewrite E1 in E2. exact E2. }
    assert (HN : ll_tokens l <> []) by (rewrite ET; discriminate).
    assert (HR : exists l', run id l r = Ok l').
    { apply (thm_C14_run_ok_iff t id l lg r H HN). exists g. split; auto. split; auto. unfold assignments_in. apply Forall_forall.
      intros x Hx. specialize (HS x Hx). lia. }
    destruct HR as (l' & HR). exists l', (map assignment_entry (go_assignments g)). split; auto. split.
    + eapply H_run; eauto.
    + unfold proper. apply Forall_app. split; auto. apply Forall_forall. intros e He.
      apply in_map_iff in He. destruct He as (x & <- & Hx). simpl. specialize (HS x Hx). lia.
Qed.

(** ** C25, C26 *)

Lemma sorted_flat {A B} (f : A -> list B) (key : B -> nat) (k : A -> nat) l :
  StronglySorted (fun a b => k a < k b) l -> (forall a b, In b (f a) -> key b = k a) ->
  StronglySorted le (map key (flat_map f l)).
Proof.
  intros HS HK. induction HS as [|a l HS IH HF]; simpl; [constructor|].
  rewrite map_app. rewrite Forall_forall in HF.
  assert (HA : forall b, In b (map key (f a)) -> b = k a).
  { intros b Hb. apply in_map_iff in Hb. destruct Hb as (x & <- & Hx). auto. }
  assert (HB : forall b, In b (map key (flat_map f l)) -> k a <= b).
  { intros b Hb. apply in_map_iff in Hb. destruct Hb as (x & <- & Hx). apply in_flat_map in Hx.
    destruct Hx as (a' & Ha' & Hx). rewrite (HK _ _ Hx). specialize (HF a' Ha'). lia. }
  revert HA. generalize (map key (f a)). intros ks. induction ks as [|b ks IHk]; intros HA; simpl; auto.
  constructor; [apply IHk; intros; apply HA; now right|]. apply Forall_forall. intros c Hc.
  rewrite (HA b (or_introl eq_refl)). apply in_app_or in Hc. destruct Hc as [Hc|Hc]; auto.
  rewrite (HA c (or_intror Hc)). auto.
Qed.

Lemma seq_sorted len : forall a, StronglySorted lt (seq a len).
Proof.
  induction len as [|len IH]; intros a; simpl; constructor; auto. apply Forall_forall. intros x Hx.
  apply in_seq in Hx. lia.
Qed.

Lemma filter_flat_map_single {A B} (f : A -> list B) (key : B -> nat) (k : A -> nat) l a :
  NoDup l -> (forall x y, In x l -> In y l -> k x = k y -> x = y) -> (forall x b, In b (f x) -> key b = k x) ->
  In a l -> filter (fun b => Nat.eqb (key b) (k a)) (flat_map f l) = f a.
Proof.
  intros HN HI HK Hin. induction l as [|x l IH]; [easy|]. inversion HN; subst. simpl. rewrite filter_app.
  assert (HX : forall y, k y <> k a -> filter (fun b => Nat.eqb (key b) (k a)) (f y) = []).
  { intros y Hy. apply filter_none. intros b Hb. rewrite (HK _ _ Hb). now apply Nat.eqb_neq. }
  assert (HE : filter (fun b => Nat.eqb (key b) (k a)) (f a) = f a).
  { apply filter_all. intros b Hb. rewrite (HK _ _ Hb). apply Nat.eqb_refl. }
  destruct Hin as [->|Hin].
  - rewrite HE. replace (filter _ (flat_map f l)) with (@nil B); [apply app_nil_r|].
    symmetry. apply filter_none. intros b Hb. apply in_flat_map in Hb. destruct Hb as (y & Hy & Hb).
    rewrite (HK _ _ Hb). apply Nat.eqb_neq. intros E. assert (y = a) by (apply HI; simpl; auto). subst. easy.
  - rewrite IH; auto.
    + rewrite HX; auto. intros E. assert (x = a) by (apply HI; simpl; auto). subst. easy.
    + intros; apply HI; simpl; auto.
Qed.

(** C25: find_by reports exactly the matches starting in the selection, ordered by
    start, and for equal starts in the matcher's order. *)
Lemma thm_C25_find_by :
  forall A s (m : matcher A) found,
    find_by s m = Ok found ->
    (forall s' a, In (s', a) found <->
       sel_line s' = sel_line s /\ covers s (start_idx s')
       /\ exists ms, m (Fwd (start_idx s')) (line_of s) = Ok ms /\ In (a, end_idx s') ms)
    /\ StronglySorted le (map (fun x => start_idx (fst x)) found)
    /\ (forall i ms, covers s i -> m (Fwd i) (line_of s) = Ok ms ->
          map (fun x => (snd x, end_idx (fst x))) (filter (fun x => Nat.eqb (start_idx (fst x)) i) found) = ms).
Proof.
  intros A s m found H. split; [intros s' a; exact (find_by_In s m found s' a H)|].
  unfold find_by in H. destruct (flat_mapM_fun _ _ _ H) as (g & Hg & ->).
  assert (HK : forall i b, In i (range_incl (start_idx s) (end_idx s)) -> In b (g i) -> start_idx (fst b) = i).
  { intros i b Hi Hb. specialize (Hg i Hi). inv_bind Hg. inversion Hg. rewrite <- H1 in Hb.
    apply in_map_iff in Hb. destruct Hb as ([o j] & <- & _). reflexivity. }
  set (g' := fun i => if in_dec Nat.eq_dec i (range_incl (start_idx s) (end_idx s)) then g i else []).
  assert (EG : flat_map g (range_incl (start_idx s) (end_idx s)) = flat_map g' (range_incl (start_idx s) (end_idx s))).
  { apply flat_map_ext_in. intros i Hi. unfold g'. destruct (in_dec _ _ _); easy. }
  assert (HK' : forall i b, In b (g' i) -> start_idx (fst b) = i).
  { intros i b. unfold g'. destruct (in_dec _ _ _); [|easy]. auto. }
  rewrite EG. split.
  - apply (sorted_flat g' (fun x => start_idx (fst x)) (fun i => i)); auto. apply seq_sorted.
  - intros i ms Hi Hm.
    assert (Hi' : In i (range_incl (start_idx s) (end_idx s))) by now apply in_range_incl.
    rewrite (filter_flat_map_single g' (fun x => start_idx (fst x)) (fun i => i)); auto.
    + unfold g'. destruct (in_dec _ _ _); [|easy]. specialize (Hg i Hi'). rewrite Hm in Hg. simpl in Hg.
      apply Ok_inj in Hg. rewrite <- Hg, map_map. rewrite <- (map_id ms) at 2. apply map_ext. intros [o j]. reflexivity.
    + apply seq_NoDup.
Qed.

(** It fails iff the matcher panics at some token of the selection. *)
Lemma thm_C25_ok_iff :
  forall A s (m : matcher A),
    (exists found, find_by s m = Ok found) <->
    (forall i, covers s i -> exists ms, m (Fwd i) (line_of s) = Ok ms).
Proof.
  intros A s m. unfold find_by. rewrite flat_mapM_ok_iff. split.
  - intros H i Hi. destruct (H i (proj2 (in_range_incl _ _ _) Hi)) as (r & Hr). inv_bind Hr. eauto.
  - intros H i Hi. destruct (H i (proj1 (in_range_incl _ _ _) Hi)) as (ms & Hm). rewrite Hm. simpl. eauto.
Qed.

Lemma thm_C25_first :
  forall A s (m : matcher A) found,
    find_by s m = Ok found ->
    (found = [] -> find_first_by s m = Ok None)
    /\ (forall x rest, found = x :: rest -> find_first_by s m = Ok (Some x)).
Proof.
  intros A s m found H. unfold find_first_by. rewrite H. split.
  - intros ->. reflexivity.
  - intros x rest ->. reflexivity.
Qed.

(** C26: what is true about matches and the searched selection. *)
Lemma thm_C26_found_inside_partial :
  forall A s (m : matcher A) found s' a,
    sel_ok s -> bounded m (line_of s) -> find_by s m = Ok found -> In (s', a) found ->
    sel_ok s' /\ start_idx s <= start_idx s'
    /\ (S (end_idx s) = line_len s \/ start_idx s' = end_idx s' -> end_idx s' <= end_idx s).
Proof.
  intros A s m found s' a Hs HB H Hin. apply (find_by_In _ _ _ _ _ H) in Hin.
  destruct Hin as (H1 & H2 & ms & H3 & H4). unfold covers, sel_ok in *.
  pose proof (HB (Fwd (start_idx s')) ms a (end_idx s')) as HI. simpl in HI. unfold line_len in *.
  specialize (HI ltac:(lia) H3 H4).
  unfold line_of in *. rewrite H1. lia.
Qed.

(** ** C27 *)

Definition ms_start {A} (x : LLSelection * A) := start_idx (fst x).
Definition ms_end {A} (x : LLSelection * A) := end_idx (fst x).

(** The gaps between consecutive matches, recursively. *)
Fixpoint gaps {A} (s : LLSelection) (from : nat) (found : list (LLSelection * A)) : list LLSelection :=
  match found with
  | [] => opt_list (selection_from s from (end_idx s))
  | x :: found' => opt_list (selection_before s from (ms_start x)) ++ gaps s (S (ms_end x)) found'
  end.

Lemma gaps_windows {A} s (found : list (LLSelection * A)) : forall x,
  gaps s (S (ms_end x)) found =
  filter_map (fun '(w0, w1) => selection_before s (S (end_idx (fst w0))) (start_idx (fst w1))) (windows2 (x :: found))
  ++ opt_list (selection_from s (S (ms_end (last (x :: found) x))) (end_idx s)).
Proof.
  induction found as [|y found IH]; intros x; [reflexivity|].
  cbn [gaps]. rewrite IH. cbn [windows2 filter_map].
  replace (last (x :: y :: found) x) with (last (y :: found) y).
  2:{ clear. revert x y. induction found as [|z found IH]; intros x y; auto.
      change (last (y :: z :: found) y) with (last (z :: found) y).
      change (last (x :: y :: z :: found) x) with (last (z :: found) x).
      clear IH. revert z. induction found; intros z; auto. apply (IHfound a). }
  unfold ms_start, ms_end. destruct (selection_before s (S (end_idx (fst x))) (start_idx (fst y))); simpl; auto.
Qed.

Lemma split_by_gaps {A} s (m : matcher A) found : find_by s m = Ok found ->
  split_by s m = Ok (if found then [s] else gaps s (start_idx s) found).
Proof.
  intros H. unfold split_by. rewrite H. cbn [bind]. destruct found as [|x [|y found]]; auto.
  change (gaps s (start_idx s) (x :: y :: found)) with
    (opt_list (selection_before s (start_idx s) (ms_start x)) ++ gaps s (S (ms_end x)) (y :: found)).
  rewrite (gaps_windows s (y :: found) x). reflexivity.
Qed.

Lemma gaps_runs {A} s (found : list (LLSelection * A)) : forall from,
  start_idx s <= end_idx s ->
  StronglySorted le (map ms_start found) -> StronglySorted le (map ms_end found) ->
  (forall x, In x found -> ms_start x <= ms_end x /\ covers s (ms_start x)) ->
  start_idx s <= from ->
  (forall x, In x found -> from <= S (ms_end x)) ->
  let P k := k < from \/ touched found k in
  (forall p, In p (gaps s from found) ->
     sel_line p = sel_line s /\ start_idx p <= end_idx p /\ from <= start_idx p /\ end_idx p <= end_idx s
     /\ (start_idx p = from \/ P (start_idx p - 1)) /\ (end_idx p = end_idx s \/ P (end_idx p + 1))
     /\ forall k, covers p k -> ~ P k)
  /\ (forall k, covers s k -> ~ P k -> exists p, In p (gaps s from found) /\ covers p k)
  /\ StronglySorted (fun p q => end_idx p < start_idx q) (gaps s from found).
Proof.
  induction found as [|x found IH]; intros from Hs HSs HSe Hx Hf Hfe P; cbn [gaps].
  - destruct (selection_from s from (end_idx s)) as [p|] eqn:E; simpl.
    + apply selection_from_spec in E. destruct E as (E1 & E2 & E3 & E4). split; [|split].
      * intros q [<-|[]]. split; auto. split; auto. split; [lia|]. split; [lia|]. split; [lia|]. split; [lia|].
        intros k Hk [Hk'|(s' & a & [] & _)]. unfold covers in Hk. lia.
      * intros k Hk HP. exists p. split; auto. unfold covers in *.
        assert (from <= k) by (destruct (le_lt_dec from k); auto; exfalso; apply HP; left; auto). lia.
      * repeat constructor.
    + apply selection_from_none in E. split; [easy|]. split; [|constructor].
      intros k Hk HP. exfalso. apply HP. left. unfold covers in Hk. lia.
  - destruct (Hx x (or_introl eq_refl)) as [Hx1 Hx2]. simpl in HSs, HSe.
    inversion HSs as [|? ? HSs' HFs]; subst. inversion HSe as [|? ? HSe' HFe]; subst.
    rewrite Forall_forall in HFs, HFe.
    pose proof (Hfe x (or_introl eq_refl)) as Hfx.
    specialize (IH (S (ms_end x)) Hs HSs' HSe' (fun y Hy => Hx y (or_intror Hy))).
    unfold covers in Hx2. specialize (IH ltac:(lia)).
    specialize (IH ltac:(intros y Hy; specialize (HFe (ms_end y) (in_map _ _ _ Hy)); lia)).
    cbv zeta in IH. destruct IH as (IH1 & IH2 & IH3).
    assert (HSP : forall k, k < S (ms_end x) \/ touched found k -> k < from \/ touched (x :: found) k \/ (k < ms_start x)).
    { intros k [Hk|(s' & a & Hin & Hc)].
      - destruct (le_lt_dec (ms_start x) k); auto. right. left. destruct x as [sx ax]. exists sx, ax.
        split; [now left|]. unfold covers. unfold ms_start, ms_end in *. simpl in *. lia.
      - right. left. exists s', a. split; auto. now right. }
    assert (HSX : forall k, ms_start x <= k -> (k < S (ms_end x) \/ touched found k) -> P k).
    { intros k Hk H. unfold P. destruct (HSP k H) as [H1|[H1|H1]]; auto. lia. }
    assert (HPX : forall k, P k -> k < S (ms_end x) \/ touched found k).
    { intros k [Hk|(s' & a & [Hin|Hin] & Hc)]; [left; lia| |].
      - subst x. left. unfold covers in Hc. unfold ms_end. simpl. lia.
      - right. exists s', a. auto. }
    assert (HST : forall k, k < ms_start x -> ~ touched (x :: found) k).
    { intros k Hk (s' & a & [Hin|Hin] & Hc); unfold covers in Hc.
      - subst x. unfold ms_start in Hk. simpl in Hk. lia.
      - specialize (HFs (ms_start (s', a)) (in_map _ _ _ Hin)). unfold ms_start in *. simpl in *. lia. }
    assert (HT : forall p, In p (gaps s (S (ms_end x)) found) ->
       sel_line p = sel_line s /\ start_idx p <= end_idx p /\ from <= start_idx p /\ end_idx p <= end_idx s
       /\ (start_idx p = from \/ P (start_idx p - 1)) /\ (end_idx p = end_idx s \/ P (end_idx p + 1))
       /\ forall k, covers p k -> ~ P k).
    { intros p Hp. destruct (IH1 p Hp) as (H1 & H2 & H3 & H4 & H5 & H6 & H7).
      split; auto. split; auto. split; [lia|]. split; auto. split; [|split].
      - right. destruct H5 as [H5|H5].
        + apply HSX; [lia|]. left. lia.
        + apply HSX; auto. lia.
      - destruct H6 as [H6|H6]; auto. right. apply HSX; auto. lia.
      - intros k Hk HPk. apply (H7 k Hk). auto. }
    destruct (selection_before s from (ms_start x)) as [p|] eqn:E; cbn [opt_list app].
    + apply selection_before_spec in E. destruct E as (E0 & E). apply selection_from_spec in E.
      destruct E as (E1 & E2 & E3 & E4).
      assert (Hp : start_idx p = from /\ end_idx p = ms_start x - 1) by lia. destruct Hp as [Hp1 Hp2].
      split; [|split].
      * intros q [<-|Hq]; [|auto]. split; auto. split; auto. split; [lia|]. split; [lia|]. split; auto. split.
        -- right. replace (end_idx p + 1) with (ms_start x) by lia. apply HSX; [lia|]. left. lia.
        -- intros k Hk [HPk|HPk]; unfold covers in Hk; [lia|]. apply (HST k); auto. lia.
      * intros k Hk HPk. destruct (le_lt_dec (ms_start x) k) as [Hl|Hl].
        -- destruct (IH2 k Hk) as (q & Hq1 & Hq2); [intros C; apply HPk; auto|]. exists q. split; auto. now right.
        -- exists p. split; [now left|]. unfold covers in *.
           assert (from <= k) by (destruct (le_lt_dec from k); auto; exfalso; apply HPk; left; auto). lia.
      * constructor; auto. apply Forall_forall. intros q Hq. destruct (IH1 q Hq) as (_ & _ & H3 & _). lia.
    + split; [exact HT|]. split; [|exact IH3].
      intros k Hk HPk. destruct (le_lt_dec (ms_start x) k) as [Hl|Hl].
      * apply IH2; auto.
      * exfalso. assert (from <= k) by (destruct (le_lt_dec from k); auto; exfalso; apply HPk; left; auto).
        unfold selection_before, checked_sub in E. destruct (ms_start x) as [|b] eqn:Eb; [lia|].
        simpl in E. apply selection_from_none in E. unfold covers in Hk. lia.
Qed.

(** C27 *)
Lemma thm_C27_runs :
  forall A s (m : matcher A) found,
    sel_ok s -> bounded m (line_of s) -> find_by s m = Ok found ->
    StronglySorted le (map (fun x => end_idx (fst x)) found) ->
    exists ps, split_by s m = Ok ps /\ maximal_runs s (touched found) ps.
Proof.
  intros A s m found Hs HB H HE. rewrite (split_by_gaps s m found H).
  destruct (thm_C25_find_by A s m found H) as (HI & HSt & _).
  assert (HX : forall x, In x found -> ms_start x <= ms_end x /\ covers s (ms_start x)).
  { intros [s' a] Hin. pose proof (thm_C26_found_inside_partial A s m found s' a Hs HB H Hin) as (H1 & H2 & _).
    apply HI in Hin. destruct Hin as (_ & Hc & _). unfold ms_start, ms_end. simpl. split; auto. apply H1. }
  assert (HL : start_idx s <= end_idx s) by apply Hs.
  destruct (gaps_runs s found (start_idx s) HL HSt HE HX (le_n _)) as (G1 & G2 & G3).
  { intros x Hx. destruct (HX x Hx) as [H1 H2]. unfold covers in H2. lia. }
  assert (HP : forall k, covers s k -> (k < start_idx s \/ touched found k) -> touched found k).
  { intros k Hk [C|C]; auto. unfold covers in Hk. lia. }
  eexists. split; [reflexivity|]. destruct found as [|x found].
  - assert (HN : forall k, ~ touched (@nil (LLSelection * A)) k) by (intros k (s' & a & [] & _)).
    constructor.
    + intros p [<-|[]]. auto.
    + intros. apply HN.
    + intros p [<-|[]]. auto.
    + intros p [<-|[]]. auto.
    + intros k Hk _. exists s. simpl. auto.
    + repeat constructor.
  - constructor.
    + intros p Hp. destruct (G1 p Hp) as (H1 & H2 & H3 & H4 & _). auto.
    + intros p k Hp Hk C. destruct (G1 p Hp) as (_ & _ & _ & _ & _ & _ & H7). apply (H7 k Hk). now right.
    + intros p Hp. destruct (G1 p Hp) as (_ & H2 & H3 & H4 & H5 & _).
      destruct (Nat.eq_dec (start_idx p) (start_idx s)) as [|N]; auto. right.
      destruct H5 as [H5|[H5|H5]]; auto; lia.
    + intros p Hp. destruct (G1 p Hp) as (_ & H2 & H3 & H4 & _ & H6 & _).
      destruct H6 as [H6|[H6|H6]]; auto. lia.
    + intros k Hk C. apply G2; auto.
    + exact G3.
Qed.

(** ... in particular when matches are single tokens. *)
Lemma thm_C27_single_tokens :
  forall A s (m : matcher A) found,
    sel_ok s -> find_by s m = Ok found ->
    (forall s' a, In (s', a) found -> start_idx s' = end_idx s') ->
    exists ps, split_by s m = Ok ps /\ maximal_runs s (touched found) ps.
Proof.
  intros A s m found Hs H H1.
  (* make the matcher single-token outside of the selection too *)
  set (m' := fun d l => ms <- m d l;; Ok (filter (fun x : A * nat => Nat.eqb (snd x) (dir_idx d)) ms)).
  destruct (thm_C25_find_by A s m found H) as (HI & HSt & HM).
  assert (EQ : find_by s m' = Ok found).
  { rewrite <- H. unfold find_by. apply flat_mapM_ext. intros i Hi. unfold m'.
    apply in_range_incl in Hi. destruct (proj1 (thm_C25_ok_iff A s m) (ex_intro _ found H) i Hi) as (ms & Em).
    rewrite Em. simpl. do 2 f_equal. apply filter_all. intros [a j] Hin. simpl. apply Nat.eqb_eq.
    specialize (H1 (mkSel (sel_line s) i j) a). simpl in H1. symmetry. apply H1. apply HI. simpl.
    split; auto. split; auto. exists ms. auto. }
  assert (HB : bounded m' (line_of s)).
  { intros d ms a j Hd E Hin. unfold m' in E. inv_bind E. inversion E; subst. apply filter_In in Hin.
    destruct Hin as [_ Hin]. apply Nat.eqb_eq in Hin. simpl in Hin. subst j. destruct d; simpl in *; lia. }
  destruct (thm_C27_runs A s m' found Hs HB EQ) as (ps & E & R).
  - replace (map (fun x => end_idx (fst x)) found) with (map (fun x => start_idx (fst x)) found); auto.
    apply map_ext_in. intros [s' a] Hin. simpl. eauto.
  - exists ps. split; auto. rewrite (split_by_gaps s m found H). rewrite (split_by_gaps s m' found EQ) in E. exact E.
Qed.

Lemma thm_C27_no_match :
  forall A s (m : matcher A), find_by s m = Ok [] -> split_by s m = Ok [s].
Proof. intros A s m H. now rewrite (split_by_gaps s m [] H). Qed.

(** ** C28 *)

Lemma thm_C28_split_with :
  forall s o,
    sel_ok s -> sel_ok o -> rc_id (sel_line s) = rc_id (sel_line o) ->
    exists l r, split_with s o = Ok (l, r)
      /\ part_of s (fun k => k < start_idx o) l
      /\ part_of s (fun k => end_idx o < k) r
      /\ (forall k, (exists p, (l = Some p \/ r = Some p) /\ covers p k) <-> covers s k /\ ~ covers o k).
Proof.
  intros s o Hs Ho HE. unfold split_with. rewrite HE, N.eqb_refl.
  assert (HL : part_of s (fun k => k < start_idx o)
     (if 0 <? start_idx o then selection_from s (start_idx s) (start_idx o - 1) else None)).
  { destruct (0 <? start_idx o) eqn:E.
    - apply Nat.ltb_lt in E. pose proof (selection_from_part s (start_idx s) (start_idx o - 1)) as HP.
      destruct (selection_from s (start_idx s) (start_idx o - 1)) as [p|]; simpl in *; unfold covers in *.
      + destruct HP as (H1 & H2 & H3). split; auto. split; auto. intros k. specialize (H3 k). lia.
      + intros k. specialize (HP k). lia.
    - apply Nat.ltb_ge in E. simpl. unfold covers. intros k. lia. }
  assert (HR : part_of s (fun k => end_idx o < k) (selection_from s (S (end_idx o)) (end_idx s))).
  { pose proof (selection_from_part s (S (end_idx o)) (end_idx s)) as HP.
    destruct (selection_from s (S (end_idx o)) (end_idx s)) as [p|]; simpl in *; unfold covers in *.
    + destruct HP as (H1 & H2 & H3). split; auto. split; auto. intros k. specialize (H3 k). lia.
    + intros k. specialize (HP k). lia. }
  eexists _, _. split; [reflexivity|]. split; [exact HL|]. split; [exact HR|].
  revert HL HR. generalize (if 0 <? start_idx o then selection_from s (start_idx s) (start_idx o - 1) else None).
  generalize (selection_from s (S (end_idx o)) (end_idx s)). intros r l HL HR k.
  unfold sel_ok in *. split.
  - intros (p & [Hp|Hp] & Hc); subst; simpl in *.
    + destruct HL as (_ & _ & H3). apply H3 in Hc. unfold covers in *. lia.
    + destruct HR as (_ & _ & H3). apply H3 in Hc. unfold covers in *. lia.
  - intros [H1 H2]. assert (H3 : k < start_idx o \/ end_idx o < k) by (unfold covers in *; lia).
    destruct H3 as [H3|H3].
    + destruct l as [p|]; simpl in HL; [|exfalso; apply (HL k); auto]. exists p. split; auto. apply HL; auto.
    + destruct r as [p|]; simpl in HR; [|exfalso; apply (HR k); auto]. exists p. split; auto. apply HR; auto.
Qed.

Lemma thm_C28_panics_iff :
  forall s o, (exists p, split_with s o = Panic p) <-> rc_id (sel_line s) <> rc_id (sel_line o).
Proof.
  intros s o. unfold split_with. destruct (N.eqb_spec (rc_id (sel_line s)) (rc_id (sel_line o))) as [E|E].
  - split; [intros (p & H); discriminate|easy].
  - split; eauto.
Qed.

(** ** C29 *)

(** The exact result of the three trims: token 0 is never removed at the end. *)
Lemma trim_selection_exact {A} s (m : matcher A) f1 f2 fs bs :
  sel_ok s -> bounded m (line_of s) ->
  (f1 = true -> m (Fwd (start_idx s)) (line_of s) = Ok fs) ->
  (f2 = true -> m (Bwd (end_idx s)) (line_of s) = Ok bs) ->
  exists o, trim_selection s m f1 f2 = Ok o
    /\ part_of s (fun k => ~ (f1 = true /\ first_match_fwd fs k)
                           /\ ~ (f2 = true /\ first_match_bwd bs k /\ k <> 0)) o.
Proof.
  intros Hs HB Hf Hb. unfold trim_selection.
  set (ns := if f1 then match fs with (_, j) :: _ => j + 1 | [] => start_idx s end else start_idx s).
  set (ne := if f2 then match bs with (_, j) :: _ => match checked_sub j 1 with Some k => k | None => j end
                                   | [] => end_idx s end else end_idx s).
  assert (E1 : (if f1 then ms <- m (Fwd (start_idx s)) (line_of s);;
       Ok (match ms with (_, j) :: _ => j + 1 | [] => start_idx s end) else Ok (start_idx s)) = Ok ns).
  { unfold ns. destruct f1; auto. rewrite (Hf eq_refl). reflexivity. }
  assert (E2 : (if f2 then ms <- m (Bwd (end_idx s)) (line_of s);;
       Ok (match ms with (_, j) :: _ => match checked_sub j 1 with Some k => k | None => j end
                       | [] => end_idx s end) else Ok (end_idx s)) = Ok ne).
  { unfold ne. destruct f2; auto. rewrite (Hb eq_refl). reflexivity. }
  rewrite E1. cbn [bind]. rewrite E2. cbn [bind]. eexists. split; [reflexivity|].
  unfold sel_ok in Hs.
  assert (N1 : start_idx s <= ns /\ forall k, start_idx s <= k -> (ns <= k <-> ~ (f1 = true /\ first_match_fwd fs k))).
  { unfold ns. destruct f1.
    - destruct fs as [|[a j] fs].
      + split; auto. intros k Hk. split; auto. intros _ [_ (a & j & rest & E & _)]. discriminate.
      + pose proof (HB (Fwd (start_idx s)) _ a j ltac:(simpl; unfold line_len in Hs; lia) (Hf eq_refl) (or_introl eq_refl)) as HI.
        simpl in HI. split; [lia|]. intros k Hk. split.
        * intros Hj [_ (a' & j' & rest & E & Hle)]. inversion E; subst. lia.
        * intros C. destruct (le_lt_dec (j + 1) k); auto. exfalso. apply C. split; auto.
          exists a, j, fs. split; auto. lia.
    - split; auto. intros k Hk. split; auto. intros _ [C _]. discriminate. }
  assert (N2 : ne <= end_idx s /\ forall k, k <= end_idx s -> (k <= ne <-> ~ (f2 = true /\ first_match_bwd bs k /\ k <> 0))).
  { unfold ne. destruct f2.
    - destruct bs as [|[a j] bs].
      + split; auto. intros k Hk. split; auto. intros _ (_ & (a & j & rest & E & _) & _). discriminate.
      + pose proof (HB (Bwd (end_idx s)) _ a j ltac:(simpl; unfold line_len in Hs; lia) (Hb eq_refl) (or_introl eq_refl)) as HI.
        simpl in HI. unfold checked_sub. destruct (1 <=? j) eqn:Ej.
        * apply Nat.leb_le in Ej. split; [lia|]. intros k Hk. split.
          -- intros Hj (_ & (a' & j' & rest & E & Hle) & _). inversion E; subst. lia.
          -- intros C. destruct (le_lt_dec k (j - 1)); auto. exfalso. apply C. split; auto.
             split; [|lia]. exists a, j, bs. split; auto. lia.
        * apply Nat.leb_gt in Ej. split; [lia|]. intros k Hk. split.
          -- intros Hj (_ & _ & Hk0). lia.
          -- intros C. destruct (Nat.eq_dec k 0); [lia|]. exfalso. apply C. split; auto.
             split; auto. exists a, j, bs. split; auto. lia.
    - split; auto. intros k Hk. split; auto. intros _ (C & _). discriminate. }
  destruct N1 as [N1 N1']. destruct N2 as [N2 N2'].
  destruct ((start_idx s <=? ne) && (ns <=? ne)) eqn:C.
  - apply andb_true_iff in C. destruct C as [C1 C2]. apply Nat.leb_le in C1, C2. simpl. split; auto. split; auto.
    intros k. unfold covers at 1. simpl. split.
    + intros [K1 K2]. split; [unfold covers; lia|]. split; [apply N1'; lia|apply N2'; lia].
    + intros (K0 & K1 & K2). unfold covers in K0. apply N1' in K1; [|lia]. apply N2' in K2; lia.
  - simpl. intros k (K0 & K1 & K2). unfold covers in K0. apply N1' in K1; [|lia]. apply N2' in K2; [|lia].
    apply andb_false_iff in C. destruct C as [C|C]; apply Nat.leb_gt in C; lia.
Qed.

Lemma part_of_iff s P Q o : (forall k, covers s k -> (P k <-> Q k)) -> part_of s P o -> part_of s Q o.
Proof.
  intros H. destruct o as [p|]; simpl.
  - intros (H1 & H2 & H3). split; auto. split; auto. intros k. rewrite H3. specialize (H k). tauto.
  - intros H1 k. specialize (H1 k). specialize (H k). tauto.
Qed.

(** C29: trim_start removes exactly the tokens of the first forward match. *)
Lemma thm_C29_trim_start :
  forall A s (m : matcher A) fs,
    sel_ok s -> bounded m (line_of s) -> m (Fwd (start_idx s)) (line_of s) = Ok fs ->
    exists o, trim_start s m = Ok o /\ part_of s (fun k => ~ first_match_fwd fs k) o.
Proof.
  intros A s m fs Hs HB Hf.
  destruct (trim_selection_exact s m true false fs [] Hs HB (fun _ => Hf)) as (o & H1 & H2); [discriminate|].
  exists o. split; auto. eapply part_of_iff; [|exact H2]. intros k _. simpl. split; [tauto|].
  intros H. split; [tauto|]. intros [C _]. discriminate.
Qed.

(** C29: trim_end, exactly: token 0 stays even if matched. *)
Lemma thm_C29_trim_end_exact :
  forall A s (m : matcher A) bs,
    sel_ok s -> bounded m (line_of s) -> m (Bwd (end_idx s)) (line_of s) = Ok bs ->
    exists o, trim_end s m = Ok o /\ part_of s (fun k => ~ (first_match_bwd bs k /\ k <> 0)) o.
Proof.
  intros A s m bs Hs HB Hb.
  destruct (trim_selection_exact s m false true [] bs Hs HB) as (o & H1 & H2); [discriminate|auto|].
  exists o. split; auto. eapply part_of_iff; [|exact H2]. intros k _. simpl. split; [tauto|].
  intros H. split; [|tauto]. intros [C _]. discriminate.
Qed.

(** C29: as claimed unless the selection starts at token 0 and is matched entirely. *)
Lemma thm_C29_trim_end_partial :
  forall A s (m : matcher A) bs,
    sel_ok s -> bounded m (line_of s) -> m (Bwd (end_idx s)) (line_of s) = Ok bs ->
    ~ (start_idx s = 0 /\ first_match_bwd bs 0) ->
    exists o, trim_end s m = Ok o /\ part_of s (fun k => ~ first_match_bwd bs k) o.
Proof.
  intros A s m bs Hs HB Hb HN. destruct (thm_C29_trim_end_exact A s m bs Hs HB Hb) as (o & H1 & H2).
  exists o. split; auto. eapply part_of_iff; [|exact H2]. intros k Hk. simpl. split; [|tauto].
  intros H C. apply H. split; auto. intros ->. apply HN. split; auto. unfold covers in Hk. lia.
Qed.

Lemma thm_C29_trim_exact :
  forall A s (m : matcher A) fs bs,
    sel_ok s -> bounded m (line_of s) ->
    m (Fwd (start_idx s)) (line_of s) = Ok fs -> m (Bwd (end_idx s)) (line_of s) = Ok bs ->
    exists o, trim s m = Ok o
      /\ part_of s (fun k => ~ first_match_fwd fs k /\ ~ (first_match_bwd bs k /\ k <> 0)) o.
Proof.
  intros A s m fs bs Hs HB Hf Hb.
  destruct (trim_selection_exact s m true true fs bs Hs HB) as (o & H1 & H2); auto.
  exists o. split; auto. eapply part_of_iff; [|exact H2]. intros k _. simpl. tauto.
Qed.

Lemma thm_C29_trim_partial :
  forall A s (m : matcher A) fs bs,
    sel_ok s -> bounded m (line_of s) ->
    m (Fwd (start_idx s)) (line_of s) = Ok fs -> m (Bwd (end_idx s)) (line_of s) = Ok bs ->
    ~ (start_idx s = 0 /\ first_match_bwd bs 0 /\ ~ first_match_fwd fs 0) ->
    exists o, trim s m = Ok o
      /\ part_of s (fun k => ~ first_match_fwd fs k /\ ~ first_match_bwd bs k) o.
Proof.
  intros A s m fs bs Hs HB Hf Hb HN. destruct (thm_C29_trim_exact A s m fs bs Hs HB Hf Hb) as (o & H1 & H2).
  exists o. split; auto. eapply part_of_iff; [|exact H2]. intros k Hk. simpl. split; [|tauto].
  intros [Ha H]. split; auto. intros C. apply H. split; auto. intros ->. apply HN. split; auto. unfold covers in Hk. lia.
Qed.

(** ** C30 *)

Lemma thm_C30_match_forwards :
  forall A s (m : matcher A) ms,
    sel_ok s ->
    (S (end_idx s) = line_len s -> match_forwards s m = Ok [])
    /\ (S (end_idx s) < line_len s -> m (Fwd (S (end_idx s))) (line_of s) = Ok ms ->
        exists r, match_forwards s m = Ok r
          /\ map (fun x => (snd x, end_idx (fst x))) r = ms
          /\ Forall (fun x => sel_line (fst x) = sel_line s /\ start_idx (fst x) = start_idx s) r).
Proof.
  intros A s m ms Hs. unfold match_forwards. split.
  - intros E. now rewrite E, Nat.eqb_refl.
  - intros HL Hm. rewrite (proj2 (Nat.eqb_neq _ _)) by lia. rewrite Hm. cbn [bind].
    eexists. split; [reflexivity|]. split.
    + rewrite map_map. rewrite <- (map_id ms) at 2. apply map_ext. intros [a j]. reflexivity.
    + apply Forall_forall. intros x Hx. apply in_map_iff in Hx. destruct Hx as ([a j] & <- & _). auto.
Qed.

Lemma thm_C30_match_backwards :
  forall A s (m : matcher A) ms,
    sel_ok s ->
    (start_idx s = 0 -> match_backwards s m = Ok [])
    /\ (forall k, start_idx s = S k -> m (Bwd k) (line_of s) = Ok ms ->
        exists r, match_backwards s m = Ok r
          /\ map (fun x => (snd x, start_idx (fst x))) r = ms
          /\ Forall (fun x => sel_line (fst x) = sel_line s /\ end_idx (fst x) = end_idx s) r).
Proof.
  intros A s m ms Hs. unfold match_backwards. split.
  - intros E. now rewrite E.
  - intros k HL Hm. rewrite HL. simpl. rewrite Nat.sub_0_r, Hm. cbn [bind].
    eexists. split; [reflexivity|]. split.
    + rewrite map_map. rewrite <- (map_id ms) at 2. apply map_ext. intros [a j]. reflexivity.
    + apply Forall_forall. intros x Hx. apply in_map_iff in Hx. destruct Hx as ([a j] & <- & _). auto.
Qed.

Lemma thm_C30_first :
  forall A s (m : matcher A) r,
    (match_forwards s m = Ok r -> match_first_forwards s m = Ok (match r with x :: _ => Some x | [] => None end))
    /\ (match_backwards s m = Ok r -> match_first_backwards s m = Ok (match r with x :: _ => Some x | [] => None end)).
Proof.
  intros A s m r. unfold match_first_forwards, match_first_backwards.
  split; intros H; rewrite H; reflexivity.
Qed.

(** The two that are not written yet never return. *)
Lemma thm_C30_unwritten :
  forall A s (m : matcher A),
    (exists p, match_forwards_longest s m = Panic p) /\ (exists p, match_forwards_shortest s m = Panic p).
Proof. intros A s m. split; eexists; reflexivity. Qed.

(** Extending what A finds by B is the same as finding seq((A, B)). *)
Lemma thm_C30_seq :
  forall A B s (ma : matcher A) (mb : matcher B) found ss,
    sel_ok s -> bounded ma (line_of s) ->
    find_by s ma = Ok found -> find_by s (x_seq2 ma mb) = Ok ss ->
    forall s2 a b,
      In (s2, (a, b)) ss <->
      exists s1 r, In (s1, a) found /\ match_forwards s1 mb = Ok r /\ In (s2, b) r.
Proof.
  intros A B s ma mb found ss Hs HB H HS s2 a b.
  rewrite (find_by_In _ _ _ _ _ HS). split.
  - intros (E1 & Hc & ms & Hm & Hin).
    destruct (thm_C21_seq2 _ A B ma mb _ ms Hm) as (al & Ha & HI). apply HI in Hin.
    destruct Hin as (j & d' & bl & Hj & Hn & Hb & Hbin). destruct d' as [k|k]; simpl in Hn; [|easy].
    destruct Hn as [-> Hn].
    pose proof (HB (Fwd (start_idx s2)) al a j) as HIn. simpl in HIn. unfold sel_ok, line_len, covers in *.
    specialize (HIn ltac:(lia) Ha Hj).
    exists (mkSel (sel_line s) (start_idx s2) j). eexists. split; [|split].
    + apply (find_by_In _ _ _ _ _ H). simpl. split; auto. split; [exact Hc|eauto].
    + unfold match_forwards, line_len, line_of in *. cbn [sel_line start_idx end_idx]. rewrite (proj2 (Nat.eqb_neq (S j) _)) by lia.
      replace (S j) with (j + 1) by lia. rewrite Hb. cbn [bind]. reflexivity.
    + apply in_map_iff. exists (b, end_idx s2). split; auto. f_equal. apply sel_ext; simpl; auto.
  - intros (s1 & r & H1 & H2 & H3). apply (find_by_In _ _ _ _ _ H) in H1.
    destruct H1 as (E1 & Hc & al & Ha & Hj).
    pose proof (HB (Fwd (start_idx s1)) al a (end_idx s1)) as HIn. simpl in HIn. unfold sel_ok, line_len, covers in *.
    specialize (HIn ltac:(lia) Ha Hj).
    unfold match_forwards in H2. unfold line_len, line_of in *. rewrite E1 in H2.
    destruct (Nat.eqb (S (end_idx s1)) (length (ll_tokens (rc_line (sel_line s))))) eqn:E.
    { inversion H2; subst. easy. }
    apply Nat.eqb_neq in E. inv_bind H2. inversion H2; subst. apply in_map_iff in H3.
    destruct H3 as ([b' k] & E3 & H3). inversion E3; subst. simpl. split; auto. split; auto.
    destruct (proj1 (thm_C25_ok_iff _ s (x_seq2 ma mb)) (ex_intro _ ss HS) (start_idx s1)) as (ms & Hm); [unfold covers; lia|].
    unfold line_of in Hm.
    exists ms. split; auto. destruct (thm_C21_seq2 _ A B ma mb _ ms Hm) as (al' & Ha' & HI). apply HI.
    assert (al' = al) by congruence. subst al'. exists (end_idx s1), (Fwd (S (end_idx s1))), a0.
    split; auto. split; [simpl; lia|]. auto.
Qed.

(** ** C31 *)

(** The exact result of [after]. *)
Lemma thm_C31_exact :
  forall s, sel_ok s ->
    (start_idx s + 2 = line_len s -> sel_after s = Ok None)
    /\ (start_idx s + 2 <> line_len s ->
        sel_after s = Ok (Some (mkSel (sel_line s) (end_idx s + 1) (line_len s - 1)))).
Proof.
  intros s Hs. unfold sel_after, sub_usize, checked_sub, sel_ok in *. rewrite (proj2 (Nat.leb_le 1 (line_len s))) by lia. cbn [bind expect].
  split; intros H.
  - rewrite (proj2 (Nat.eqb_eq (S (start_idx s)) _)) by lia. reflexivity.
  - rewrite (proj2 (Nat.eqb_neq (S (start_idx s)) _)) by lia. do 3 f_equal. lia.
Qed.

(** C31 holds when tokens follow and the selection does not start at the last
    token but one. *)
Lemma thm_C31_after_partial :
  forall s, sel_ok s -> end_idx s + 1 < line_len s -> start_idx s + 2 <> line_len s ->
    exists p, sel_after s = Ok (Some p) /\ sel_line p = sel_line s /\ sel_ok p
      /\ forall k, covers p k <-> end_idx s < k < line_len s.
Proof.
  intros s Hs HL HN. destruct (thm_C31_exact s Hs) as [_ H]. rewrite (H HN). eexists. split; [reflexivity|].
  split; auto. unfold sel_ok, line_len, line_of, covers in *. simpl. split; [lia|]. intros k. lia.
Qed.

(** The general claim, and its failure: with [start = end] too. *)
Lemma thm_C31_wrong_none :
  forall s, sel_ok s -> end_idx s + 2 = line_len s -> start_idx s = end_idx s ->
    sel_after s = Ok None /\ end_idx s + 1 < line_len s.
Proof. intros s Hs H1 H2. destruct (thm_C31_exact s Hs) as [H _]. split; [apply H|]; lia. Qed.

Lemma thm_C31_wrong_some :
  forall s, sel_ok s -> end_idx s + 1 = line_len s -> start_idx s + 2 <> line_len s ->
    exists p, sel_after s = Ok (Some p) /\ sel_past_end p.
Proof.
  intros s Hs H1 H2. destruct (thm_C31_exact s Hs) as [_ H]. rewrite (H H2). eexists. split; [reflexivity|].
  unfold sel_past_end, sel_ok, line_len, line_of in *. simpl. lia.
Qed.

(** ** C32 *)

Lemma thm_C32_both_directions :
  forall A s (m : matcher A) found,
    find_by_forwards_and_backwards s m = Ok found ->
    (forall s' a, In (s', a) found <->
       sel_line s' = sel_line s /\
       ((covers s (start_idx s') /\ exists ms, m (Fwd (start_idx s')) (line_of s) = Ok ms /\ In (a, end_idx s') ms)
        \/ (covers s (end_idx s') /\ exists ms, m (Bwd (end_idx s')) (line_of s) = Ok ms /\ In (a, start_idx s') ms)))
    /\ (exists fs, find_by s m = Ok fs /\ incl fs found).
Proof.
  intros A s m found H. split; [intros s' a; exact (both_In s m found s' a H)|].
  assert (HF : exists fs, find_by s m = Ok fs).
  { apply thm_C25_ok_iff. intros i Hi.
    destruct (proj1 (flat_mapM_ok_iff _ _) (ex_intro _ found H) i (proj2 (in_range_incl _ _ _) Hi)) as [r Hr].
    inv_bind Hr. eauto. }
  destruct HF as (fs & HF). exists fs. split; auto. intros [s' a] Hin.
  apply (both_In s m found s' a H). apply (find_by_In s m fs s' a HF) in Hin. tauto.
Qed.

(** The order: token by token, forward matches first, each in the matcher's order. *)
Lemma thm_C32_order :
  forall A s (m : matcher A) (fm bm : nat -> list (A * nat)),
    (forall i, covers s i -> m (Fwd i) (line_of s) = Ok (fm i) /\ m (Bwd i) (line_of s) = Ok (bm i)) ->
    exists found, find_by_forwards_and_backwards s m = Ok found
      /\ map (fun x => (start_idx (fst x), end_idx (fst x), snd x)) found =
         flat_map (fun i => map (fun '(a, j) => (i, j, a)) (fm i) ++ map (fun '(a, j) => (j, i, a)) (bm i))
                  (seq (start_idx s) (S (end_idx s) - start_idx s)).
Proof.
  intros A s m fm bm H. unfold find_by_forwards_and_backwards.
  rewrite (flat_mapM_ok _ (fun i => map (fun '(out, j) => (mkSel (sel_line s) i j, out)) (fm i)
          ++ map (fun '(out, j) => (mkSel (sel_line s) j i, out)) (bm i))).
  2:{ intros i Hi. apply in_range_incl in Hi. destruct (H i Hi) as [E1 E2]. now rewrite E1, E2. }
  eexists. split; [reflexivity|]. unfold range_incl. induction (seq _ _) as [|i l IH]; simpl; auto.
  rewrite !map_app, IH, !map_map. f_equal. f_equal; apply map_ext; intros [a j]; reflexivity.
Qed.

Lemma matched_on_app {A} i j (l1 l2 : list (LLSelection * A)) :
  matched_on i j (l1 ++ l2) = matched_on i j l1 ++ matched_on i j l2.
Proof. apply filter_map_app. Qed.

Lemma matched_on_flat {A} i j (F G : nat -> list (LLSelection * A)) l : NoDup l ->
  In i l -> In j l ->
  (forall k, k <> i -> matched_on i j (F k) = []) -> (forall k, k <> j -> matched_on i j (G k) = []) ->
  Permutation (matched_on i j (flat_map (fun k => F k ++ G k) l)) (matched_on i j (F i) ++ matched_on i j (G j)).
Proof.
  intros HN Hi Hj HF HG.
  assert (H1 : Permutation (flat_map (fun k => F k ++ G k) l) (flat_map F l ++ flat_map G l)).
  { clear. induction l as [|k l IH]; simpl; auto. rewrite IH. rewrite !app_assoc. apply Permutation_app_tail.
    rewrite <- !app_assoc. apply Permutation_app_head, Permutation_app_comm. }
  etransitivity; [apply filter_map_length_perm; exact H1|]. fold (matched_on i j (flat_map F l ++ flat_map G l)).
  rewrite matched_on_app.
  assert (HH : forall (K : nat -> list (LLSelection * A)) x, In x l -> (forall k, k <> x -> matched_on i j (K k) = []) ->
     matched_on i j (flat_map K l) = matched_on i j (K x)).
  { clear - HN. intros K x Hx HK. induction l as [|k l IH]; [easy|]. inversion HN; subst. simpl. rewrite matched_on_app.
    destruct Hx as [->|Hx].
    - replace (matched_on i j (flat_map K l)) with (@nil A); [apply app_nil_r|]. symmetry.
      clear IH HN H2. induction l as [|y l IHl]; simpl; auto. rewrite matched_on_app, IHl.
      + rewrite HK; auto. intros ->. apply H1. now left.
      + intros C. apply H1. now right.
    - rewrite IH; auto. rewrite (HK k); auto. intros ->. easy. }
  rewrite (HH F i), (HH G j); auto.
Qed.

(** For a plain attribute, a match with both ends in the selection is reported twice. *)
Lemma thm_C32_twice :
  forall l lg t id s found i j,
    History l lg -> sel_line s = mkRc id l -> sel_ok s -> covers s i -> covers s j ->
    find_by_forwards_and_backwards s (x_attr t) = Ok found ->
    Permutation (matched_on i j found) (values_on t (i, j) lg ++ values_on t (i, j) lg).
Proof.
  intros l lg t id s found i j H HL Hs Hi Hj HF.
  assert (EL : line_of s = l) by (unfold line_of; now rewrite HL).
  assert (IN : forall k, covers s k -> k < length (ll_tokens l)).
  { intros k Hk. unfold covers, sel_ok, line_len in *. rewrite EL in Hs. lia. }
  unfold find_by_forwards_and_backwards in HF. rewrite EL in HF.
  destruct (flat_mapM_fun _ _ _ HF) as (g & Hg & ->).
  set (F := fun k => map (fun '(out, x) => (mkSel (sel_line s) k x, out)) (match x_attr t (Fwd k) l with Ok f => f | _ => [] end)).
  set (G := fun k => map (fun '(out, x) => (mkSel (sel_line s) x k, out)) (match x_attr t (Bwd k) l with Ok f => f | _ => [] end)).
  rewrite (flat_map_ext_in g (fun k => F k ++ G k)).
  2:{ intros k Hk. specialize (Hg k Hk). inv_bind Hg. inv_bind Hg. inversion Hg. unfold F, G. now rewrite E, E0. }
  assert (MF : forall k, matched_on i j (F k) = if Nat.eqb k i then at_end j (match x_attr t (Fwd k) l with Ok f => f | _ => [] end) else []).
  { intros k. unfold F, matched_on, at_end. rewrite filter_map_map, filter_map_if.
    destruct (Nat.eqb k i) eqn:E.
    - apply filter_map_ext. intros [o x] _. simpl. rewrite E. reflexivity.
    - apply filter_map_none. intros [o x] _. simpl. rewrite E. reflexivity. }
  assert (MG : forall k, matched_on i j (G k) = if Nat.eqb k j then at_end i (match x_attr t (Bwd k) l with Ok f => f | _ => [] end) else []).
  { intros k. unfold G, matched_on, at_end. rewrite filter_map_map, filter_map_if.
    destruct (Nat.eqb k j) eqn:E.
    - apply filter_map_ext. intros [o x] _. simpl. rewrite E, andb_true_r. reflexivity.
    - apply filter_map_none. intros [o x] _. simpl. rewrite E, andb_false_r. reflexivity. }
  etransitivity.
  { apply matched_on_flat with (i := i) (j := j) (F := F) (G := G).
    - apply seq_NoDup.
    - now apply in_range_incl.
    - now apply in_range_incl.
    - intros k Hk. rewrite MF, (proj2 (Nat.eqb_neq k i) Hk). reflexivity.
    - intros k Hk. rewrite MG, (proj2 (Nat.eqb_neq k j) Hk). reflexivity. }
  rewrite MF, MG, !Nat.eqb_refl.
  destruct (thm_C15_attr l lg t i H (IN i Hi)) as [(f & Ef & Pf) _].
  destruct (thm_C15_attr l lg t j H (IN j Hj)) as [_ (b & Eb & Pb)].
  rewrite Ef, Eb. apply Permutation_app.
  - rewrite (at_end_perm _ _ _ Pf). unfold starting_at, values_on. rewrite at_end_filter_map.
    apply Permutation_refl', filter_map_ext. intros [[x y] v] _. unfold range_eqb. simpl.
    destruct (Nat.eqb x i) eqn:E1; simpl; auto.
  - rewrite (at_end_perm _ _ _ Pb). unfold ending_at, values_on. rewrite at_end_filter_map.
    apply Permutation_refl', filter_map_ext. intros [[x y] v] _. unfold range_eqb. simpl.
    destruct (Nat.eqb y j) eqn:E1; simpl; rewrite ?andb_true_r, ?andb_false_r; auto.
Qed.

(** ** C33 *)

Lemma layout_pos_le xs : forall i p a b ta tb,
  a <= b -> nth_error (layout_by N.add i p xs) a = Some ta -> nth_error (layout_by N.add i p xs) b = Some tb ->
  (p <= pos_starts_at ta /\ pos_starts_at ta <= pos_ends_at tb)%N.
Proof.
  induction xs as [|[x z] xs IH]; intros i p a b ta tb Hab Ha Hb; [destruct a; discriminate|].
  destruct a as [|a], b as [|b]; simpl in *; try lia.
  - inversion Ha; inversion Hb; subst; simpl. lia.
  - inversion Ha; subst. destruct (IH _ _ b b tb tb (le_n _) Hb Hb) as [H1 H2]. simpl. lia.
  - destruct (IH _ _ a b ta tb ltac:(lia) Ha Hb) as [H1 H2]. lia.
Qed.

Lemma flat_mapM_Forall2 {A B C} (R : C -> B -> Prop) (f : A -> res (list B)) (f' : A -> res (list C)) l : forall bs,
  (forall a bl, In a l -> f a = Ok bl -> exists cl, f' a = Ok cl /\ Forall2 R cl bl) ->
  flat_mapM f l = Ok bs -> exists cs, flat_mapM f' l = Ok cs /\ Forall2 R cs bs.
Proof.
  induction l as [|a l IH]; intros bs HF H.
  - inversion H; subst. exists []. split; auto.
  - rewrite flat_mapM_cons in H. inv_bind H. inv_bind H. inversion H; subst.
    destruct (HF a _ (or_introl eq_refl) E) as (cl & E1 & R1).
    destruct (IH _ (fun x bl Hx => HF x bl (or_intror Hx)) E0) as (cs & E2 & R2).
    exists (cl ++ cs). split; [|now apply Forall2_app]. rewrite flat_mapM_cons, E1, E2. reflexivity.
Qed.

(** C33: [find] reports the positions of the matches of [find_by] on the whole line. *)
Lemma thm_C33_find :
  forall l id A (m : matcher A) ms,
    ll_tokens l <> [] -> bounded m l -> find_by (whole id l) m = Ok ms ->
    exists fs, find l m = Ok fs
      /\ Forall2 (fun f x => exists ta tb,
             nth_error (ll_tokens l) (start_idx (fst x)) = Some ta
             /\ nth_error (ll_tokens l) (end_idx (fst x)) = Some tb
             /\ start_pos_at f = pos_starts_at ta /\ end_pos_at f = pos_ends_at tb
             /\ found f = snd x) fs ms.
Proof.
  intros l id A m ms HN HB H. unfold find_by in H. unfold find.
  replace (range_incl (start_idx (whole id l)) (end_idx (whole id l))) with (seq 0 (length (ll_tokens l))) in H.
  2:{ unfold range_incl, whole. simpl. destruct (ll_tokens l); [easy|]. simpl. now rewrite Nat.sub_0_r. }
  change (line_of (whole id l)) with l in H.
  eapply flat_mapM_Forall2; [|exact H]. intros i bl Hi Hbl. apply in_seq in Hi. cbv beta in Hbl. inv_bind Hbl.
  inversion Hbl; subst. clear Hbl. rewrite E. cbn [bind].
  destruct (nth_error_lt (ll_tokens l) i) as (ti & Ei); [lia|].
  assert (HI : forall o j, In (o, j) a -> i <= j < length (ll_tokens l)).
  { intros o j Hin. exact (HB (Fwd i) a o j ltac:(simpl; lia) E Hin). }
  clear E. induction a as [|[o j] a IH]; [exists []; split; constructor|].
  destruct (IH (fun o j Hin => HI o j (or_intror Hin))) as (cl & E1 & R1).
  destruct (nth_error_lt (ll_tokens l) j) as (tj & Ej); [apply (HI o j); now left|].
  exists (mkFind (pos_starts_at ti) (pos_ends_at tj) o :: cl). split.
  - cbn [mapM]. unfold pos_start_at, pos_end_at in *. rewrite Ei, Ej. cbn [expect bind]. rewrite Ei in E1.
    cbn [expect bind] in E1. rewrite E1. reflexivity.
  - constructor; auto. exists ti, tj. simpl. auto.
Qed.

Lemma thm_C33_empty : forall l A (m : matcher A), ll_tokens l = [] -> find l m = Ok [].
Proof. intros l A m H. unfold find. rewrite H. reflexivity. Qed.

(** Positions are ordered on a line laid out without overflow. *)
Lemma thm_C33_ordered :
  forall l A (m : matcher A) fs xs,
    ll_tokens l = layout xs -> bounded m l -> find l m = Ok fs ->
    Forall (fun f => (start_pos_at f <= end_pos_at f)%N) fs.
Proof.
  intros l A m fs xs HL HB H. apply Forall_forall. intros f Hf. unfold find in H.
  destruct (flat_mapM_In _ _ _ _ H Hf) as (i & bl & H1 & H2 & H3). apply in_seq in H1. inv_bind H2.
  apply mapM_Forall2 in H2.
  assert (HX : exists x, In x a /\ (let '(out, j) := x in s <- pos_start_at l i;; e <- pos_end_at l j;; Ok (mkFind s e out)) = Ok f).
  { clear - H2 H3. induction H2; [easy|]. destruct H3 as [->|H3].
    - exists x. split; [now left|exact H].
    - destruct (IHForall2 H3) as (z & Hz & E). exists z. split; [now right|exact E]. }
  destruct HX as ([o j] & Hin & E2). pose proof (HB (Fwd i) a o j ltac:(simpl; lia) E Hin) as HI. simpl in HI.
  inv_bind E2. inv_bind E2. inversion E2; subst. simpl. unfold pos_start_at, pos_end_at in *.
  inv_bind E0. inv_bind E1. apply expect_ok_inv in E3, E4. inversion E0; inversion E1; subst.
  rewrite HL in E3, E4. unfold layout in *. eapply (layout_pos_le xs 0 0%N i j); eauto. lia.
Qed.

(** ** C34 *)

Lemma thm_C34_eq_iff :
  forall a b, sel_eqb a b = true <->
    rc_id (sel_line a) = rc_id (sel_line b) /\ start_idx a = start_idx b /\ end_idx a = end_idx b.
Proof.
  intros a b. unfold sel_eqb. rewrite !andb_true_iff, !Nat.eqb_eq, N.eqb_eq. tauto.
Qed.

Lemma thm_C34_equivalence :
  (forall a, sel_eqb a a = true)
  /\ (forall a b, sel_eqb a b = sel_eqb b a)
  /\ (forall a b c, sel_eqb a b = true -> sel_eqb b c = true -> sel_eqb a c = true).
Proof.
  split; [|split].
  - intros a. apply thm_C34_eq_iff. auto.
  - intros a b. apply eq_true_iff_eq. rewrite !thm_C34_eq_iff. intuition.
  - intros a b c. rewrite !thm_C34_eq_iff. intuition congruence.
Qed.

(** With line identities, equal selections are the same selection. *)
Lemma thm_C34_same :
  forall a b, (rc_id (sel_line a) = rc_id (sel_line b) -> sel_line a = sel_line b) ->
    (sel_eqb a b = true <-> a = b).
Proof.
  intros a b H. rewrite thm_C34_eq_iff. split.
  - intros (H1 & H2 & H3). apply sel_ext; auto.
  - intros ->. auto.
Qed.

(** C26: exactly when all that [find_by] reports for an attribute lies inside. *)
Lemma thm_C26_exact :
  forall l lg s t, History l lg -> line_of s = l -> sel_ok s ->
    exists found, find_by s (x_attr t) = Ok found
      /\ ((forall s' a, In (s', a) found -> end_idx s' <= end_idx s)
          <-> (forall r v, In (r, v) (assigned t lg) -> covers s (fst r) -> snd r <= end_idx s)).
Proof.
  intros l lg s t H E HS.
  assert (HI : forall i, covers s i -> i < length (ll_tokens l)).
  { intros i Hi. unfold sel_ok, covers, line_len in *. rewrite E in HS. lia. }
  assert (HOK : exists found, find_by s (x_attr t) = Ok found).
  { apply thm_C25_ok_iff. intros i Hi. rewrite E. destruct (thm_C15_attr l lg t i H (HI i Hi)) as [(ms & Em & _) _]. eauto. }
  destruct HOK as (found & EF). exists found. split; auto. destruct (thm_C25_find_by _ _ _ _ EF) as (HF & _ & _).
  assert (HA : forall i v j, covers s i -> (exists ms, x_attr t (Fwd i) l = Ok ms /\ In (v, j) ms) <-> In ((i, j), v) (assigned t lg)).
  { intros i v j Hi. destruct (thm_C15_attr l lg t i H (HI i Hi)) as [(ms & Em & P) _].
    assert (HM : In (v, j) ms <-> In ((i, j), v) (assigned t lg)).
    { split.
      - intros K. apply (Permutation_in _ P) in K. unfold starting_at in K. apply in_filter_map in K.
        destruct K as ([[a b] w] & K1 & K2). cbn [fst snd] in K2. destruct (Nat.eqb_spec a i) as [->|]; [|discriminate].
        injection K2 as -> ->. exact K1.
      - intros K. apply (Permutation_in _ (Permutation_sym P)). unfold starting_at. apply in_filter_map.
        exists ((i, j), v). split; auto. cbn [fst snd]. now rewrite Nat.eqb_refl. }
    split; [intros (ms' & E' & K); rewrite Em in E'; injection E' as <-; now apply HM|intros K; exists ms; split; auto; now apply HM]. }
  split.
  - intros K [i j] v Hr Hc. cbn [fst snd] in *. apply (HA i v j Hc) in Hr. destruct Hr as (ms & Em & Hm).
    apply (K (mkSel (sel_line s) i j) v). apply HF. cbn [sel_line start_idx end_idx]. split; auto. split; auto.
    exists ms. rewrite E. auto.
  - intros K s' a Hs. apply HF in Hs. destruct Hs as (_ & Hc & ms & Em & Hm). rewrite E in Em.
    apply (K (start_idx s', end_idx s') a); auto. apply HA; auto. eauto.
Qed.

End ThmSel.
