(** Proofs of the properties of run and query on all reachable lines
    (C10-C14, C17, C51, C53). *)

From Verif Require Export ThmCreate LemMatch.

Section ThmRun.
Context {UC : Unicode} {U : UserTypes}.

(** ** Reachable lines represent their log *)

Lemma assignments_in_dec n {t} (ass : list (LLCursorAssignment t)) :
  {assignments_in n ass} + {~ assignments_in n ass}.
Proof.
  apply Forall_dec. intros x. destruct (lt_dec (as_start x) n), (lt_dec (as_end x) n); tauto.
Qed.

Lemma store_inv {t} l lg (ass : list (LLCursorAssignment t)) l' :
  Repr l lg -> store_assignments l ass = Ok l' ->
  assignments_in (length (ll_tokens l)) ass /\ ll_tokens l' = ll_tokens l
  /\ Repr l' (lg ++ map assignment_entry ass).
Proof.
  intros HR H. destruct (assignments_in_dec (length (ll_tokens l)) ass) as [D|D].
  - destruct (store_ok ass l lg HR D) as (l2 & E & HT & HR2). assert (l2 = l') by congruence.
    subst. auto.
  - destruct (store_panic ass l lg HR D) as [E|E]; congruence.
Qed.

Lemma run_inv {t} id l lg (r : Resolver t) l' :
  Repr l lg -> ll_tokens l <> [] -> run id l r = Ok l' ->
  exists g, r (whole id l) = Ok g /\ go_retained g = false
    /\ assignments_in (length (ll_tokens l)) (go_assignments g)
    /\ ll_tokens l' = ll_tokens l /\ Repr l' (lg ++ map assignment_entry (go_assignments g)).
Proof.
  intros HR HN H. unfold run in H. destruct (ll_tokens l) as [|tok toks] eqn:ET; [easy|].
  inv_bind H. exists a. split; auto. destruct (go_retained a); [discriminate|]. split; auto.
  rewrite <- ET. eapply store_inv; eauto.
Qed.

Lemma history_repr l lg : History l lg -> Repr l lg.
Proof.
  induction 1 as [tg sz input groups l HW H HG | M size st st' tg input groups l HW H HG | l lg t id r g l' H IH HN Hg H2 | l lg t id r l' H IH HN H2].
  - destruct (create_facts tg sz input l HW H) as (groups' & H1 & _ & _ & _ & HR).
    rewrite (groups_fun sz input groups groups'); auto.
  - destruct (mem_create_facts size tg input st st' l HW H) as (groups0 & groups' & H1 & EG & _ & _ & _ & _ & _ & HR).
    rewrite (groups_fun size_zero input groups groups0), <- EG; auto.
  - destruct (run_inv id l lg r l' IH HN H2) as (g' & Hg' & _ & _ & _ & HR).
    assert (g' = g) by congruence. subst. exact HR.
  - unfold run in H2. rewrite HN in H2. congruence.
Qed.

(** Every created line has a history, and a run extends it. *)
Lemma history_create tg sz input l :
  Forall wf_input input -> create_line_from_input_tokens tg input sz = Ok l ->
  exists lg, History l lg.
Proof.
  intros HW H. destruct (create_facts tg sz input l HW H) as (groups & H1 & _).
  eexists. eapply H_create; eauto.
Qed.

Lemma history_create_calls {M} (size : str -> mem M N) st st' tg input l :
  Forall wf_input input -> mem_create_line size tg input st = (st', Ok l) ->
  exists lg, History l lg.
Proof.
  intros HW H. destruct (mem_create_facts size tg input st st' l HW H) as (groups & _ & H1 & _).
  eexists. eapply H_create_calls; eauto.
Qed.

Lemma history_run {t} id l lg (r : Resolver t) l' :
  History l lg -> run id l r = Ok l' -> exists lg', History l' lg'.
Proof.
  intros H HR. destruct (ll_tokens l) as [|tok toks] eqn:ET.
  - exists lg. eapply H_run_empty; eauto.
  - assert (HN : ll_tokens l <> []) by congruence.
    destruct (run_inv id l lg r l' (history_repr _ _ H) HN HR) as (g & Hg & _).
    eexists. eapply H_run; eauto.
Qed.

(** ** C10 *)

Lemma slice_bad {A} (v : list A) a b : ~ a <= S b -> slice_incl v a b = Panic PSlice.
Proof.
  intros H. unfold slice_incl. destruct (a <=? S b) eqn:E; auto. apply Nat.leb_le in E. lia.
Qed.

Lemma repr_range_in l lg t r : Repr l lg -> In r (ranges_of t lg) ->
  fst r < length (ll_tokens l) /\ snd r < length (ll_tokens l).
Proof.
  intros HR Hr. apply ranges_of_In in Hr. destruct Hr as (v & Hin).
  pose proof (rp_in l lg HR) as HI. unfold in_line in HI. rewrite Forall_forall in HI.
  apply (HI _ Hin).
Qed.

Lemma query_ordered l lg t : Repr l lg -> Forall range_ordered (ranges_of t lg) ->
  query l t = Ok (query_spec (ll_tokens l) t lg).
Proof.
  intros HR HO. rewrite (query_run l lg t HR). unfold query_spec. apply mapM_ok.
  intros r Hr. rewrite Forall_forall in HO. specialize (HO r Hr).
  destruct (repr_range_in l lg t r HR Hr) as [H1 H2].
  destruct (text_between_slice (ll_tokens l) (fst r) (snd r) HO H2) as (sl & E & T).
  rewrite E. simpl. now rewrite T.
Qed.

(** C10: query answers exactly the log, whatever happened before. *)
Lemma thm_C10_query_exact :
  forall l lg t,
    History l lg -> Forall range_ordered (ranges_of t lg) ->
    query l t = Ok (query_spec (ll_tokens l) t lg).
Proof. intros l lg t H. apply query_ordered, history_repr; auto. Qed.

(** ... and panics if some resolver assigned a value of this type to a range
    whose start is more than one past its end. *)
Lemma thm_C10_query_panics :
  forall l lg t,
    History l lg -> ~ Forall range_ordered (ranges_of t lg) -> query l t = Panic PSlice.
Proof.
  intros l lg t H HO. pose proof (history_repr _ _ H) as HR. rewrite (query_run l lg t HR).
  pose proof (fun r => repr_range_in l lg t r HR) as HI.
  induction (ranges_of t lg) as [|r rs IH]; [exfalso; apply HO; constructor|]. simpl.
  destruct (le_dec (fst r) (S (snd r))) as [D|D].
  - destruct (HI r) as [H1 H2]; [now left|].
    destruct (text_between_slice (ll_tokens l) (fst r) (snd r) D H2) as (sl & E & T).
    rewrite E. simpl. rewrite IH; [reflexivity| |].
    + intros C. apply HO. constructor; auto.
    + intros r' Hr'. apply HI. now right.
  - rewrite slice_bad by auto. reflexivity.
Qed.

(** Rows are one per range, in order of first assignment, with all values. *)
Lemma thm_C10_rows :
  forall l lg t q,
    History l lg -> query l t = Ok q ->
    NoDup (map (fun row => fst (fst row)) q)
    /\ (forall r, In r (map (fun row => fst (fst row)) q) <-> exists v, In (r, mkany t v) lg)
    /\ (forall r text vs, In (r, text, vs) q -> vs = values_on t r lg /\ vs <> []).
Proof.
  intros l lg t q H HQ. pose proof (history_repr _ _ H) as HR.
  rewrite (query_run l lg t HR) in HQ. apply mapM_Forall2 in HQ.
  assert (E : map (fun row => fst (fst row)) q = ranges_of t lg).
  { induction HQ as [|r row rs q Hrow HQ IH]; simpl; auto.
    inv_bind Hrow. inversion Hrow; subst. simpl. f_equal; auto. }
  rewrite E. split; [apply ranges_of_NoDup|]. split; [intros r; apply ranges_of_In|].
  intros r text vs Hin.
  assert (Hr : In r (ranges_of t lg)). { rewrite <- E. apply in_map_iff. exists (r, text, vs). auto. }
  assert (vs = values_on t r lg).
  { clear - HQ Hin. induction HQ as [|r0 row rs q Hrow HQ IH]; [easy|]. destruct Hin as [->|Hin]; auto.
    inv_bind Hrow. inversion Hrow; subst. reflexivity. }
  subst. split; auto. now apply ranges_of_values_on.
Qed.

(** The created line is ordered, so are lines on which resolvers only finish
    selections (see C24). *)
Lemma thm_C10_creation_ordered :
  forall input groups, Forall2 cut_of input groups -> ordered (creation_log groups input).
Proof.
  intros input groups HG. apply creation_log_ordered. induction HG as [|it g input groups H _ IH]; constructor; [|exact IH].
  destruct it; cbn in H; [apply H|]. subst g. discriminate.
Qed.

Lemma ordered_ranges t lg : ordered lg -> Forall range_ordered (ranges_of t lg).
Proof.
  intros H. apply Forall_forall. intros r Hr. apply ranges_of_In in Hr. destruct Hr as (v & Hr).
  unfold ordered in H. rewrite Forall_forall in H. apply (H _ Hr).
Qed.

(** ** C11 *)

Lemma firsts_prefix l1 : forall l2, exists ex, firsts (l1 ++ l2) = firsts l1 ++ ex.
Proof.
  intros l2. induction l2 as [|r l2 IH] using rev_ind.
  - exists []. now rewrite !app_nil_r.
  - destruct IH as (ex & IH). rewrite app_assoc, firsts_snoc, IH. unfold push_distinct.
    destruct (existsb (range_eqb r) (firsts l1 ++ ex)); eauto.
    exists (ex ++ [r]). now rewrite app_assoc.
Qed.

Lemma query_pairs l lg t q : Repr l lg -> query l t = Ok q -> Permutation (pairs q) (assigned t lg).
Proof.
  intros HR HQ. rewrite (query_run l lg t HR) in HQ. apply mapM_Forall2 in HQ.
  assert (pairs q = flat_map (fun r => map (pair r) (values_on t r lg)) (ranges_of t lg)) as ->.
  { induction HQ as [|r row rs q Hrow HQ IH]; simpl; auto.
    inv_bind Hrow. inversion Hrow; subst. simpl. f_equal. auto. }
  apply (group_perm (assigned t lg)).
Qed.

Lemma assigned_entries t (ass : list (LLCursorAssignment t)) :
  assigned t (map assignment_entry ass) = map (fun x => ((as_start x, as_end x), as_value x)) ass.
Proof.
  unfold assigned. rewrite filter_map_map. rewrite <- filter_map_some. apply filter_map_ext.
  intros x _. unfold assignment_entry. now rewrite downcast_same.
Qed.

Lemma assigned_entries_other t t' (ass : list (LLCursorAssignment t)) :
  t <> t' -> assigned t' (map assignment_entry ass) = [].
Proof.
  intros H. unfold assigned. rewrite filter_map_map. apply filter_map_none.
  intros x _. unfold assignment_entry. now rewrite downcast_other.
Qed.

(** C11: run keeps the tokens, keeps every earlier row at its place with its
    values as a prefix, and adds exactly the resolver's assignments. *)
Lemma thm_C11_run_only_adds :
  forall t id l lg (r : Resolver t) g l' t' q q',
    History l lg -> ll_tokens l <> [] -> r (whole id l) = Ok g -> run id l r = Ok l' ->
    query l t' = Ok q -> query l' t' = Ok q' ->
    ll_tokens l' = ll_tokens l
    /\ (exists kept added, q' = kept ++ added /\ Forall2 row_extends q kept)
    /\ Permutation (pairs q') (pairs q ++ assigned t' (map assignment_entry (go_assignments g))).
Proof.
  intros t id l lg r g l' t' q q' H HN Hg Hrun HQ HQ'. pose proof (history_repr _ _ H) as HR.
  destruct (run_inv id l lg r l' HR HN Hrun) as (g' & Hg' & _ & _ & HT & HR').
  assert (g' = g) by congruence. subst g'. split; auto. split.
  - rewrite (query_run l lg t' HR) in HQ. rewrite (query_run _ _ t' HR') in HQ'.
    unfold ranges_of in HQ'. rewrite assigned_app, map_app in HQ'.
    destruct (firsts_prefix (map fst (assigned t' lg))
       (map fst (assigned t' (map assignment_entry (go_assignments g))))) as (ex & Eex).
    rewrite Eex, mapM_app in HQ'. inv_bind HQ'. inv_bind HQ'. inversion HQ'; subst.
    exists a, a0. split; auto. fold (ranges_of t' lg) in E. rewrite HT in E.
    apply mapM_Forall2 in HQ. apply mapM_Forall2 in E. clear - HQ E.
    revert a E. induction HQ as [|r0 row rs q Hrow HQ IH]; intros a E; inversion E as [|? row' ? ? Hrow' E']; subst; constructor; auto.
    inv_bind Hrow. inv_bind Hrow'. rewrite E0 in E1. inversion E1; subst.
    inversion Hrow; inversion Hrow'; subst. split; simpl; auto. rewrite values_on_app. eauto.
  - rewrite (query_pairs _ _ _ _ HR' HQ'), assigned_app.
    apply Permutation_app_tail. symmetry. eapply query_pairs; eauto.
Qed.

(** ** C12 *)

Lemma mapM_mono {A B} (f g : A -> res B) l bs :
  (forall a b, In a l -> f a = Ok b -> g a = Ok b) -> mapM f l = Ok bs -> mapM g l = Ok bs.
Proof.
  intros H HM. rewrite mapM_Forall2 in *. revert H. induction HM; intros HH; constructor.
  - apply HH; auto. now left.
  - apply IHHM. intros a b0 Hin. apply HH. now right.
Qed.

Lemma flat_mapM_mono {A B} (f g : A -> res (list B)) l bs :
  (forall a b, In a l -> f a = Ok b -> g a = Ok b) -> flat_mapM f l = Ok bs -> flat_mapM g l = Ok bs.
Proof.
  intros H HM. unfold flat_mapM in *. apply rmap_ok_inv in HM. destruct HM as (bss & HM & ->).
  rewrite (mapM_mono f g l bss H HM). reflexivity.
Qed.

Lemma go_after_mono {B} (mb : matcher B) l l' :
  ll_tokens l = ll_tokens l' -> (forall d ms, mb d l = Ok ms -> mb d l' = Ok ms) ->
  forall d i ms, go_after mb d i l = Ok ms -> go_after mb d i l' = Ok ms.
Proof.
  intros Ht H d i ms. unfold go_after.
  assert (dir_after d i l = dir_after d i l') as -> by (unfold dir_after; now rewrite Ht).
  destruct (dir_after d i l'); auto.
Qed.

(** Adding attributes can only turn a panic of token_has_any into a result. *)
Lemma lib_matcher_mono P has A (m : matcher A) l lg l' lg' :
  lib_matcher P has A m ->
  Repr l lg -> Repr l' lg' -> ll_tokens l = ll_tokens l' ->
  (forall t, P t -> assigned t lg = assigned t lg') ->
  (forall i, attributed i lg -> attributed i lg') ->
  forall d ms, m d l = Ok ms -> m d l' = Ok ms.
Proof.
  intros HM HR HR' HT HP HA. induction HM; intros d ms HE.
  - rewrite <- HE. symmetry. apply (lib_matcher_ext P false _ _ l lg l' lg'); auto; [now constructor|discriminate].
  - rewrite <- HE. symmetry. apply (lib_matcher_ext P false _ _ l lg l' lg'); auto; [now constructor|discriminate].
  - unfold x_token_has_any in *. destruct d as [i|i].
    + rewrite (token_attr_one_of_fwd l lg) in HE by auto. rewrite (token_attr_one_of_fwd l' lg') by auto.
      specialize (HA i). unfold values_on in *. rewrite <- (HP t) by auto.
      destruct (attributed_dec i lg), (attributed_dec i lg'); try tauto; discriminate.
    + rewrite (token_attr_one_of_bwd l lg) in HE by auto. rewrite (token_attr_one_of_bwd l' lg') by auto.
      rewrite <- HT. erewrite <- scan_ext; eauto.
  - unfold x_token_text, dir_text_token in *. now rewrite <- HT.
  - unfold x_all2 in *. inv_bind HE. inv_bind HE. rewrite (IHHM2 _ _ E), (IHHM1 _ _ E0). exact HE.
  - unfold x_all3 in *. inv_bind HE. inv_bind HE. inv_bind HE.
    rewrite (IHHM2 _ _ E), (IHHM3 _ _ E0), (IHHM1 _ _ E1). exact HE.
  - unfold x_any_of2 in *. inv_bind HE. rewrite (IHHM1 _ _ E). simpl in *. destruct a; auto.
    inv_bind HE. rewrite (IHHM2 _ _ E0). exact HE.
  - unfold x_any_of3 in *. inv_bind HE. rewrite (IHHM1 _ _ E). simpl in *. destruct a; auto.
    inv_bind HE. rewrite (IHHM2 _ _ E0). simpl in *. destruct a; auto.
    inv_bind HE. rewrite (IHHM3 _ _ E1). exact HE.
  - unfold x_seq2 in *. inv_bind HE. rewrite (IHHM1 _ _ E). simpl in *.
    eapply flat_mapM_mono; [|exact HE]. intros [a0 i] b _ Hb. inv_bind Hb.
    rewrite (go_after_mono mb l l' HT IHHM2 _ _ _ E0). exact Hb.
  - unfold x_seq3 in *. inv_bind HE. rewrite (IHHM1 _ _ E). simpl in *.
    eapply flat_mapM_mono; [|exact HE]. intros [a0 i] b _ Hb. inv_bind Hb.
    rewrite (go_after_mono mb l l' HT IHHM2 _ _ _ E0). simpl in *.
    eapply flat_mapM_mono; [|exact Hb]. intros [b0 j] c _ Hc. inv_bind Hc.
    rewrite (go_after_mono mc l l' HT IHHM3 _ _ _ E1). exact Hc.
Qed.

Lemma run_other {t} id l lg (r : Resolver t) l' :
  History l lg -> run id l r = Ok l' ->
  exists new, ll_tokens l' = ll_tokens l /\ Repr l' (lg ++ new)
    /\ (forall t', t' <> t -> assigned t' new = []).
Proof.
  intros H Hrun. pose proof (history_repr _ _ H) as HR. destruct (ll_tokens l) as [|tok toks] eqn:ET.
  - unfold run in Hrun. rewrite ET in Hrun. inversion Hrun; subst. exists [].
    rewrite app_nil_r. auto.
  - assert (HN : ll_tokens l <> []) by congruence.
    destruct (run_inv id l lg r l' HR HN Hrun) as (g & Hg & _ & _ & HT & HR').
    exists (map assignment_entry (go_assignments g)). rewrite HT. repeat split; auto.
    + apply HR'. + apply HR'. + apply HR'. + apply HR'. + apply HR'. + apply HR'. + apply HR'.
    + intros t' Ht. apply assigned_entries_other. auto.
Qed.

(** C12: a run of a resolver for type [t] changes no query of another type, no
    result of any matcher expression over other types, and no display of other
    types. *)
Lemma thm_C12_no_interference :
  forall t id l lg (r : Resolver t) l',
    History l lg -> run id l r = Ok l' ->
    (forall t', t' <> t -> query l' t' = query l t')
    /\ (forall A (m : matcher A) d, lib_matcher (fun t' => t' <> t) false A m -> m d l' = m d l)
    /\ (forall A (m : matcher A) d ms has, lib_matcher (fun t' => t' <> t) has A m ->
          m d l = Ok ms -> m d l' = Ok ms)
    /\ (forall tg incs, (forall x, In x incs -> projT1 x <> t) -> show tg l' incs = show tg l incs).
Proof.
  intros t id l lg r l' H Hrun. pose proof (history_repr _ _ H) as HR.
  destruct (run_other id l lg r l' H Hrun) as (new & HT & HR' & HN).
  assert (HE : forall t', t' <> t -> assigned t' (lg ++ new) = assigned t' lg).
  { intros t' Ht. now rewrite assigned_app, HN, app_nil_r. }
  split; [|split; [|split]].
  - intros t' Ht. eapply query_ext; eauto.
  - intros A m d HM. apply (lib_matcher_ext (fun t' => t' <> t) false A m l' (lg ++ new) l lg); auto. discriminate.
  - intros A m d ms has HM. apply (lib_matcher_mono (fun t' => t' <> t) has A m l lg l' (lg ++ new)); auto.
    + intros t' Ht. symmetry. auto.
    + unfold attributed. intros i Hi. rewrite map_app. apply in_or_app. auto.
  - intros tg incs HI. eapply show_ext; eauto.
Qed.

(** ** C13 *)

(** C13: the line made from no input has no tokens and no selection, and run
    returns it unchanged whatever the resolver is. *)
Lemma thm_C13_empty_line :
  forall tg sz,
    exists l, create_line_from_input_tokens tg [] sz = Ok l /\ ll_tokens l = []
      /\ (forall id, from_line (mkRc id l) = None)
      /\ (forall t id (r : Resolver t), run id l r = Ok l)
      /\ (forall t, query l t = Ok []).
Proof.
  intros tg sz. eexists. split; [reflexivity|]. repeat split.
Qed.

(** Only the line of an empty input is empty. *)
Lemma thm_C13_only_empty :
  forall tg sz input l,
    Forall wf_input input -> create_line_from_input_tokens tg input sz = Ok l ->
    ll_tokens l = [] -> input = [].
Proof.
  intros tg sz input l HW H HT. destruct (create_facts tg sz input l HW H) as (groups & H1 & H2 & _ & HL & _).
  rewrite HT in HL. symmetry in HL. apply (f_equal (@length _)) in HL. rewrite layout_by_length in HL.
  destruct H1 as [|it g input groups _ _]; auto. inversion H2; subst. destruct g; [easy|discriminate].
Qed.

(** ** C14 *)

Lemma thm_C14_run_ok_iff :
  forall t id l lg (r : Resolver t),
    History l lg -> ll_tokens l <> [] ->
    ((exists l', run id l r = Ok l') <->
     exists g, r (whole id l) = Ok g /\ go_retained g = false
       /\ assignments_in (length (ll_tokens l)) (go_assignments g)).
Proof.
  intros t id l lg r H HN. pose proof (history_repr _ _ H) as HR. split.
  - intros (l' & Hrun). destruct (run_inv id l lg r l' HR HN Hrun) as (g & H1 & H2 & H3 & _). eauto.
  - intros (g & H1 & H2 & H3). unfold run. destruct (ll_tokens l) as [|tok toks] eqn:ET; [easy|].
    rewrite H1. simpl. rewrite H2.
    rewrite <- ET in H3.
    destruct (store_ok (go_assignments g) l lg HR H3) as (l' & E & _). eauto.
Qed.

Lemma thm_C14_run_panics_iff :
  forall t id l lg (r : Resolver t),
    History l lg -> ll_tokens l <> [] ->
    ((exists p, run id l r = Panic p) <->
     (exists p, r (whole id l) = Panic p)
     \/ exists g, r (whole id l) = Ok g /\
          (go_retained g = true
           \/ exists x, In x (go_assignments g) /\
                (length (ll_tokens l) <= as_start x \/ length (ll_tokens l) <= as_end x))).
Proof.
  intros t id l lg r H HN. pose proof (history_repr _ _ H) as HR. unfold run.
  destruct (ll_tokens l) as [|tok toks] eqn:ET; [easy|]. rewrite <- ET.
  destruct (r (whole id l)) as [g|p|]; simpl.
  - destruct (go_retained g) eqn:Eg.
    + split; intros _; [right; exists g; auto|eauto].
    + destruct (assignments_in_dec (length (ll_tokens l)) (go_assignments g)) as [D|D].
      * destruct (store_ok (go_assignments g) l lg HR D) as (l' & E & _). rewrite E. split.
        -- intros (p & F). discriminate.
        -- intros [(p & F)|(g' & F & [G|(x & Hx & G)])]; [discriminate| |].
           ++ inversion F; subst. congruence.
           ++ inversion F; subst. unfold assignments_in in D. rewrite Forall_forall in D.
              specialize (D x Hx). lia.
      * split.
        -- intros _. right. exists g. split; auto. right.
           apply Exists_Forall_neg in D.
           ++ apply Exists_exists in D. destruct D as (x & Hx & D). exists x. split; auto. lia.
           ++ intros x. destruct (lt_dec (as_start x) (length (ll_tokens l))), (lt_dec (as_end x) (length (ll_tokens l))); tauto.
        -- intros _. destruct (store_panic (go_assignments g) l lg HR D) as [E|E]; rewrite E; eauto.
  - split; eauto.
  - split; [intros (p & F); discriminate|]. intros [(p & F)|(g & F & _)]; discriminate.
Qed.

(** ** C17 *)

Lemma thm_C17_any_attribute :
  forall t (v : den t) t',
    any_attribute_extract t (any_attribute_new t v) = inl v
    /\ (t' <> t -> any_attribute_extract t' (any_attribute_new t v) = inr (any_attribute_new t v)).
Proof.
  intros t v t'. unfold any_attribute_extract. simpl. split.
  - now rewrite downcast_same.
  - intros H. now rewrite downcast_other by congruence.
Qed.

Lemma insert_all : forall xs tb (G : forall t, list (den t)),
  (forall t, tb_get tb t = Ok (G t)) ->
  exists tb', foldM insert_either xs tb = Ok tb' /\
    forall t, tb_get tb' t = Ok (G t ++ filter_map (fun x => downcast t (snd x)) xs).
Proof.
  induction xs as [|[b [t0 v]] xs IH]; cbn [foldM filter_map]; intros tb G HG.
  - exists tb. split; auto. intros t. now rewrite app_nil_r.
  - assert (exists tb', insert_either tb (b, existT den t0 v) = Ok tb' /\
      forall t, tb_get tb' t = Ok (G t ++ opt_list (downcast t (mkany t0 v)))) as (tb' & E & HG').
    { destruct b; [apply tb_insert_ok|apply tb_insert_any_ok]; auto. }
    change (exists tb'0 : TypeBucket, bind (insert_either tb (b, existT den t0 v)) (foldM insert_either xs) = Ok tb'0 /\
       forall t, tb_get tb'0 t = Ok (G t ++ filter_map (fun x => downcast t (snd x)) ((b, mkany t0 v) :: xs))).
    rewrite E. cbn [bind filter_map snd]. destruct (IH tb' _ HG') as (tb'' & E' & HG''). exists tb''. split; auto.
    intros t. rewrite HG'', <- app_assoc. f_equal. f_equal.
    change (existT den t0 v) with (mkany t0 v). destruct (downcast t (mkany t0 v)); reflexivity.
Qed.

(** C17: any mixture of insertions succeeds, and reading a type returns exactly
    its values in order of insertion; clearing removes all. *)
Lemma thm_C17_bucket :
  forall xs : list (bool * any),
    exists tb, foldM insert_either xs tb_new = Ok tb /\
      forall t, tb_get tb t = Ok (filter_map (fun x => downcast t (snd x)) xs)
                /\ tb_get (tb_clear tb) t = Ok [].
Proof.
  intros xs. destruct (insert_all xs tb_new (fun _ => [])) as (tb & E & H); [reflexivity|].
  exists tb. split; auto. intros t. split; [apply H|reflexivity].
Qed.

(** ** C51 *)

(** C51: running two resolvers of different types whose assignments do not depend
    on each other, in either order, gives indistinguishable lines. *)
Lemma thm_C51_commute :
  forall t1 t2 (r1 : Resolver t1) (r2 : Resolver t2) l lg id1 id2 id1' id2' g1 g2 l1 l2,
    History l lg -> t1 <> t2 ->
    r1 (whole id1 l) = Ok g1 -> r2 (whole id2' l) = Ok g2 ->
    run id1 l r1 = Ok l1 -> run id2' l r2 = Ok l2 ->
    r2 (whole id2 l1) = Ok g2 -> r1 (whole id1' l2) = Ok g1 ->
    exists l12 l21,
      run id2 l1 r2 = Ok l12 /\ run id1' l2 r1 = Ok l21
      /\ ll_tokens l12 = ll_tokens l21
      /\ (forall t, query l12 t = query l21 t)
      /\ (forall has A (m : matcher A) d, lib_matcher any_ty has A m -> m d l12 = m d l21)
      /\ (forall tg incs, show tg l12 incs = show tg l21 incs).
Proof.
  intros t1 t2 r1 r2 l lg id1 id2 id1' id2' g1 g2 l1 l2 H Ht Hg1 Hg2 Hr1 Hr2 Hg2' Hg1'.
  pose proof (history_repr _ _ H) as HR. destruct (ll_tokens l) as [|tok toks] eqn:ET.
  - unfold run in Hr1, Hr2. rewrite ET in *. inversion Hr1; inversion Hr2; subst l1 l2.
    unfold run. rewrite ET. exists l, l. repeat split; auto.
  - assert (HN : ll_tokens l <> []) by congruence.
    destruct (run_inv id1 l lg r1 l1 HR HN Hr1) as (g & Hg & Hret1 & Hin1 & HT1 & HR1).
    assert (g = g1) by congruence. subst g.
    destruct (run_inv id2' l lg r2 l2 HR HN Hr2) as (g & Hg' & Hret2 & Hin2 & HT2 & HR2).
    assert (g = g2) by congruence. subst g.
    assert (exists l12, run id2 l1 r2 = Ok l12 /\ ll_tokens l12 = ll_tokens l /\
              Repr l12 ((lg ++ map assignment_entry (go_assignments g1)) ++ map assignment_entry (go_assignments g2)))
      as (l12 & E12 & T12 & R12).
    { rewrite <- HT1 in Hin2. destruct (store_ok (go_assignments g2) l1 _ HR1 Hin2) as (l12 & E & T & R).
      exists l12. split; [|split; [congruence|exact R]]. unfold run. rewrite HT1, ET, Hg2'. simpl. now rewrite Hret2. }
    assert (exists l21, run id1' l2 r1 = Ok l21 /\ ll_tokens l21 = ll_tokens l /\
              Repr l21 ((lg ++ map assignment_entry (go_assignments g2)) ++ map assignment_entry (go_assignments g1)))
      as (l21 & E21 & T21 & R21).
    { rewrite <- HT2 in Hin1. destruct (store_ok (go_assignments g1) l2 _ HR2 Hin1) as (l21 & E & T & R).
      exists l21. split; [|split; [congruence|exact R]]. unfold run. rewrite HT2, ET, Hg1'. simpl. now rewrite Hret1. }
    exists l12, l21. split; auto. split; auto. split; [congruence|].
    assert (HA : forall t, assigned t ((lg ++ map assignment_entry (go_assignments g1)) ++ map assignment_entry (go_assignments g2))
                = assigned t ((lg ++ map assignment_entry (go_assignments g2)) ++ map assignment_entry (go_assignments g1))).
    { intros t. rewrite !assigned_app, <- !app_assoc. f_equal. destruct (ty_eq_dec t1 t) as [->|N1].
      - rewrite (assigned_entries_other t2 t) by congruence. now rewrite app_nil_r.
      - rewrite (assigned_entries_other t1 t) by congruence. now rewrite app_nil_r. }
    split; [|split].
    + intros t. eapply query_ext; eauto. congruence.
    + intros has A m d HM. eapply (lib_matcher_ext any_ty has A m); eauto; [congruence|].
      intros _ i. unfold attributed. rewrite !map_app, !in_app_iff. tauto.
    + intros tg incs. eapply show_ext; eauto. congruence.
Qed.

(** ** C53 *)

(** C53: the four indexes of a reachable line agree. *)
Lemma thm_C53_indexes_agree :
  forall l lg t r,
    History l lg ->
    let listed := In r (tm_get (ranges (attrs l)) t) in
    (listed <-> exists m, nth_error (starts_at (attrs l)) (fst r) = Some m /\ In r (tm_get m t))
    /\ (listed <-> exists m, nth_error (ends_at (attrs l)) (snd r) = Some m /\ In r (tm_get m t))
    /\ (listed <-> exists tb vs, map_get range_eqb (values (attrs l)) r = Some tb
                      /\ tb_get tb t = Ok vs /\ vs <> [])
    /\ (forall i m, nth_error (starts_at (attrs l)) i = Some m -> In r (tm_get m t) -> fst r = i)
    /\ (forall i m, nth_error (ends_at (attrs l)) i = Some m -> In r (tm_get m t) -> snd r = i).
Proof.
  intros l lg t r H listed. pose proof (history_repr _ _ H) as HR. unfold listed.
  rewrite (rp_ranges l lg HR). repeat split.
  - intros Hr. destruct (repr_range_in l lg t r HR Hr) as [H1 H2].
    rewrite <- (rp_starts_len l lg HR) in H1. apply nth_error_lt in H1. destruct H1 as (m & Hm).
    exists m. split; auto. rewrite (rp_starts l lg HR _ m t Hm). apply filter_In. split; auto. apply Nat.eqb_refl.
  - intros (m & Hm & Hin). rewrite (rp_starts l lg HR _ m t Hm) in Hin. now apply filter_In in Hin.
  - intros Hr. destruct (repr_range_in l lg t r HR Hr) as [H1 H2].
    rewrite <- (rp_ends_len l lg HR) in H2. apply nth_error_lt in H2. destruct H2 as (m & Hm).
    exists m. split; auto. rewrite (rp_ends l lg HR _ m t Hm). apply filter_In. split; auto. apply Nat.eqb_refl.
  - intros (m & Hm & Hin). rewrite (rp_ends l lg HR _ m t Hm) in Hin. now apply filter_In in Hin.
  - intros Hr. pose proof (rp_values l lg HR r) as HV. pose proof (ranges_of_logged t r lg Hr).
    destruct (map_get range_eqb (values (attrs l)) r) as [tb|]; [|tauto].
    exists tb, (values_on t r lg). repeat split; [apply HV|]. now apply ranges_of_values_on.
  - intros (tb & vs & Hm & Hg & Hv). pose proof (rp_values l lg HR r) as HV. rewrite Hm in HV.
    destruct HV as [_ HV]. rewrite HV in Hg. inversion Hg; subst. now apply ranges_of_values_on.
  - intros i m Hm Hin. rewrite (rp_starts l lg HR _ m t Hm) in Hin. apply filter_In in Hin.
    now apply Nat.eqb_eq.
  - intros i m Hm Hin. rewrite (rp_ends l lg HR _ m t Hm) in Hin. apply filter_In in Hin.
    now apply Nat.eqb_eq.
Qed.

End ThmRun.
