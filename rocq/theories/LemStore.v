(** Correctness of the typed store against the log. *)

From Verif Require Export LemBase Spec.
From Coq Require Import Eqdep_dec.

Section LemStore.
Context {U : UserTypes}.

Lemma range_eqb_spec a b : range_eqb a b = true <-> a = b.
Proof.
  destruct a, b; unfold range_eqb; simpl. rewrite andb_true_iff, !Nat.eqb_eq.
  split; [intros []; congruence | intros E; inversion E; auto].
Qed.

Lemma range_eqb_refl a : range_eqb a a = true.
Proof. now apply range_eqb_spec. Qed.

Lemma range_eqb_neq a b : range_eqb a b = false <-> a <> b.
Proof.
  destruct (range_eqb a b) eqn:E.
  - apply range_eqb_spec in E. split; congruence.
  - split; auto. intros _ F. apply range_eqb_spec in F. congruence.
Qed.

Lemma range_eqb_sym a b : range_eqb a b = range_eqb b a.
Proof.
  destruct (range_eqb b a) eqn:E.
  - apply range_eqb_spec in E; subst. apply range_eqb_refl.
  - apply range_eqb_neq in E. apply range_eqb_neq. congruence.
Qed.

Lemma ty_eqb_spec a b : ty_eqb a b = true <-> a = b.
Proof. unfold ty_eqb. destruct (ty_eq_dec a b); split; congruence. Qed.

Lemma downcast_same t (v : den t) : downcast t (mkany t v) = Some v.
Proof.
  unfold downcast, mkany; simpl. destruct (ty_eq_dec t t) as [e|n]; [|congruence].
  f_equal. symmetry. apply (eq_rect_eq_dec ty_eq_dec).
Qed.

Lemma downcast_other t t' (v : den t') : t' <> t -> downcast t (mkany t' v) = None.
Proof.
  intros H. unfold downcast, mkany; simpl. destruct (ty_eq_dec t' t); congruence.
Qed.

(** Downcasting recognises exactly the values of the type. *)
Lemma downcast_spec t (a : any) v : downcast t a = Some v <-> a = mkany t v.
Proof.
  split.
  - destruct a as [t' v']. unfold downcast; simpl.
    destruct (ty_eq_dec t' t) as [e|n]; [|discriminate]. subst t'. simpl.
    intros H. inversion H; subst. reflexivity.
  - intros ->. apply downcast_same.
Qed.

Lemma bucket_downcast_spec t (b : bucket) vec :
  bucket_downcast t b = Some vec <-> b = mkbucket t vec.
Proof.
  split.
  - destruct b as [t' v']. unfold bucket_downcast; simpl.
    destruct (ty_eq_dec t' t) as [e|n]; [|discriminate]. subst t'. simpl.
    intros H. inversion H; subst. reflexivity.
  - intros ->. unfold bucket_downcast, mkbucket; simpl.
    destruct (ty_eq_dec t t) as [e|n]; [|congruence].
    f_equal. symmetry. apply (eq_rect_eq_dec ty_eq_dec (fun t => list (den t))).
Qed.

Lemma bucket_insert_any_ok t vec (v : den t) :
  bucket_insert_any (mkbucket t vec) (mkany t v) = Ok (mkbucket t (vec ++ [v])).
Proof.
  unfold bucket_insert_any. change (projT1 (mkbucket t vec)) with t.
  rewrite downcast_same. reflexivity.
Qed.

(** The bucket found (or created) under key [t] holds [G t]. *)
Lemma tb_get_bucket (tb : TypeBucket) t G :
  tb_get tb t = Ok G ->
  match map_get ty_eqb tb t with
  | Some b => b | None => mkbucket t [] end = mkbucket t G.
Proof.
  unfold tb_get. destruct (map_get ty_eqb tb t) as [b|] eqn:E; intros H.
  - apply expect_ok_inv in H. now apply bucket_downcast_spec in H.
  - inversion H; subst. reflexivity.
Qed.

Lemma tb_after_entry (tb tb' : TypeBucket) (G : forall t, list (den t)) t v :
  (forall t', tb_get tb t' = Ok (G t')) ->
  (forall t', map_get ty_eqb tb' t' =
     if ty_eqb t t' then Some (mkbucket t (G t ++ [v])) else map_get ty_eqb tb t') ->
  forall t', tb_get tb' t' = Ok (G t' ++ opt_list (downcast t' (mkany t v))).
Proof.
  intros HG Hm t'. unfold tb_get. rewrite Hm.
  destruct (ty_eqb t t') eqn:E.
  - apply ty_eqb_spec in E; subst t'. rewrite downcast_same. simpl.
    rewrite (proj2 (bucket_downcast_spec t _ _) eq_refl). reflexivity.
  - rewrite downcast_other. 2:{ intros ->. assert (ty_eqb t' t' = true) by now apply ty_eqb_spec. congruence. }
    simpl. rewrite app_nil_r. apply HG.
Qed.

Lemma tb_insert_ok (tb : TypeBucket) (G : forall t, list (den t)) t v :
  (forall t', tb_get tb t' = Ok (G t')) ->
  exists tb', tb_insert tb t v = Ok tb' /\
    forall t', tb_get tb' t' = Ok (G t' ++ opt_list (downcast t' (mkany t v))).
Proof.
  intros HG. unfold tb_insert.
  destruct (map_entry_ok ty_eqb ty_eqb_spec tb t (mkbucket t [])
    (fun b => vec <- expect PDowncast (bucket_downcast t b);; Ok (mkbucket t (vec ++ [v])))
    (mkbucket t (G t ++ [v]))) as (tb' & E & Hm).
  - rewrite (tb_get_bucket tb t (G t) (HG t)).
    rewrite (proj2 (bucket_downcast_spec t _ _) eq_refl). reflexivity.
  - exists tb'. split; auto. now apply (tb_after_entry tb tb' G t v).
Qed.

Lemma tb_insert_any_ok (tb : TypeBucket) (G : forall t, list (den t)) t v :
  (forall t', tb_get tb t' = Ok (G t')) ->
  exists tb', tb_insert_any_attribute tb (any_attribute_new t v) = Ok tb' /\
    forall t', tb_get tb' t' = Ok (G t' ++ opt_list (downcast t' (mkany t v))).
Proof.
  intros HG. unfold tb_insert_any_attribute, any_attribute_new; cbn [aa_key aa_empty aa_value].
  destruct (map_entry_ok ty_eqb ty_eqb_spec tb t (mkbucket t [])
    (fun b => bucket_insert_any b (mkany t v))
    (mkbucket t (G t ++ [v]))) as (tb' & E & Hm).
  - rewrite (tb_get_bucket tb t (G t) (HG t)). apply bucket_insert_any_ok.
  - exists tb'. split; auto. now apply (tb_after_entry tb tb' G t v).
Qed.

Lemma tb_get_new t : tb_get tb_new t = Ok [].
Proof. reflexivity. Qed.

Lemma tb_get_debug_ok tb t dbg vs :
  tb_get tb t = Ok vs -> tb_get_debug tb t dbg = Ok (map dbg vs).
Proof.
  unfold tb_get, tb_get_debug. destruct (map_get ty_eqb tb t).
  - intros H. rewrite H. reflexivity.
  - intros H. inversion H; subst. reflexivity.
Qed.

(** ** TypeIdToMany *)

Lemma tm_insert_get (m : TypeIdToMany) t r t' :
  tm_get (tm_insert_distinct m t r) t' =
  if ty_eqb t t' then push_distinct r (tm_get m t') else tm_get m t'.
Proof.
  unfold tm_get. induction m as [|[t0 e] m IH]; simpl.
  - destruct (ty_eqb t t'); reflexivity.
  - destruct (ty_eqb t0 t) eqn:E; simpl.
    + apply ty_eqb_spec in E; subst t0. destruct (ty_eqb t t'); reflexivity.
    + destruct (ty_eqb t0 t') eqn:E0; auto.
      destruct (ty_eqb t t') eqn:E1; auto.
      apply ty_eqb_spec in E0, E1; subst.
      assert (ty_eqb t' t' = true) by now apply ty_eqb_spec. congruence.
Qed.

Lemma existsb_range_In r l : existsb (range_eqb r) l = true <-> In r l.
Proof.
  rewrite existsb_exists. split.
  - intros (x & Hx & E). apply range_eqb_spec in E; subst; auto.
  - intros H. exists r. split; auto. apply range_eqb_refl.
Qed.

Lemma firsts_In r l : In r (firsts l) <-> In r l.
Proof.
  induction l as [|x l IH]; simpl; [easy|].
  rewrite filter_In, IH. split.
  - intros [->|[]]; auto.
  - intros [->|H]; auto. destruct (range_eqb r x) eqn:E; auto.
    apply range_eqb_spec in E; auto.
Qed.

Lemma NoDup_filter_f {A} (p : A -> bool) l : NoDup l -> NoDup (filter p l).
Proof.
  induction 1; simpl; [constructor|]. destruct (p x); auto.
  constructor; auto. rewrite filter_In. tauto.
Qed.

Lemma firsts_NoDup l : NoDup (firsts l).
Proof.
  induction l as [|x l IH]; simpl; constructor.
  - rewrite filter_In. intros [_ H]. now rewrite range_eqb_refl in H.
  - now apply NoDup_filter_f.
Qed.

Lemma push_distinct_in r l : In r l -> push_distinct r l = l.
Proof. intros H. unfold push_distinct. now rewrite (proj2 (existsb_range_In r l) H). Qed.

Lemma push_distinct_notin r l : ~ In r l -> push_distinct r l = l ++ [r].
Proof.
  intros H. unfold push_distinct. destruct (existsb (range_eqb r) l) eqn:E; auto.
  now apply existsb_range_In in E.
Qed.

Lemma filter_push_distinct p r l :
  filter p (push_distinct r l) = if p r then push_distinct r (filter p l) else filter p l.
Proof.
  destruct (existsb (range_eqb r) l) eqn:E.
  - apply existsb_range_In in E. rewrite push_distinct_in by auto.
    destruct (p r) eqn:Ep; auto. rewrite push_distinct_in; auto.
    apply filter_In; auto.
  - assert (~ In r l) by (intros F; apply existsb_range_In in F; congruence).
    rewrite push_distinct_notin by auto. rewrite filter_app; simpl.
    destruct (p r) eqn:Ep; [|apply app_nil_r].
    rewrite push_distinct_notin; auto. rewrite filter_In. tauto.
Qed.

Lemma firsts_snoc l r : firsts (l ++ [r]) = push_distinct r (firsts l).
Proof.
  induction l as [|x l IH]; simpl; auto. rewrite IH, filter_push_distinct.
  destruct (range_eqb r x) eqn:E; simpl.
  - apply range_eqb_spec in E; subst. rewrite push_distinct_in; auto. now left.
  - destruct (existsb (range_eqb r) (firsts l)) eqn:E2.
    + apply existsb_range_In in E2.
      assert (In r (filter (fun r' => negb (range_eqb r' x)) (firsts l))).
      { apply filter_In. split; auto. now rewrite E. }
      rewrite push_distinct_in by auto. rewrite push_distinct_in; auto. now right.
    + assert (~ In r (firsts l)) by (intros F; apply existsb_range_In in F; congruence).
      assert (~ In r (filter (fun r' => negb (range_eqb r' x)) (firsts l))) by (rewrite filter_In; tauto).
      rewrite push_distinct_notin by auto. rewrite push_distinct_notin; auto.
      intros [F|F]; auto. subst. rewrite range_eqb_refl in E. discriminate.
Qed.

(** ** The log *)

Lemma assigned_app t lg1 lg2 : assigned t (lg1 ++ lg2) = assigned t lg1 ++ assigned t lg2.
Proof. apply filter_map_app. Qed.

Lemma values_on_app t r lg1 lg2 :
  values_on t r (lg1 ++ lg2) = values_on t r lg1 ++ values_on t r lg2.
Proof. unfold values_on. now rewrite assigned_app, filter_map_app. Qed.

Lemma assigned_In t lg r v : In (r, v) (assigned t lg) <-> In (r, mkany t v) lg.
Proof.
  unfold assigned. rewrite in_filter_map. split.
  - intros ([r' a] & Hin & E). destruct (downcast t a) eqn:D; simpl in E; [|discriminate].
    apply downcast_spec in D; subst. inversion E; subst; auto.
  - intros H. exists (r, mkany t v). split; auto. now rewrite downcast_same.
Qed.

Lemma values_on_In t r lg v : In v (values_on t r lg) <-> In (r, mkany t v) lg.
Proof.
  unfold values_on. rewrite in_filter_map. split.
  - intros ([r' v'] & Hin & E). destruct (range_eqb r' r) eqn:D; [|discriminate].
    apply range_eqb_spec in D; subst. inversion E; subst. now apply assigned_In.
  - intros H. exists (r, v). rewrite range_eqb_refl. split; auto. now apply assigned_In.
Qed.

Lemma ranges_of_In t r lg : In r (ranges_of t lg) <-> exists v, In (r, mkany t v) lg.
Proof.
  unfold ranges_of. rewrite firsts_In, in_map_iff. split.
  - intros ([r' v] & E & H). simpl in E; subst. exists v. now apply assigned_In.
  - intros (v & H). exists (r, v). split; auto. now apply assigned_In.
Qed.

Lemma ranges_of_NoDup t lg : NoDup (ranges_of t lg).
Proof. apply firsts_NoDup. Qed.

Lemma ranges_of_values_on t r lg : In r (ranges_of t lg) <-> values_on t r lg <> [].
Proof.
  rewrite ranges_of_In. split.
  - intros (v & H) E. apply values_on_In in H. rewrite E in H. easy.
  - intros H. destruct (values_on t r lg) as [|v vs] eqn:E; [easy|].
    exists v. apply values_on_In. rewrite E. now left.
Qed.

Lemma assigned_single t r t' (v : den t') :
  assigned t [(r, mkany t' v)] = map (pair r) (opt_list (downcast t (mkany t' v))).
Proof. unfold assigned; simpl. destruct (downcast t (mkany t' v)); reflexivity. Qed.

Lemma values_on_single t r r' t' (v : den t') :
  values_on t r [(r', mkany t' v)] =
  if range_eqb r' r then opt_list (downcast t (mkany t' v)) else [].
Proof.
  unfold values_on. rewrite assigned_single.
  destruct (downcast t (mkany t' v)); simpl; destruct (range_eqb r' r); reflexivity.
Qed.

Lemma ranges_of_snoc t lg r t' (v : den t') :
  ranges_of t (lg ++ [(r, mkany t' v)]) =
  if ty_eqb t' t then push_distinct r (ranges_of t lg) else ranges_of t lg.
Proof.
  unfold ranges_of. rewrite assigned_app, map_app, assigned_single.
  destruct (ty_eqb t' t) eqn:E.
  - apply ty_eqb_spec in E; subst t'. rewrite downcast_same. simpl. apply firsts_snoc.
  - rewrite downcast_other. 2:{ intros ->. assert (ty_eqb t t = true) by now apply ty_eqb_spec. congruence. }
    simpl. now rewrite app_nil_r.
Qed.

End LemStore.
