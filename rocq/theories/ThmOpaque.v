(** C88: values are opaque. *)

From Verif Require Import LemBase LemLine LemStore LemMatch.
From Verif Require Export ThmOrder ThmApart SpecOpaque.

Section ThmOpaque.
Context {UC : Unicode} {U : UserTypes}.

(** ** Results *)

Lemma corr_bind {A B C D} (Q : A -> B -> Prop) (Q' : C -> D -> Prop) x y f g :
  results_corr Q x y -> (forall a b, Q a b -> results_corr Q' (f a) (g b)) -> results_corr Q' (bind x f) (bind y g).
Proof. intros H K. destruct x, y; simpl in *; try contradiction; auto. Qed.

Lemma corr_eq {A} (x y : res A) : results_corr eq x y <-> x = y.
Proof. destruct x, y; simpl; split; intros E; try congruence; try contradiction; auto. Qed.

Lemma corr_refl {A} (Q : A -> A -> Prop) x : (forall a, Q a a) -> results_corr Q x x.
Proof. intros H. destruct x; simpl; auto. Qed.

Lemma corr_mapM {A B C D} (Q : A -> B -> Prop) (Q' : C -> D -> Prop) f g xs ys :
  Forall2 Q xs ys -> (forall a b, Q a b -> results_corr Q' (f a) (g b)) -> results_corr (Forall2 Q') (mapM f xs) (mapM g ys).
Proof.
  intros H K. induction H as [|x y xs ys H1 H2 IH]; simpl; [constructor|].
  eapply corr_bind; [apply K, H1|]. intros a b Hab. eapply corr_bind; [exact IH|]. intros as' bs' Hs. simpl. constructor; auto.
Qed.

Lemma Forall2_concat {A B} (Q : A -> B -> Prop) xs ys : Forall2 (Forall2 Q) xs ys -> Forall2 Q (concat xs) (concat ys).
Proof. induction 1; simpl; [constructor|now apply Forall2_app]. Qed.

Lemma Forall2_maps {A B C D} (Q : A -> B -> Prop) (Q' : C -> D -> Prop) f g xs ys :
  Forall2 Q xs ys -> (forall a b, Q a b -> Q' (f a) (g b)) -> Forall2 Q' (map f xs) (map g ys).
Proof. intros H K. induction H; simpl; constructor; auto. Qed.

Lemma Forall2_flat_map {A B C D} (Q : A -> B -> Prop) (Q' : C -> D -> Prop) f g xs ys :
  Forall2 Q xs ys -> (forall a b, Q a b -> Forall2 Q' (f a) (g b)) -> Forall2 Q' (flat_map f xs) (flat_map g ys).
Proof. intros H K. induction H; simpl; [constructor|]. apply Forall2_app; auto. Qed.

Lemma Forall2_filter_map {A B C D} (Q : A -> B -> Prop) (Q' : C -> D -> Prop) f g xs ys :
  Forall2 Q xs ys -> (forall a b, Q a b -> opts_corr Q' (f a) (g b)) -> Forall2 Q' (filter_map f xs) (filter_map g ys).
Proof.
  intros H K. induction H as [|x y xs ys H1 H2 IH]; simpl; [constructor|].
  specialize (K x y H1). destruct (f x), (g y); simpl in K; try contradiction; auto.
Qed.

Lemma corr_flat_mapM {A B C D} (Q : A -> B -> Prop) (Q' : C -> D -> Prop) f g xs ys :
  Forall2 Q xs ys -> (forall a b, Q a b -> results_corr (Forall2 Q') (f a) (g b)) ->
  results_corr (Forall2 Q') (flat_mapM f xs) (flat_mapM g ys).
Proof.
  intros H K. unfold flat_mapM, rmap. eapply corr_bind; [eapply corr_mapM; [exact H|exact K]|].
  intros a b Hab. simpl. now apply Forall2_concat.
Qed.

Lemma Forall2_refl {A} (Q : A -> A -> Prop) xs : (forall a, Q a a) -> Forall2 Q xs xs.
Proof. intros H. induction xs; constructor; auto. Qed.

Lemma corr_flat_mapM_same {A C D} (Q' : C -> D -> Prop) f g (xs : list A) :
  (forall a, results_corr (Forall2 Q') (f a) (g a)) -> results_corr (Forall2 Q') (flat_mapM f xs) (flat_mapM g xs).
Proof. intros H. apply (corr_flat_mapM eq); [now apply Forall2_refl|]. intros a b <-. apply H. Qed.

Lemma Forall2_map_fst {A B C} (Q : A -> B -> Prop) (xs : list (C * A)) ys :
  Forall2 (fun x y => fst x = fst y /\ Q (snd x) (snd y)) xs ys -> map fst xs = map fst ys.
Proof. induction 1 as [|x y xs ys [H1 _] H2 IH]; simpl; congruence. Qed.

Lemma Forall2_weak {A B} (Q Q' : A -> B -> Prop) xs ys : Forall2 Q xs ys -> (forall a b, Q a b -> Q' a b) -> Forall2 Q' xs ys.
Proof. intros H K. induction H; constructor; auto. Qed.

Lemma corr_weak {A B} (Q Q' : A -> B -> Prop) x y : results_corr Q x y -> (forall a b, Q a b -> Q' a b) -> results_corr Q' x y.
Proof. intros H K. destruct x, y; simpl in *; auto. Qed.

(** ** Logs *)

Section Val.
Context (Val : forall t : ty, den t -> den t -> Prop).

Definition entry_corr (e e' : entry) : Prop := fst e = fst e' /\ any_corr Val (snd e) (snd e').
Definition logs_corr (lg lg' : list entry) : Prop := Forall2 entry_corr lg lg'.
Definition pair_corr {t} (x y : LRange * den t) : Prop := fst x = fst y /\ Val t (snd x) (snd y).

Lemma assigned_corr t lg lg' : logs_corr lg lg' -> Forall2 (@pair_corr t) (assigned t lg) (assigned t lg').
Proof.
  intros H. unfold assigned. eapply Forall2_filter_map; [exact H|]. intros [r a] [r' b] [E K]. simpl in E, K. subst r'.
  destruct K as [t' v w K]. destruct (ty_eq_dec t' t) as [->|N].
  - rewrite !downcast_same. simpl. split; auto.
  - rewrite !downcast_other by assumption. simpl. exact I.
Qed.

Lemma ranges_of_corr t lg lg' : logs_corr lg lg' -> ranges_of t lg = ranges_of t lg'.
Proof. intros H. unfold ranges_of. f_equal. eapply Forall2_map_fst. apply assigned_corr, H. Qed.

Lemma values_on_corr t r lg lg' : logs_corr lg lg' -> Forall2 (Val t) (values_on t r lg) (values_on t r lg').
Proof.
  intros H. unfold values_on. eapply Forall2_filter_map; [apply assigned_corr, H|].
  intros [r1 v] [r2 w] [E K]. simpl in E, K. subst r2. destruct (range_eqb r1 r); simpl; auto.
Qed.

Lemma attributed_corr i lg lg' : logs_corr lg lg' -> attributed i lg <-> attributed i lg'.
Proof. intros H. unfold attributed. now rewrite (Forall2_map_fst _ _ _ H). Qed.

Lemma scan_corr {A B} (Q : A -> B -> Prop) t lg lg' p f g : logs_corr lg lg' ->
  (forall r v w, Val t v w -> opts_corr Q (f r v) (g r w)) -> Forall2 Q (scan t lg p f) (scan t lg' p g).
Proof.
  intros H K. unfold scan. rewrite <- (ranges_of_corr t lg lg' H).
  apply (Forall2_flat_map eq); [now apply Forall2_refl|]. intros r r' <-.
  eapply Forall2_filter_map; [apply values_on_corr, H|]. auto.
Qed.

(** ** Elementary matchers *)

Section Lines.
Context (l l' : LLLine) (lg lg' : list entry).
Context (T : ll_tokens l = ll_tokens l') (R : Repr l lg) (R' : Repr l' lg') (L : logs_corr lg lg').

Lemma dir_attr_corr t d : results_corr (Forall2 (with_index (Val t))) (dir_attr t d l) (dir_attr t d l').
Proof.
  rewrite (dir_attr_run l lg), (dir_attr_run l' lg') by assumption. rewrite <- T. destruct (_ <? _); simpl; auto.
  apply scan_corr; [assumption|]. intros r v w K. simpl. split; auto.
Qed.

Lemma unit_corr (xs ys : list (unit * nat)) : Forall2 (with_index eq) xs ys -> xs = ys.
Proof. induction 1 as [|[[] i] [[] j] xs ys [H _] H2 IH]; simpl in *; congruence. Qed.

Lemma dir_attr_eq_corr t eqT eqT' v v' d : blind_eq Val t eqT eqT' v v' -> dir_attr_eq t eqT v d l = dir_attr_eq t eqT' v' d l'.
Proof.
  intros HB. rewrite (dir_attr_eq_run l lg), (dir_attr_eq_run l' lg') by assumption. rewrite <- T. destruct (_ <? _); simpl; auto.
  f_equal. apply unit_corr, scan_corr; [assumption|]. intros r a b K. rewrite (HB a b K). destruct (eqT' b v'); simpl; auto. split; auto.
Qed.

Lemma dir_one_of_corr t eqT eqT' set set' d : blind_set Val t eqT eqT' set set' ->
  results_corr (Forall2 (with_index (Val t))) (dir_token_attr_one_of t eqT set d l) (dir_token_attr_one_of t eqT' set' d l').
Proof.
  intros HB. destruct d as [i|i].
  - rewrite (token_attr_one_of_fwd l lg), (token_attr_one_of_fwd l' lg') by assumption.
    pose proof (attributed_corr i _ _ L) as HA. destruct (attributed_dec i lg), (attributed_dec i lg'); try tauto; simpl; auto.
    eapply Forall2_filter_map; [apply values_on_corr, L|]. intros v w K. unfold slice_contains. rewrite (HB v w K).
    destruct (existsb _ set'); simpl; auto. split; auto.
  - rewrite (token_attr_one_of_bwd l lg), (token_attr_one_of_bwd l' lg') by assumption. rewrite <- T. destruct (_ <? _); simpl; auto.
    apply scan_corr; [assumption|]. intros r a b K. unfold slice_contains. rewrite (HB a b K).
    destruct (existsb _ set'); simpl; auto. split; auto.
Qed.

Lemma dir_text_corr d : dir_text_token d l = dir_text_token d l'.
Proof. unfold dir_text_token. now rewrite T. Qed.

Lemma dir_after_corr d i : dir_after d i l = dir_after d i l'.
Proof. unfold dir_after. now rewrite T. Qed.

Lemma query_corr t : results_corr (Forall2 (rows_corr Val t)) (query l t) (query l' t).
Proof.
  rewrite (query_run l lg), (query_run l' lg') by assumption. rewrite <- (ranges_of_corr t lg lg' L), <- T.
  apply (corr_mapM eq); [now apply Forall2_refl|]. intros r r' <-.
  destruct (slice_incl _ _ _); simpl; auto. split; [reflexivity|]. apply values_on_corr, L.
Qed.

Lemma show_corr tg incs incs' : Forall2 (blind_shown Val) incs incs' -> show tg l incs = show tg l' incs'.
Proof.
  intros H. rewrite (show_run tg l lg), (show_run tg l' lg') by assumption.
  replace (all_rows incs' lg') with (all_rows incs lg).
  - unfold display. simpl. now rewrite T.
  - unfold all_rows. induction H as [|x x' incs incs' H1 H2 IH]; simpl; [reflexivity|]. rewrite IH. f_equal.
    destruct H1 as (t & dbg & dbg' & -> & -> & HD). cbn [projT1 projT2]. unfold include_rows.
    rewrite (ranges_of_corr t lg lg' L). apply flat_map_ext. intros r. do 2 f_equal.
    pose proof (values_on_corr t r lg lg' L) as HV. induction HV; simpl; [reflexivity|]. f_equal; auto.
Qed.

Lemma find_corr {A B} (Q : A -> B -> Prop) m m' : matchers_corr Q l l' m m' ->
  results_corr (Forall2 (finds_corr Q)) (find l m) (find l' m').
Proof.
  intros H. unfold find, pos_start_at, pos_end_at. rewrite <- T. apply corr_flat_mapM_same. intros i.
  eapply corr_bind; [apply H|]. intros ms ms' HM. eapply corr_mapM; [exact HM|].
  intros [a j] [b j'] [E K]. simpl in E, K. subst j'.
  destruct (nth_error (ll_tokens l) i); simpl; auto. destruct (nth_error (ll_tokens l) j); simpl; auto. split; auto.
Qed.

(** ** Combinators *)

Lemma all2_corr {A B C D} (QA : A -> B -> Prop) (QC : C -> D -> Prop) ma ma' mb mb' :
  matchers_corr QA l l' ma ma' -> matchers_corr QC l l' mb mb' -> matchers_corr (both QA QC) l l' (x_all2 ma mb) (x_all2 ma' mb').
Proof.
  intros H1 H2 d. unfold x_all2. eapply corr_bind; [apply H2|]. intros bs bs' HB. eapply corr_bind; [apply H1|]. intros al al' HA.
  simpl. eapply Forall2_flat_map; [exact HA|]. intros [a i] [a' i'] [E K]. simpl in E, K. subst i'.
  eapply Forall2_filter_map; [exact HB|]. intros [b j] [b' j'] [E' K']. simpl in E', K'. subst j'.
  destruct (Nat.eqb i j); simpl; auto. repeat split; auto.
Qed.

Lemma all3_corr {A B C D E F} (QA : A -> B -> Prop) (QC : C -> D -> Prop) (QE : E -> F -> Prop) ma ma' mb mb' mc mc' :
  matchers_corr QA l l' ma ma' -> matchers_corr QC l l' mb mb' -> matchers_corr QE l l' mc mc' ->
  matchers_corr (both (both QA QC) QE) l l' (x_all3 ma mb mc) (x_all3 ma' mb' mc').
Proof.
  intros H1 H2 H3 d. unfold x_all3. eapply corr_bind; [apply H2|]. intros bs bs' HB. eapply corr_bind; [apply H3|]. intros cs cs' HC.
  eapply corr_bind; [apply H1|]. intros al al' HA.
  simpl. eapply Forall2_flat_map; [exact HA|]. intros [a i] [a' i'] [E1 K1]. simpl in E1, K1. subst i'.
  eapply Forall2_flat_map; [exact HB|]. intros [b j] [b' j'] [E2 K2]. simpl in E2, K2. subst j'.
  eapply Forall2_filter_map; [exact HC|]. intros [c k] [c' k'] [E3 K3]. simpl in E3, K3. subst k'.
  destruct (Nat.eqb i j && Nat.eqb i k); simpl; auto. repeat split; auto.
Qed.

Lemma any2_corr {A B C D} (QA : A -> B -> Prop) (QC : C -> D -> Prop) ma ma' mb mb' :
  matchers_corr QA l l' ma ma' -> matchers_corr QC l l' mb mb' -> matchers_corr (either2 QA QC) l l' (x_any_of2 ma mb) (x_any_of2 ma' mb').
Proof.
  intros H1 H2 d. unfold x_any_of2. eapply corr_bind; [apply H1|]. intros al al' HA.
  destruct HA as [|x y al al' HX HA].
  - eapply corr_bind; [apply H2|]. intros bs bs' HB. simpl. eapply Forall2_maps; [exact HB|].
    intros [b j] [b' j'] [E K]. split; auto.
  - cbn [results_corr]. eapply (Forall2_maps (with_index QA) _ _ _ (x :: al)); [constructor; eauto|].
    intros [b j] [b' j'] [E K]. split; auto.
Qed.

Lemma any3_corr {A B C D E F} (QA : A -> B -> Prop) (QC : C -> D -> Prop) (QE : E -> F -> Prop) ma ma' mb mb' mc mc' :
  matchers_corr QA l l' ma ma' -> matchers_corr QC l l' mb mb' -> matchers_corr QE l l' mc mc' ->
  matchers_corr (either3 QA QC QE) l l' (x_any_of3 ma mb mc) (x_any_of3 ma' mb' mc').
Proof.
  intros H1 H2 H3 d. unfold x_any_of3. eapply corr_bind; [apply H1|]. intros al al' HA.
  destruct HA as [|x y al al' HX HA].
  - eapply corr_bind; [apply H2|]. intros bs bs' HB. destruct HB as [|x y bs bs' HX HB].
    + eapply corr_bind; [apply H3|]. intros cs cs' HC. simpl. eapply Forall2_maps; [exact HC|].
      intros [b j] [b' j'] [E' K]. split; auto.
    + cbn [results_corr]. eapply (Forall2_maps (with_index QC) _ _ _ (x :: bs)); [constructor; eauto|].
      intros [b j] [b' j'] [E' K]. split; auto.
  - cbn [results_corr]. eapply (Forall2_maps (with_index QA) _ _ _ (x :: al)); [constructor; eauto|].
    intros [b j] [b' j'] [E' K]. split; auto.
Qed.

Lemma go_after_corr {A B} (Q : A -> B -> Prop) m m' d i : matchers_corr Q l l' m m' ->
  results_corr (Forall2 (with_index Q)) (go_after m d i l) (go_after m' d i l').
Proof. intros H. unfold go_after. rewrite dir_after_corr. destruct (dir_after d i l'); [apply H|constructor]. Qed.

Lemma seq2_corr {A B C D} (QA : A -> B -> Prop) (QC : C -> D -> Prop) ma ma' mb mb' :
  matchers_corr QA l l' ma ma' -> matchers_corr QC l l' mb mb' -> matchers_corr (both QA QC) l l' (x_seq2 ma mb) (x_seq2 ma' mb').
Proof.
  intros H1 H2 d. unfold x_seq2. eapply corr_bind; [apply H1|]. intros al al' HA.
  eapply corr_flat_mapM; [exact HA|]. intros [a i] [a' i'] [E K]. simpl in E, K. subst i'.
  eapply corr_bind; [apply go_after_corr, H2|]. intros bs bs' HB. simpl. eapply Forall2_maps; [exact HB|].
  intros [b j] [b' j'] [E' K']. simpl in E', K'. subst j'. repeat split; auto.
Qed.

Lemma seq3_corr {A B C D E F} (QA : A -> B -> Prop) (QC : C -> D -> Prop) (QE : E -> F -> Prop) ma ma' mb mb' mc mc' :
  matchers_corr QA l l' ma ma' -> matchers_corr QC l l' mb mb' -> matchers_corr QE l l' mc mc' ->
  matchers_corr (both (both QA QC) QE) l l' (x_seq3 ma mb mc) (x_seq3 ma' mb' mc').
Proof.
  intros H1 H2 H3 d. unfold x_seq3. eapply corr_bind; [apply H1|]. intros al al' HA.
  eapply corr_flat_mapM; [exact HA|]. intros [a i] [a' i'] [E1 K1]. simpl in E1, K1. subst i'.
  eapply corr_bind; [apply go_after_corr, H2|]. intros bs bs' HB.
  eapply corr_flat_mapM; [exact HB|]. intros [b j] [b' j'] [E2 K2]. simpl in E2, K2. subst j'.
  eapply corr_bind; [apply go_after_corr, H3|]. intros cs cs' HC. simpl. eapply Forall2_maps; [exact HC|].
  intros [c k] [c' k'] [E3 K3]. simpl in E3, K3. subst k'. repeat split; auto.
Qed.

(** ** Matchers of users *)

Lemma execute_corr {A B} (Q : A -> B -> Prop) p p' : programs_corr Val Q p p' ->
  results_corr (Forall2 (with_index Q)) (execute l p) (execute l' p').
Proof.
  induction 1; cbn [execute].
  - exact H.
  - eapply corr_bind; [apply dir_attr_corr|]. auto.
  - rewrite (dir_attr_eq_corr t eqT eqT' v v' d H). eapply corr_bind; [now apply corr_eq|]. intros a b <-. auto.
  - eapply corr_bind; [apply dir_one_of_corr; eassumption|]. auto.
  - rewrite dir_text_corr. eapply corr_bind; [now apply corr_eq|]. intros a b <-. auto.
  - rewrite dir_after_corr. auto.
  - rewrite T. auto.
  - eapply corr_bind; [apply query_corr|]. auto.
  - eapply corr_bind; [apply find_corr; intros d; apply H0|]. auto.
  - rewrite (show_corr tg incs incs' H). eapply corr_bind; [now apply corr_eq|]. intros a b <-. auto.
  - reflexivity.
Qed.

(** ** Selections *)

Section Sels.
Context (s s' : LLSelection) (SC : sels_corr l l' s s').

Definition found_corr {A B} (Q : A -> B -> Prop) (x : LLSelection * A) (y : LLSelection * B) : Prop :=
  sels_corr l l' (fst x) (fst y) /\ Q (snd x) (snd y).

Lemma made_corr a b : sels_corr l l' (mkSel (sel_line s) a b) (mkSel (sel_line s') a b).
Proof. destruct SC as (H1 & H2 & _). unfold sels_corr, line_of in *. simpl. auto. Qed.

Lemma find_by_corr {A B} (Q : A -> B -> Prop) m m' : matchers_corr Q l l' m m' ->
  results_corr (Forall2 (found_corr Q)) (find_by s m) (find_by s' m').
Proof.
  intros H. pose proof SC as (E1 & E2 & E3 & E4). unfold find_by. rewrite E1, E2, <- E3, <- E4. apply corr_flat_mapM_same. intros i.
  eapply corr_bind; [apply H|]. intros ms ms' HM. simpl. eapply Forall2_maps; [exact HM|].
  intros [a j] [b j'] [E K]. simpl in E, K. subst j'. split; [apply made_corr|exact K].
Qed.

Lemma hd_corr {A B} (Q : A -> B -> Prop) x y : results_corr (Forall2 Q) x y -> results_corr (opts_corr Q) (rmap (@hd_opt _) x) (rmap (@hd_opt _) y).
Proof. intros H. eapply corr_bind; [exact H|]. intros a b HF. destruct HF; simpl; auto. Qed.

Lemma find_both_corr {A B} (Q : A -> B -> Prop) m m' : matchers_corr Q l l' m m' ->
  results_corr (Forall2 (found_corr Q)) (find_by_forwards_and_backwards s m) (find_by_forwards_and_backwards s' m').
Proof.
  intros H. pose proof SC as (E1 & E2 & E3 & E4). unfold find_by_forwards_and_backwards. rewrite E1, E2, <- E3, <- E4. apply corr_flat_mapM_same. intros i.
  eapply corr_bind; [apply H|]. intros ms ms' HM. eapply corr_bind; [apply H|]. intros bs bs' HB. simpl. apply Forall2_app.
  - eapply Forall2_maps; [exact HM|]. intros [a j] [b j'] [E K]. simpl in E, K. subst j'. split; [apply made_corr|exact K].
  - eapply Forall2_maps; [exact HB|]. intros [a j] [b j'] [E K]. simpl in E, K. subst j'. split; [apply made_corr|exact K].
Qed.

Lemma match_forwards_corr {A B} (Q : A -> B -> Prop) m m' : matchers_corr Q l l' m m' ->
  results_corr (Forall2 (found_corr Q)) (match_forwards s m) (match_forwards s' m').
Proof.
  intros H. pose proof SC as (E1 & E2 & E3 & E4). unfold match_forwards, line_len. rewrite E1, E2, <- E3, <- E4, <- T.
  destruct (Nat.eqb _ _); [constructor|]. eapply corr_bind; [apply H|]. intros ms ms' HM. simpl.
  eapply Forall2_maps; [exact HM|]. intros [a j] [b j'] [E K]. simpl in E, K. subst j'. split; [apply made_corr|exact K].
Qed.

Lemma match_backwards_corr {A B} (Q : A -> B -> Prop) m m' : matchers_corr Q l l' m m' ->
  results_corr (Forall2 (found_corr Q)) (match_backwards s m) (match_backwards s' m').
Proof.
  intros H. pose proof SC as (E1 & E2 & E3 & E4). unfold match_backwards. rewrite E1, E2, <- E3, <- E4.
  destruct (Nat.eqb _ _); [constructor|]. eapply corr_bind; [apply H|]. intros ms ms' HM. simpl.
  eapply Forall2_maps; [exact HM|]. intros [a j] [b j'] [E K]. simpl in E, K. subst j'. split; [apply made_corr|exact K].
Qed.

Lemma after_corr : results_corr (opts_corr (sels_corr l l')) (sel_after s) (sel_after s').
Proof.
  pose proof SC as (E1 & E2 & E3 & E4). unfold sel_after, line_len. rewrite E1, E2, <- E3, <- E4, <- T.
  destruct (sub_usize (length (ll_tokens l)) 1) as [k|p|]; cbn [bind]; try reflexivity. destruct (Nat.eqb (S (start_idx s)) k); [exact I|]. apply made_corr.
Qed.

Lemma selection_from_corr a b : opts_corr (sels_corr l l') (selection_from s a b) (selection_from s' a b).
Proof.
  pose proof SC as (E1 & E2 & E3 & E4). unfold selection_from. rewrite <- E3, <- E4. destruct (Nat.max a (start_idx s) <=? Nat.min b (end_idx s)); simpl; auto. apply made_corr.
Qed.

Lemma selection_before_corr a b : opts_corr (sels_corr l l') (selection_before s a b) (selection_before s' a b).
Proof. unfold selection_before. destruct (checked_sub b 1); simpl; auto. apply selection_from_corr. Qed.

Lemma opt_list_corr {A B} (Q : A -> B -> Prop) x y : opts_corr Q x y -> Forall2 Q (opt_list x) (opt_list y).
Proof. destruct x, y; simpl; intros; try contradiction; auto. Qed.

Lemma windows_corr {A B} (Q : A -> B -> Prop) xs ys : Forall2 Q xs ys -> Forall2 (both Q Q) (windows2 xs) (windows2 ys).
Proof.
  induction 1 as [|x y xs ys H1 H2 IH]; [constructor|]. destruct H2 as [|x2 y2 xs ys H3 H4]; [constructor|].
  constructor; [split; assumption|exact IH].
Qed.

Lemma last_corr {A B} (Q : A -> B -> Prop) xs ys : Forall2 Q xs ys -> forall a b, Q a b -> Q (last xs a) (last ys b).
Proof.
  induction 1 as [|x y xs ys H1 H2 IH]; intros a b Hab; [exact Hab|]. destruct H2 as [|x2 y2 xs ys H3 H4]; [exact H1|].
  apply (IH a b Hab).
Qed.

Lemma split_by_corr {A B} (Q : A -> B -> Prop) m m' : matchers_corr Q l l' m m' ->
  results_corr (Forall2 (sels_corr l l')) (split_by s m) (split_by s' m').
Proof.
  intros H. pose proof SC as (E1 & E2 & E3 & E4). unfold split_by. eapply corr_bind; [apply find_by_corr, H|]. intros ms ms' HM.
  assert (ES : forall x y, found_corr Q x y -> start_idx (fst x) = start_idx (fst y) /\ end_idx (fst x) = end_idx (fst y)).
  { intros x y ((_ & _ & X) & _). exact X. }
  destruct HM as [|x y ms ms' H1 HM]; [simpl; constructor; [exact SC|constructor]|].
  destruct (ES _ _ H1) as [X1 X2]. destruct HM as [|x2 y2 ms ms' H2 HM].
  - cbn [results_corr]. rewrite <- E3, <- E4, <- X1, <- X2.
    apply Forall2_app; apply opt_list_corr; [apply selection_before_corr|apply selection_from_corr].
  - assert (HF : Forall2 (found_corr Q) (x :: x2 :: ms) (y :: y2 :: ms')) by auto.
    pose proof (last_corr _ _ _ HF x y H1) as HL. destruct (ES _ _ HL) as [Y1 Y2].
    cbn [results_corr]. rewrite <- E3, <- E4, <- X1, <- Y2.
    apply Forall2_app; [apply opt_list_corr, selection_before_corr|]. apply Forall2_app; [|apply opt_list_corr, selection_from_corr].
    eapply Forall2_filter_map; [apply windows_corr; exact HF|]. intros [w0 w1] [z0 z1] [K0 K1]. simpl in K0, K1.
    destruct (ES _ _ K0) as [_ <-]. destruct (ES _ _ K1) as [<- _]. apply selection_before_corr.
Qed.

Lemma trim_corr {A B} (Q : A -> B -> Prop) m m' x y : matchers_corr Q l l' m m' ->
  results_corr (opts_corr (sels_corr l l')) (trim_selection s m x y) (trim_selection s' m' x y).
Proof.
  clear T R R' L. intros H. pose proof SC as (E1 & E2 & E3 & E4). unfold trim_selection. rewrite E1, E2, <- E3, <- E4.
  apply (corr_bind eq).
  { destruct x; [|reflexivity]. eapply corr_bind; [apply H|]. intros ms ms' HM. destruct HM as [|[a i] [b j] ? ? [X _] _]; simpl in *; congruence. }
  intros n1 n1' <-. apply (corr_bind eq).
  { destruct y; [|reflexivity]. eapply corr_bind; [apply H|]. intros ms ms' HM. destruct HM as [|[a i] [b j] ? ? [X _] _]; simpl in *; [reflexivity|now subst]. }
  intros n2 n2' <-. simpl. destruct (_ && _); simpl; auto. apply made_corr.
Qed.
End Sels.

Lemma split_with_corr s s' o o' : sels_corr l l' s s' -> sels_corr l l' o o' ->
  rc_id (sel_line s) = rc_id (sel_line o) -> rc_id (sel_line s') = rc_id (sel_line o') ->
  results_corr (both (opts_corr (sels_corr l l')) (opts_corr (sels_corr l l'))) (split_with s o) (split_with s' o').
Proof.
  intros HS HO I1 I2. pose proof HS as (E1 & E2 & E3 & E4). pose proof HO as (F1 & F2 & F3 & F4). unfold split_with.
  rewrite I1, I2, !N.eqb_refl, <- F3, <- F4, <- E3, <- E4. simpl. split; simpl; [|apply selection_from_corr, HS].
  destruct (0 <? start_idx o); [apply selection_from_corr, HS|exact I].
Qed.
End Lines.

(** ** Runs *)

Lemma lines_corr_log l l' : lines_corr Val l l' ->
  ll_tokens l = ll_tokens l' /\ exists lg lg', (History l lg /\ History l' lg') /\ (Repr l lg /\ Repr l' lg') /\ logs_corr lg lg'.
Proof. intros (T & lg & lg' & H & H' & L). split; [exact T|]. exists lg, lg'. auto using history_repr. Qed.

Lemma insert_panic_exact l lg r t (v : den t) :
  Repr l lg -> ~ (fst r < length (ll_tokens l) /\ snd r < length (ll_tokens l)) ->
  attrs_insert (attrs l) r t v = Panic (if fst r <? length (ll_tokens l) then PEndsAt else PStartsAt).
Proof.
  intros [Hsl Hel _ _ _ _ _] H. unfold attrs_insert.
  destruct (Nat.ltb_spec (fst r) (length (ll_tokens l))) as [H1|H1].
  - destruct (update_nth_ok PStartsAt (fst r) (fun m => tm_insert_distinct m t r) (starts_at (attrs l)))
      as (sa & Esa & _); [lia|]. rewrite Esa; simpl. rewrite update_nth_panic by lia. auto.
  - rewrite update_nth_panic by lia. auto.
Qed.

Lemma store_corr {t} (ass ass' : list (LLCursorAssignment t)) : Forall2 (assignments_corr Val) ass ass' -> forall l l' lg lg',
  Repr l lg -> Repr l' lg' -> ll_tokens l = ll_tokens l' ->
  results_corr (fun _ _ => True) (store_assignments l ass) (store_assignments l' ass').
Proof.
  unfold store_assignments. induction 1 as [|x y ass ass' (E1 & E2 & K) HF IH]; intros l l' lg lg' R R' T; [exact I|]. cbn [foldM].
  destruct (lt_dec (as_start x) (length (ll_tokens l))) as [D1|D1].
  1: destruct (lt_dec (as_end x) (length (ll_tokens l))) as [D2|D2].
  - destruct (attrs_insert_ok l lg (as_start x, as_end x) t (as_value x) R D1 D2) as (a & E & RA).
    destruct (attrs_insert_ok l' lg' (as_start y, as_end y) t (as_value y) R') as (a' & E' & RA'); [simpl; rewrite <- T; congruence..|].
    rewrite E, E'. cbn [bind]. apply (IH (mkLine (ll_tokens l) a) (mkLine (ll_tokens l') a') _ _ RA RA'). exact T.
  - rewrite (insert_panic_exact l lg), (insert_panic_exact l' lg'); try assumption; [|simpl; rewrite <- T, <- E2; lia|simpl; lia].
    simpl. now rewrite <- T, <- E1.
  - rewrite (insert_panic_exact l lg), (insert_panic_exact l' lg'); try assumption; [|simpl; rewrite <- T, <- E1; lia|simpl; lia].
    simpl. now rewrite <- T, <- E1.
Qed.

Lemma entries_corr {t} (ass ass' : list (LLCursorAssignment t)) : Forall2 (assignments_corr Val) ass ass' ->
  logs_corr (map assignment_entry ass) (map assignment_entry ass').
Proof. intros H. eapply Forall2_maps; [exact H|]. intros x y (E1 & E2 & K). split; simpl; [congruence|now constructor]. Qed.

Lemma run_corr {t} (r r' : Resolver t) id id' l l' : lines_corr Val l l' ->
  results_corr (gos_corr Val) (r (whole id l)) (r' (whole id' l')) -> results_corr (lines_corr Val) (run id l r) (run id' l' r').
Proof.
  intros HL HG. pose proof (lines_corr_log _ _ HL) as (T & lg & lg' & (H & H') & (R & R') & L).
  destruct (run id l r) as [m|p|] eqn:E1, (run id' l' r') as [m'|p'|] eqn:E2; pose proof E1 as F1; pose proof E2 as F2; unfold run in F1, F2;
    destruct (ll_tokens l) as [|tok toks] eqn:EL; rewrite <- T in F2; try discriminate F1; try discriminate F2;
    try (injection F1 as <-; injection F2 as <-; exact HL);
    destruct (r (whole id l)) as [g|q|] eqn:G1, (r' (whole id' l')) as [g'|q'|] eqn:G2; cbn [bind results_corr] in *; try contradiction; try discriminate F1; try discriminate F2;
    try congruence; try exact I;
    destruct HG as [GR GA]; rewrite <- GR in F2; destruct (go_retained g) eqn:EG; try discriminate F1; try discriminate F2; try congruence;
    pose proof (store_corr _ _ GA l l' lg lg' R R' ltac:(congruence)) as K; rewrite F1, F2 in K; simpl in K; try contradiction; try exact K.
  assert (N : ll_tokens l <> []) by congruence. assert (N' : ll_tokens l' <> []) by congruence.
  destruct (run_inv id l lg r m R N E1) as (_ & _ & _ & _ & TM & _). destruct (run_inv id' l' lg' r' m' R' N' E2) as (_ & _ & _ & _ & TM' & _).
  split; [congruence|]. exists (lg ++ map assignment_entry (go_assignments g)), (lg' ++ map assignment_entry (go_assignments g')).
  split; [eapply H_run; eassumption|]. split; [eapply H_run; eassumption|]. apply Forall2_app; [exact L|]. now apply entries_corr.
Qed.

Lemma layers_run rs rs' : layers_corr Val rs rs' -> forall l l', lines_corr Val l l' ->
  results_corr (lines_corr Val) (run_layers l rs) (run_layers l' rs').
Proof.
  induction 1 as [|id id' t r r' rs rs' HR HS IH]; intros l l' HL; [exact HL|]. cbn [run_layers].
  eapply corr_bind; [apply run_corr; [exact HL|apply HR; exact HL]|]. exact IH.
Qed.

(** ** Resolvers *)

Lemma whole_corr id id' l l' : ll_tokens l = ll_tokens l' -> sels_corr l l' (whole id l) (whole id' l').
Proof. intros T. unfold sels_corr, whole, line_of. simpl. now rewrite T. Qed.

Lemma finish_corr {A B} (Q : A -> B -> Prop) t l l' (f : A -> den t) (f' : B -> den t) xs ys :
  (forall a b, Q a b -> Val t (f a) (f' b)) -> Forall2 (found_corr l l' Q) xs ys ->
  Forall2 (assignments_corr Val) (finish_with xs f) (finish_with ys f').
Proof.
  intros HF HX. eapply Forall2_maps; [exact HX|]. intros [s a] [s' b] ((_ & _ & E1 & E2) & K). simpl in *. split; [exact E1|]. split; [exact E2|].
  simpl. auto.
Qed.

Lemma find_resolver_corr {A B} (Q : A -> B -> Prop) t m m' f f' :
  (forall l l', lines_corr Val l l' -> matchers_corr Q l l' m m') -> (forall a b, Q a b -> Val t (f a) (f' b)) ->
  resolvers_corr Val (find_resolver t m f) (find_resolver t m' f').
Proof.
  intros HM HF id id' l l' HL. pose proof (lines_corr_log _ _ HL) as (T & _). unfold find_resolver.
  eapply corr_bind; [eapply find_by_corr; [apply whole_corr, T|apply HM, HL]|].
  intros xs ys HX. split; [reflexivity|]. simpl. eapply finish_corr; eassumption.
Qed.

Lemma find_both_resolver_corr {A B} (Q : A -> B -> Prop) t m m' f f' :
  (forall l l', lines_corr Val l l' -> matchers_corr Q l l' m m') -> (forall a b, Q a b -> Val t (f a) (f' b)) ->
  resolvers_corr Val (find_both_resolver t m f) (find_both_resolver t m' f').
Proof.
  intros HM HF id id' l l' HL. pose proof (lines_corr_log _ _ HL) as (T & _). unfold find_both_resolver.
  eapply corr_bind; [eapply find_both_corr; [apply whole_corr, T|apply HM, HL]|].
  intros xs ys HX. split; [reflexivity|]. simpl. eapply finish_corr; eassumption.
Qed.

Lemma text_corr l l' : ll_tokens l = ll_tokens l' -> matchers_corr eq l l' x_token_text x_token_text.
Proof.
  intros T d. unfold x_token_text. rewrite (dir_text_corr l l' T). destruct (dir_text_token d l') as [[[x i]|]|p|]; simpl; auto.
  constructor; [split; reflexivity|constructor].
Qed.

Lemma map_get_corr {A B} (Q : A -> B -> Prop) k xs ys : Forall2 (fun e e' => fst e = fst e' /\ Q (snd e) (snd e')) xs ys ->
  opts_corr Q (map_get str_eqb xs k) (map_get str_eqb ys k).
Proof.
  induction 1 as [|[a x] [b y] xs ys [E K] HF IH]; [exact I|]. simpl in E, K. subst b. simpl. destruct (str_eqb a k); simpl; auto.
Qed.

Lemma text_match_corr t (m m' : TextMatch t) : case_sensitive m = case_sensitive m' ->
  Forall2 (fun e e' => fst e = fst e' /\ Forall2 (Val t) (snd e) (snd e')) (lookup m) (lookup m') ->
  resolvers_corr Val (text_match_go m) (text_match_go m').
Proof.
  intros EC HK id id' l l' HL. pose proof (lines_corr_log _ _ HL) as (T & _). unfold text_match_go, no_retain.
  eapply corr_bind with (Q := Forall2 (assignments_corr Val)); [|intros a b H; split; [reflexivity|exact H]].
  eapply corr_bind; [eapply find_by_corr; [apply whole_corr, T|apply text_corr, T]|]. intros xs ys HX. simpl.
  eapply Forall2_flat_map; [exact HX|]. intros [s x] [s' y] ((_ & _ & E1 & E2) & K). simpl in E1, E2, K. subst y. rewrite <- EC.
  pose proof (map_get_corr _ (if case_sensitive m then x else u_lower x) _ _ HK) as KG.
  destruct (map_get str_eqb (lookup m) _), (map_get str_eqb (lookup m') _); simpl in KG; try contradiction; [|constructor].
  eapply Forall2_maps; [exact KG|]. intros v w KV. split; [exact E1|]. split; [exact E2|exact KV].
Qed.

Lemma assigned_same t lg lg' : (forall v w, Val t v w -> v = w) -> logs_corr lg lg' -> assigned t lg = assigned t lg'.
Proof.
  intros HE L. pose proof (assigned_corr t lg lg' L) as H. induction H as [|[r v] [r' w] xs ys [E K] HF IH]; [reflexivity|].
  simpl in E, K. subst r'. rewrite (HE v w K). now f_equal.
Qed.

Lemma resolver_of_corr s : (forall t, In t (reads s) -> forall v w, Val t v w -> v = w) -> (forall v, Val (writes s) v v) ->
  resolvers_corr Val (resolver_of s) (resolver_of s).
Proof.
  intros HR HW id id' l l' HL. pose proof (lines_corr_log _ _ HL) as (T & lg & lg' & (H & H') & (R & R') & L).
  rewrite (resolver_same s id l id' l').
  - apply corr_refl. intros g. split; [reflexivity|]. apply Forall2_refl. intros x. split; [reflexivity|]. split; [reflexivity|apply HW].
  - unfold contents. now rewrite T.
  - intros has A m _ HM. apply (lib_matcher_ext _ _ _ _ l lg l' lg' HM); auto.
    + intros t Ht. apply assigned_same; auto.
    + intros _ i. now apply attributed_corr.
  - intros t Ht. apply (query_ext l lg l' lg'); auto. apply assigned_same; auto.
  - intros tg incs HI. apply (show_ext tg l lg l' lg'); auto. intros x Hx. apply assigned_same; auto.
Qed.

(** ** Resolvers of users *)

Section Calls.
Context (l l' : LLLine) (lg lg' : list entry).
Context (T : ll_tokens l = ll_tokens l') (R : Repr l lg) (R' : Repr l' lg') (L : logs_corr lg lg').

Lemma at_corr id id' r : sels_corr l l' (at_range (mkRc id l) r) (at_range (mkRc id' l') r).
Proof. unfold sels_corr, at_range, line_of. auto. Qed.

Lemma by_corr {A B} (Q : A -> B -> Prop) go go' : (forall d, programs_corr Val Q (go d) (go' d)) ->
  matchers_corr Q l l' (matcher_by go) (matcher_by go').
Proof. intros H d. apply (execute_corr l l' lg lg' T R R' L). apply H. Qed.

Lemma seen_corr {A B} (Q : A -> B -> Prop) x y : found_corr l l' Q x y -> answers_corr Q (seen x) (seen y).
Proof. intros ((_ & _ & E1 & E2) & K). split; [|exact K]. unfold seen, range_of. simpl. congruence. Qed.

Lemma range_corr x y : sels_corr l l' x y -> range_of x = range_of y.
Proof. intros (_ & _ & E1 & E2). unfold range_of. congruence. Qed.

Lemma rmap_corr {A B C D} (Q : A -> B -> Prop) (Q' : C -> D -> Prop) f g x y :
  results_corr Q x y -> (forall a b, Q a b -> Q' (f a) (g b)) -> results_corr Q' (rmap f x) (rmap g y).
Proof. intros H K. eapply corr_bind; [exact H|]. intros a b Hab. simpl. auto. Qed.

Lemma seens_corr {A B} (Q : A -> B -> Prop) x y : results_corr (Forall2 (found_corr l l' Q)) x y ->
  results_corr (Forall2 (answers_corr Q)) (rmap (map seen) x) (rmap (map seen) y).
Proof. intros H. eapply rmap_corr; [exact H|]. intros a b K. eapply Forall2_maps; [exact K|]. apply seen_corr. Qed.

Lemma seen_opt_corr {A B} (Q : A -> B -> Prop) x y : results_corr (opts_corr (found_corr l l' Q)) x y ->
  results_corr (opts_corr (answers_corr Q)) (rmap (option_map seen) x) (rmap (option_map seen) y).
Proof. intros H. eapply rmap_corr; [exact H|]. intros [a|] [b|] K; simpl in *; try contradiction; auto. now apply seen_corr. Qed.

Lemma range_opt_corr x y : opts_corr (sels_corr l l') x y -> option_map range_of x = option_map range_of y.
Proof. destruct x, y; simpl; intros K; try contradiction; auto. f_equal. now apply range_corr. Qed.

Lemma perform_corr {X Y} (Q : X -> Y -> Prop) (c : call X) (c' : call Y) id id' : calls_corr Val Q c c' ->
  results_corr Q (perform (mkRc id l) c) (perform (mkRc id' l') c').
Proof.
  intros H. destruct H; cbn [perform].
  - eapply rmap_corr; [eapply split_by_corr; [apply at_corr|apply by_corr; eassumption]|].
    intros a b K. induction K; simpl; [reflexivity|]. f_equal; [now apply range_corr|assumption].
  - eapply seens_corr, find_by_corr; [apply at_corr|now apply by_corr].
  - eapply seen_opt_corr, hd_corr, find_by_corr; [apply at_corr|now apply by_corr].
  - eapply seens_corr, find_both_corr; [apply at_corr|now apply by_corr].
  - eapply seens_corr, match_forwards_corr; [exact T|apply at_corr|now apply by_corr].
  - eapply seen_opt_corr, hd_corr, match_forwards_corr; [exact T|apply at_corr|now apply by_corr].
  - eapply seens_corr, match_backwards_corr; [apply at_corr|now apply by_corr].
  - eapply seen_opt_corr, hd_corr, match_backwards_corr; [apply at_corr|now apply by_corr].
  - eapply rmap_corr; [apply (after_corr l l' T); apply at_corr|]. apply range_opt_corr.
  - eapply rmap_corr; [apply (split_with_corr l l'); try apply at_corr; reflexivity|].
    intros [a1 a2] [b1 b2] [K1 K2]. simpl in *. f_equal; now apply range_opt_corr.
  - eapply rmap_corr; [eapply trim_corr; [apply at_corr|apply by_corr; eassumption]|apply range_opt_corr].
  - eapply rmap_corr; [eapply trim_corr; [apply at_corr|apply by_corr; eassumption]|apply range_opt_corr].
  - eapply rmap_corr; [eapply trim_corr; [apply at_corr|apply by_corr; eassumption]|apply range_opt_corr].
Qed.

Lemma carry_out_corr {t} (c c' : code t) id id' : codes_corr Val c c' ->
  results_corr (gos_corr Val) (carry_out (mkRc id l) c) (carry_out (mkRc id' l') c').
Proof.
  induction 1 as [out out' keeps HO|X Y Q c c' k k' HC HK IH|p]; cbn [carry_out].
  - split; [reflexivity|]. simpl. eapply Forall2_maps; [exact HO|]. intros [r v] [r' w] [E K]. simpl in E, K. subst r'.
    split; [reflexivity|]. split; [reflexivity|exact K].
  - eapply corr_bind; [apply perform_corr, HC|]. exact IH.
  - reflexivity.
Qed.
End Calls.

Lemma resolver_by_corr {t} (c c' : LRange -> code t) : (forall r, codes_corr Val (c r) (c' r)) ->
  resolvers_corr Val (resolver_by c) (resolver_by c').
Proof.
  intros HC id id' l l' HL. pose proof (lines_corr_log _ _ HL) as (T & lg & lg' & (H & H') & (R & R') & L).
  unfold resolver_by, whole, range_of. cbn [sel_line start_idx end_idx]. rewrite <- T. apply (carry_out_corr l l' lg lg'); auto.
Qed.

(** ** Creation *)

Lemma inputs_tokens_corr sz it it' : inputs_corr Val it it' -> input_ltokens sz it = input_ltokens sz it'.
Proof. destruct it, it'; simpl; intros H; try contradiction; destruct H as [-> _]; reflexivity. Qed.

Lemma inputs_attrs_corr it it' : inputs_corr Val it it' -> Forall2 (attributes_corr Val) (input_attrs it) (input_attrs it').
Proof. destruct it, it'; simpl; intros H; try contradiction; apply H. Qed.

Lemma inputs_wf it it' : inputs_corr Val it it' -> wf_input it /\ wf_input it'.
Proof.
  intros H. apply inputs_attrs_corr in H. unfold wf_input. induction H as [|a a' xs ys (t & v & w & -> & -> & K) HF [IH1 IH2]]; [split; constructor|].
  split; constructor; auto; unfold wf_attribute; eauto.
Qed.

Lemma create_step_corr tg sz it it' st st' : inputs_corr Val it it' -> cs_tokens st = cs_tokens st' -> cs_size st = cs_size st' ->
  results_corr (fun x y => cs_tokens x = cs_tokens y /\ cs_size x = cs_size y) (create_step tg sz st it) (create_step tg sz st' it').
Proof.
  intros HI HT HS. unfold create_step. rewrite (inputs_tokens_corr sz it it' HI), HT, HS.
  destruct (input_ltokens sz it') as [[|x g]|p|]; cbn [bind]; try reflexivity.
  destruct (foldM (push_lltoken tg) (x :: g) (cs_tokens st', cs_size st')) as [[toks size]|p|]; cbn [bind]; try reflexivity.
  destruct (sub_usize (length toks) 1); cbn [bind]; try reflexivity. split; reflexivity.
Qed.

Lemma create_fold_corr tg sz input input' : Forall2 (inputs_corr Val) input input' -> forall st st', cs_tokens st = cs_tokens st' -> cs_size st = cs_size st' ->
  results_corr (fun x y => cs_tokens x = cs_tokens y /\ cs_size x = cs_size y) (foldM (create_step tg sz) input st) (foldM (create_step tg sz) input' st').
Proof.
  induction 1 as [|it it' input input' HI HF IH]; intros st st' HT HS; cbn [foldM]; [split; assumption|].
  eapply corr_bind; [apply create_step_corr; eassumption|]. intros x y [E1 E2]. apply IH; assumption.
Qed.

Lemma tokens_log_corr : (forall v, Val TTextTag v v) -> (forall v, Val TChar v v) -> forall ts i, logs_corr (tokens_log i ts) (tokens_log i ts).
Proof.
  intros H1 H2 ts. induction ts as [|x ts IH]; intros i; [constructor|]. cbn [tokens_log]. apply Forall2_app; [|apply IH].
  destruct x as [[|c [|c2 s]] tag|]; simpl; repeat constructor; auto.
Qed.

Lemma input_log_corr input input' : Forall2 (inputs_corr Val) input input' -> forall groups i, logs_corr (input_log i groups input) (input_log i groups input').
Proof.
  induction 1 as [|it it' input input' HI HF IH]; intros [|g groups] i; try constructor. cbn [input_log]. apply Forall2_app; [|apply IH].
  eapply Forall2_maps; [apply inputs_attrs_corr, HI|]. intros a a' (t & v & w & -> & -> & K). split; [reflexivity|]. simpl. now constructor.
Qed.

Lemma create_corr tg sz input input' : (forall v, Val TTextTag v v) -> (forall v, Val TChar v v) -> Forall2 (inputs_corr Val) input input' ->
  results_corr (lines_corr Val) (create_line_from_input_tokens tg input sz) (create_line_from_input_tokens tg input' sz).
Proof.
  intros V1 V2 HF.
  assert (W : Forall wf_input input /\ Forall wf_input input').
  { induction HF as [|it it' xs ys HI HF [IH1 IH2]]; [split; constructor|]. apply inputs_wf in HI as [? ?]. split; constructor; assumption. }
  destruct W as [W W'].
  destruct (foldM (create_step tg sz) input (mkCS [] [] 0%N)) as [st|p|] eqn:E.
  - destruct (create_fold_inv tg sz input (mkCS [] [] 0%N) st (usize_mod_pos tg) E) as (groups & G1 & G2 & G3).
    assert (G1' : Forall2 (fun it g => input_ltokens sz it = Ok g) input' groups).
    { clear - G1 HF. revert input' HF. induction G1 as [|it g input groups H1 H2 IH]; intros input' HF; inversion HF; subst; constructor.
      - erewrite <- inputs_tokens_corr; eassumption.
      - auto. }
    destruct (create_ok tg sz input groups W G1 G2 G3) as (l & EL & TL & _). destruct (create_ok tg sz input' groups W' G1' G2 G3) as (l' & EL' & TL' & _).
    rewrite EL, EL'. split; [congruence|]. exists (creation_log (map (map fst) groups) input), (creation_log (map (map fst) groups) input').
    split; [eapply H_create; eassumption|]. split; [eapply H_create; eassumption|]. apply Forall2_app; [now apply tokens_log_corr|now apply input_log_corr].
  - pose proof (create_fold_corr tg sz input input' HF (mkCS [] [] 0%N) (mkCS [] [] 0%N) eq_refl eq_refl) as K. rewrite E in K.
    unfold create_line_from_input_tokens. rewrite E. destruct (foldM (create_step tg sz) input' _); simpl in K; try contradiction. now subst.
  - pose proof (create_fold_corr tg sz input input' HF (mkCS [] [] 0%N) (mkCS [] [] 0%N) eq_refl eq_refl) as K. rewrite E in K.
    unfold create_line_from_input_tokens. rewrite E. destruct (foldM (create_step tg sz) input' _); simpl in K; try contradiction. exact I.
Qed.
End Val.

(** C88: queries, finds and displays of lines that differ only in values. *)
Lemma thm_C88_answers :
  forall (Val : forall t, den t -> den t -> Prop) l l',
    lines_corr Val l l' ->
    (forall t, results_corr (Forall2 (rows_corr Val t)) (query l t) (query l' t))
    /\ (forall tg incs incs', Forall2 (blind_shown Val) incs incs' -> show tg l incs = show tg l' incs')
    /\ (forall A B (Q : A -> B -> Prop) m m', matchers_corr Q l l' m m' ->
          results_corr (Forall2 (finds_corr Q)) (find l m) (find l' m')).
Proof.
  intros Val l l' HL. apply lines_corr_log in HL as (T & lg & lg' & _ & (R & R') & L). split; [|split].
  - intros t. eapply query_corr; eassumption.
  - intros tg incs incs' H. eapply show_corr; eassumption.
  - intros A B Q m m' H. apply find_corr; assumption.
Qed.

(** C88: exchanging the values by a function. *)
Lemma thm_C88_exchanged :
  forall (f : forall t, den t -> den t) l l' t,
    lines_corr (fun t v w => w = f t v) l l' ->
    query l' t = rmap (map (fun '(r, text, vs) => (r, text, map (f t) vs))) (query l t).
Proof.
  intros f l l' t HL. destruct (thm_C88_answers _ l l' HL) as (H & _). specialize (H t).
  destruct (query l t) as [q|p|], (query l' t) as [q'|p'|]; simpl in *; try contradiction; try congruence.
  unfold rmap. simpl. f_equal. induction H as [|[[r x] vs] [[r' x'] vs'] q q' [E K] HF IH]; simpl; [reflexivity|].
  simpl in E, K. injection E as <- <-. f_equal; [|exact IH]. f_equal. clear - K. induction K; simpl; congruence.
Qed.

(** C88: the library's matchers. *)
Lemma thm_C88_matchers :
  forall (Val : forall t, den t -> den t -> Prop) l l',
    lines_corr Val l l' ->
    (forall t, matchers_corr (Val t) l l' (x_attr t) (x_attr t))
    /\ (forall t eqT eqT' v v', blind_eq Val t eqT eqT' v v' -> matchers_corr eq l l' (x_attr_eq t eqT v) (x_attr_eq t eqT' v'))
    /\ (forall t eqT eqT' set set', blind_set Val t eqT eqT' set set' ->
          matchers_corr (Val t) l l' (x_token_has_any t eqT set) (x_token_has_any t eqT' set'))
    /\ matchers_corr eq l l' x_token_text x_token_text
    /\ (forall A B C D (Q1 : A -> B -> Prop) (Q2 : C -> D -> Prop) m1 m1' m2 m2',
          matchers_corr Q1 l l' m1 m1' -> matchers_corr Q2 l l' m2 m2' ->
          matchers_corr (both Q1 Q2) l l' (x_all2 m1 m2) (x_all2 m1' m2')
          /\ matchers_corr (either2 Q1 Q2) l l' (x_any_of2 m1 m2) (x_any_of2 m1' m2')
          /\ matchers_corr (both Q1 Q2) l l' (x_seq2 m1 m2) (x_seq2 m1' m2'))
    /\ (forall A B C D E F (Q1 : A -> B -> Prop) (Q2 : C -> D -> Prop) (Q3 : E -> F -> Prop) m1 m1' m2 m2' m3 m3',
          matchers_corr Q1 l l' m1 m1' -> matchers_corr Q2 l l' m2 m2' -> matchers_corr Q3 l l' m3 m3' ->
          matchers_corr (both (both Q1 Q2) Q3) l l' (x_all3 m1 m2 m3) (x_all3 m1' m2' m3')
          /\ matchers_corr (either3 Q1 Q2 Q3) l l' (x_any_of3 m1 m2 m3) (x_any_of3 m1' m2' m3')
          /\ matchers_corr (both (both Q1 Q2) Q3) l l' (x_seq3 m1 m2 m3) (x_seq3 m1' m2' m3')).
Proof.
  intros Val l l' HL. apply lines_corr_log in HL as (T & lg & lg' & _ & (R & R') & L).
  split; [|split; [|split; [|split; [|split]]]].
  - intros t d. eapply dir_attr_corr; eassumption.
  - intros t eqT eqT' v v' H d. unfold x_attr_eq. rewrite (dir_attr_eq_corr Val l l' lg lg' T R R' L t eqT eqT' v v' d H).
    apply corr_refl. intros a. apply Forall2_refl. intros x. split; reflexivity.
  - intros t eqT eqT' set set' H d. eapply dir_one_of_corr; eassumption.
  - now apply text_corr.
  - intros. split; [|split]; [apply all2_corr|apply any2_corr|apply seq2_corr]; assumption.
  - intros. split; [|split]; [apply all3_corr|apply any3_corr|apply seq3_corr]; assumption.
Qed.

(** C88: matchers of users that only pass values on. *)
Lemma thm_C88_user_matchers :
  forall (Val : forall t, den t -> den t -> Prop) l l' A B (Q : A -> B -> Prop) go go',
    lines_corr Val l l' -> (forall d, programs_corr Val Q (go d) (go' d)) ->
    matchers_corr Q l l' (matcher_by go) (matcher_by go').
Proof.
  intros Val l l' A B Q go go' HL HP. apply lines_corr_log in HL as (T & lg & lg' & _ & (R & R') & L).
  eapply by_corr; eassumption.
Qed.

(** C88: selections with the same ends. *)
Lemma thm_C88_selections :
  forall (Val : forall t, den t -> den t -> Prop) l l' s s' A B (Q : A -> B -> Prop) m m',
    lines_corr Val l l' -> sels_corr l l' s s' -> matchers_corr Q l l' m m' ->
    let found := fun (x : LLSelection * A) (y : LLSelection * B) => sels_corr l l' (fst x) (fst y) /\ Q (snd x) (snd y) in
    results_corr (Forall2 found) (find_by s m) (find_by s' m')
    /\ results_corr (opts_corr found) (find_first_by s m) (find_first_by s' m')
    /\ results_corr (Forall2 found) (find_by_forwards_and_backwards s m) (find_by_forwards_and_backwards s' m')
    /\ results_corr (Forall2 (sels_corr l l')) (split_by s m) (split_by s' m')
    /\ results_corr (Forall2 found) (match_forwards s m) (match_forwards s' m')
    /\ results_corr (opts_corr found) (match_first_forwards s m) (match_first_forwards s' m')
    /\ results_corr (Forall2 found) (match_backwards s m) (match_backwards s' m')
    /\ results_corr (opts_corr found) (match_first_backwards s m) (match_first_backwards s' m')
    /\ results_corr (opts_corr (sels_corr l l')) (trim_start s m) (trim_start s' m')
    /\ results_corr (opts_corr (sels_corr l l')) (trim_end s m) (trim_end s' m')
    /\ results_corr (opts_corr (sels_corr l l')) (trim s m) (trim s' m')
    /\ results_corr (opts_corr (sels_corr l l')) (sel_after s) (sel_after s').
Proof.
  intros Val l l' s s' A B Q m m' HL HS HM found. apply lines_corr_log in HL as (T & _).
  assert (F1 : results_corr (Forall2 found) (find_by s m) (find_by s' m')) by (apply find_by_corr; assumption).
  assert (F2 : results_corr (Forall2 found) (match_forwards s m) (match_forwards s' m')) by (apply match_forwards_corr; assumption).
  assert (F3 : results_corr (Forall2 found) (match_backwards s m) (match_backwards s' m')) by (apply match_backwards_corr; assumption).
  split; [exact F1|]. split; [now apply hd_corr|]. split; [apply find_both_corr; assumption|]. split; [eapply split_by_corr; eassumption|].
  split; [exact F2|]. split; [now apply hd_corr|]. split; [exact F3|]. split; [now apply hd_corr|].
  split; [eapply trim_corr; eassumption|]. split; [eapply trim_corr; eassumption|]. split; [eapply trim_corr; eassumption|].
  apply after_corr; assumption.
Qed.

(** C88: resolvers that only pass values on, those of the library where nothing they look at was exchanged. *)
Lemma thm_C88_resolvers :
  forall (Val : forall t, den t -> den t -> Prop),
    (forall t A B (Q : A -> B -> Prop) m m' f f',
       (forall l l', lines_corr Val l l' -> matchers_corr Q l l' m m') -> (forall a b, Q a b -> Val t (f a) (f' b)) ->
       resolvers_corr Val (find_resolver t m f) (find_resolver t m' f')
       /\ resolvers_corr Val (find_both_resolver t m f) (find_both_resolver t m' f'))
    /\ (forall t (m m' : TextMatch t), case_sensitive m = case_sensitive m' ->
          Forall2 (fun e e' => fst e = fst e' /\ Forall2 (Val t) (snd e) (snd e')) (lookup m) (lookup m') ->
          resolvers_corr Val (text_match_go m) (text_match_go m'))
    /\ (forall t (c c' : LRange -> code t), (forall r, codes_corr Val (c r) (c' r)) ->
          resolvers_corr Val (resolver_by c) (resolver_by c'))
    /\ (forall words, (forall v, Val TKeyword v v) -> resolvers_corr Val (clause_keyword_go words) (clause_keyword_go words))
    /\ ((forall v w, Val TKeyword v w -> v = w) -> (forall v w, Val TTextTag v w -> v = w) -> (forall v, Val TClause v v) ->
          resolvers_corr Val clause_go clause_go)
    /\ (forall dict noun, (forall v w, Val TTextTag v w -> v = w) -> (forall v, Val TPos v v) ->
          resolvers_corr Val (pos_go dict noun) (pos_go dict noun))
    /\ (forall parse r, (forall v w, Val TTextTag v w -> v = w) -> (forall v w, Val TChar v w -> v = w) -> (forall v, Val TAmount v v) ->
          resolvers_corr Val (amount_go parse r) (amount_go parse r)).
Proof.
  intros Val. split; [|split; [|split; [|split; [|split; [|split]]]]].
  - intros t A B Q m m' f f' HM HF. split; [eapply find_resolver_corr|eapply find_both_resolver_corr]; eassumption.
  - intros t m m'. apply text_match_corr.
  - intros t c c'. apply resolver_by_corr.
  - intros words HV. apply (resolver_of_corr Val (Lib (RunClauseKeyword words))); [intros t []|exact HV].
  - intros K1 K2 HV. apply (resolver_of_corr Val (Lib RunClause)); [intros t [<-|[<-|[]]]; assumption|exact HV].
  - intros dict noun K HV. apply (resolver_of_corr Val (Lib (RunPOSTag dict noun))); [intros t [<-|[]]; assumption|exact HV].
  - intros parse r K1 K2 HV. apply (resolver_of_corr Val (Lib (RunAmount parse r))); [intros t [<-|[<-|[]]]; assumption|exact HV].
Qed.

(** C88: lines made from inputs that differ only in the values of their attributes, by resolvers that only
    pass values on, differ only in values. *)
Lemma thm_C88_layers :
  forall (Val : forall t, den t -> den t -> Prop) tg sz input input' rs rs',
    (forall v, Val TTextTag v v) -> (forall v, Val TChar v v) ->
    Forall2 (inputs_corr Val) input input' -> layers_corr Val rs rs' ->
    results_corr (lines_corr Val) (l <- create_line_from_input_tokens tg input sz;; run_layers l rs)
      (l <- create_line_from_input_tokens tg input' sz;; run_layers l rs').
Proof.
  intros Val tg sz input input' rs rs' V1 V2 HI HR. eapply corr_bind; [apply create_corr; eassumption|].
  intros l l' HL. apply layers_run; assumption.
Qed.

(** C88: a further run. *)
Lemma thm_C88_run :
  forall (Val : forall t, den t -> den t -> Prop) t (r r' : Resolver t) id id' l l',
    lines_corr Val l l' -> results_corr (gos_corr Val) (r (whole id l)) (r' (whole id' l')) ->
    results_corr (lines_corr Val) (run id l r) (run id' l' r').
Proof. intros Val t r r' id id' l l' HL HG. now apply run_corr. Qed.
End ThmOpaque.
