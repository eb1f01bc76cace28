(** Lemmas about the basic vocabulary. *)

From Verif Require Export Base.

Lemma bind_ok_inv {A B} (x : res A) (f : A -> res B) b :
  bind x f = Ok b -> exists a, x = Ok a /\ f a = Ok b.
Proof. destruct x; simpl; intros; try discriminate. eauto. Qed.

Lemma rmap_ok_inv {A B} (f : A -> B) x b :
  rmap f x = Ok b -> exists a, x = Ok a /\ b = f a.
Proof. unfold rmap. intro H. apply bind_ok_inv in H. destruct H as (a & ? & E). inversion E. eauto. Qed.

Lemma expect_ok_inv {A} p (o : option A) a : expect p o = Ok a -> o = Some a.
Proof. destruct o; simpl; congruence. Qed.

Ltac inv_bind H :=
  let a := fresh "a" in let E := fresh "E" in
  apply bind_ok_inv in H; destruct H as (a & E & H).

Lemma Ok_inj {A} (a b : A) : Ok a = Ok b -> a = b.
Proof. congruence. Qed.

(** ** mapM *)

Lemma mapM_Forall2 {A B} (f : A -> res B) l bs :
  mapM f l = Ok bs <-> Forall2 (fun a b => f a = Ok b) l bs.
Proof.
  revert bs; induction l as [|a l IH]; simpl; intros bs.
  - split; intro H; [inversion H; constructor | inversion H; reflexivity].
  - split; intro H.
    + inv_bind H. inv_bind H. apply Ok_inj in H; subst. constructor; auto. now apply IH.
    + inversion H; subst. rewrite H2; simpl.
      apply IH in H4. rewrite H4. reflexivity.
Qed.

Lemma mapM_ok {A B} (f : A -> res B) (g : A -> B) l :
  (forall a, In a l -> f a = Ok (g a)) -> mapM f l = Ok (map g l).
Proof.
  induction l as [|a l IH]; simpl; intros H; auto.
  rewrite (H a) by auto. simpl. rewrite IH; auto.
Qed.

Lemma mapM_app {A B} (f : A -> res B) l1 l2 :
  mapM f (l1 ++ l2) = (b1 <- mapM f l1;; b2 <- mapM f l2;; Ok (b1 ++ b2)).
Proof.
  induction l1 as [|a l IH]; simpl.
  - destruct (mapM f l2); reflexivity.
  - destruct (f a); simpl; auto. rewrite IH.
    destruct (mapM f l); simpl; auto. destruct (mapM f l2); reflexivity.
Qed.

Lemma mapM_ext {A B} (f g : A -> res B) l :
  (forall a, In a l -> f a = g a) -> mapM f l = mapM g l.
Proof.
  induction l as [|a l IH]; simpl; intros H; auto.
  rewrite (H a) by auto. rewrite IH; auto.
Qed.

(** If every element is a value or a panic then so is [mapM]. *)
Lemma mapM_panic_inv {A B} (f : A -> res B) l p :
  mapM f l = Panic p -> exists a, In a l /\ f a = Panic p.
Proof.
  induction l as [|a l IH]; simpl; intros H; try discriminate.
  destruct (f a) eqn:E; simpl in H; try discriminate.
  - destruct (mapM f l) eqn:E2; simpl in H; try discriminate.
    inversion H; subst. destruct IH as (x & ? & ?); eauto.
  - inversion H; subst. eauto.
Qed.

Lemma mapM_ok_iff {A B} (f : A -> res B) l :
  (exists bs, mapM f l = Ok bs) <-> (forall a, In a l -> exists b, f a = Ok b).
Proof.
  induction l as [|a l IH]; simpl.
  - split; [intros _ ? [] | intros _; eauto].
  - split.
    + intros (bs & H). inv_bind H. inv_bind H. intros x [->|Hx]; eauto.
      apply IH; eauto.
    + intros H. destruct (H a) as (b & Hb); auto. rewrite Hb; simpl.
      destruct (proj2 IH) as (bs & Hbs); auto. rewrite Hbs; simpl; eauto.
Qed.

Lemma flat_mapM_ok {A B} (f : A -> res (list B)) (g : A -> list B) l :
  (forall a, In a l -> f a = Ok (g a)) -> flat_mapM f l = Ok (flat_map g l).
Proof.
  intros H. unfold flat_mapM, rmap. rewrite (mapM_ok f g l H). simpl.
  now rewrite flat_map_concat_map.
Qed.

Lemma flat_mapM_ok_inv {A B} (f : A -> res (list B)) l bs :
  flat_mapM f l = Ok bs ->
  exists bss, Forall2 (fun a b => f a = Ok b) l bss /\ bs = concat bss.
Proof.
  unfold flat_mapM; intro H. apply rmap_ok_inv in H. destruct H as (bss & H & ->).
  exists bss. split; auto. now apply mapM_Forall2.
Qed.

Lemma flat_mapM_cons {A B} (f : A -> res (list B)) a l :
  flat_mapM f (a :: l) = (b <- f a;; bs <- flat_mapM f l;; Ok (b ++ bs)).
Proof.
  unfold flat_mapM, rmap; simpl. destruct (f a); simpl; auto.
  destruct (mapM f l); reflexivity.
Qed.

Lemma flat_mapM_app {A B} (f : A -> res (list B)) l1 l2 :
  flat_mapM f (l1 ++ l2) = (b1 <- flat_mapM f l1;; b2 <- flat_mapM f l2;; Ok (b1 ++ b2)).
Proof.
  induction l1 as [|a l IH]; simpl.
  - unfold flat_mapM; simpl. destruct (rmap _ (mapM f l2)); reflexivity.
  - rewrite !flat_mapM_cons, IH. destruct (f a); simpl; auto.
    destruct (flat_mapM f l); simpl; auto.
    destruct (flat_mapM f l2); simpl; auto. now rewrite app_assoc.
Qed.

Lemma flat_mapM_ext {A B} (f g : A -> res (list B)) l :
  (forall a, In a l -> f a = g a) -> flat_mapM f l = flat_mapM g l.
Proof. intros H. unfold flat_mapM. now rewrite (mapM_ext f g l H). Qed.

Lemma flat_mapM_ok_iff {A B} (f : A -> res (list B)) l :
  (exists bs, flat_mapM f l = Ok bs) <-> (forall a, In a l -> exists b, f a = Ok b).
Proof.
  rewrite <- mapM_ok_iff. unfold flat_mapM, rmap. split; intros (bs & H).
  - inv_bind H. eauto.
  - rewrite H. simpl. eauto.
Qed.

Lemma flat_mapM_panic_inv {A B} (f : A -> res (list B)) l p :
  flat_mapM f l = Panic p -> exists a, In a l /\ f a = Panic p.
Proof.
  unfold flat_mapM, rmap. intros H. destruct (mapM f l) eqn:E; simpl in H; try discriminate.
  inversion H; subst. now apply mapM_panic_inv.
Qed.

Lemma flat_mapM_In {A B} (f : A -> res (list B)) l bs b :
  flat_mapM f l = Ok bs -> In b bs -> exists a bl, In a l /\ f a = Ok bl /\ In b bl.
Proof.
  intros H Hin. apply flat_mapM_ok_inv in H. destruct H as (bss & H & ->).
  induction H as [|a bl l bss Ha H IH]; simpl in *; [easy|].
  apply in_app_or in Hin. destruct Hin as [Hin|Hin].
  - exists a, bl; auto.
  - destruct (IH Hin) as (a' & bl' & ? & ? & ?). exists a', bl'; auto.
Qed.

Lemma flat_mapM_In_rev {A B} (f : A -> res (list B)) l bs a bl b :
  flat_mapM f l = Ok bs -> In a l -> f a = Ok bl -> In b bl -> In b bs.
Proof.
  intros H Ha Hf Hb. apply flat_mapM_ok_inv in H. destruct H as (bss & H & ->).
  induction H as [|a' bl' l bss Ha' H IH]; simpl in *; [easy|].
  apply in_or_app. destruct Ha as [->|Ha].
  - left. rewrite Hf in Ha'. inversion Ha'; subst; auto.
  - right; auto.
Qed.

(** ** foldM *)

Lemma foldM_app {S A} (f : S -> A -> res S) l1 l2 s :
  foldM f (l1 ++ l2) s = (s' <- foldM f l1 s;; foldM f l2 s').
Proof.
  revert s; induction l1 as [|a l IH]; simpl; intros s; auto.
  destruct (f s a); simpl; auto.
Qed.

Lemma foldM_invariant {S A} (f : S -> A -> res S) (I : S -> Prop) l :
  (forall s a s', I s -> In a l -> f s a = Ok s' -> I s') ->
  forall s s', I s -> foldM f l s = Ok s' -> I s'.
Proof.
  induction l as [|a l IH]; simpl; intros Hstep s s' HI H.
  - inversion H; subst; auto.
  - inv_bind H. apply (IH (fun s a s' Hs Ha => Hstep s a s' Hs (or_intror Ha)) a0 s'); auto.
    apply (Hstep s a a0); auto.
Qed.

Lemma foldM_map {S A B} (f : S -> B -> res S) (g : A -> B) l s :
  foldM f (map g l) s = foldM (fun s a => f s (g a)) l s.
Proof.
  revert s; induction l as [|a l IH]; simpl; intros s; auto.
  destruct (f s (g a)); simpl; auto.
Qed.

Lemma foldM_ext {S A} (f g : S -> A -> res S) l :
  (forall s a, In a l -> f s a = g s a) -> forall s, foldM f l s = foldM g l s.
Proof.
  induction l as [|a l IH]; simpl; intros H s; auto.
  rewrite (H s a) by auto. destruct (g s a); simpl; auto.
Qed.

(** ** filter_map *)

Lemma filter_map_app {A B} (f : A -> option B) l1 l2 :
  filter_map f (l1 ++ l2) = filter_map f l1 ++ filter_map f l2.
Proof.
  induction l1 as [|a l IH]; simpl; auto. destruct (f a); simpl; congruence.
Qed.

Lemma in_filter_map {A B} (f : A -> option B) l b :
  In b (filter_map f l) <-> exists a, In a l /\ f a = Some b.
Proof.
  induction l as [|a l IH]; simpl.
  - split; [easy | intros (? & [] & _)].
  - destruct (f a) as [b'|] eqn:E; simpl; rewrite ?IH.
    + split.
      * intros [->|(x & ? & ?)]; eauto.
      * intros (x & [->|?] & ?); [left; congruence | right; eauto].
    + split.
      * intros (x & ? & ?); eauto.
      * intros (x & [->|?] & ?); [congruence | eauto].
Qed.

Lemma filter_map_map {A B C} (f : B -> option C) (g : A -> B) l :
  filter_map f (map g l) = filter_map (fun a => f (g a)) l.
Proof. induction l as [|a l IH]; simpl; auto. destruct (f (g a)); congruence. Qed.

Lemma map_filter_map {A B C} (f : A -> option B) (g : B -> C) l :
  map g (filter_map f l) = filter_map (fun a => option_map g (f a)) l.
Proof. induction l as [|a l IH]; simpl; auto. destruct (f a); simpl; congruence. Qed.

Lemma filter_filter_map {A B} (f : A -> option B) (p : B -> bool) l :
  filter p (filter_map f l) =
  filter_map (fun a => match f a with Some b => if p b then Some b else None | None => None end) l.
Proof.
  induction l as [|a l IH]; simpl; auto. destruct (f a); simpl; auto.
  destruct (p b); simpl; congruence.
Qed.

Lemma filter_map_ext {A B} (f g : A -> option B) l :
  (forall a, In a l -> f a = g a) -> filter_map f l = filter_map g l.
Proof.
  induction l as [|a l IH]; simpl; intros H; auto.
  rewrite (H a) by auto. rewrite IH; auto.
Qed.

Lemma filter_map_none {A B} (f : A -> option B) l :
  (forall a, In a l -> f a = None) -> filter_map f l = [].
Proof.
  induction l as [|a l IH]; simpl; intros H; auto. rewrite (H a) by auto. auto.
Qed.

Lemma filter_map_some {A B} (f : A -> B) l : filter_map (fun a => Some (f a)) l = map f l.
Proof. induction l; simpl; congruence. Qed.

Lemma flat_map_filter_map {A B} (f : A -> option B) l :
  flat_map (fun a => opt_list (f a)) l = filter_map f l.
Proof. induction l as [|a l IH]; simpl; auto. destruct (f a); simpl; congruence. Qed.

Lemma filter_map_filter {A B} (f : A -> option B) (p : A -> bool) l :
  filter_map f (filter p l) = filter_map (fun a => if p a then f a else None) l.
Proof.
  induction l as [|a l IH]; simpl; auto. destruct (p a); simpl; auto.
  destruct (f a); congruence.
Qed.

Lemma filter_map_length_perm {A B} (f : A -> option B) l1 l2 :
  Permutation l1 l2 -> Permutation (filter_map f l1) (filter_map f l2).
Proof.
  induction 1; simpl; auto.
  - destruct (f x); auto.
  - destruct (f x), (f y); auto. constructor.
  - etransitivity; eauto.
Qed.

Lemma filter_ext_in_iff {A} (f g : A -> bool) l :
  (forall a, In a l -> f a = g a) -> filter f l = filter g l.
Proof.
  induction l as [|a l IH]; simpl; intros H; auto.
  rewrite (H a) by auto. rewrite IH; auto.
Qed.

(** ** update_nth *)

Lemma update_nth_ok {A} p i (f : A -> A) l :
  i < length l ->
  exists l', update_nth p i f l = Ok l' /\ length l' = length l /\
    forall j, nth_error l' j = if Nat.eqb i j then option_map f (nth_error l j) else nth_error l j.
Proof.
  revert i; induction l as [|a l IH]; simpl; intros i Hi; [lia|].
  destruct i as [|i].
  - eexists; split; [reflexivity|]. split; auto. intros [|j]; reflexivity.
  - simpl. destruct (IH i) as (l' & E & Hl & Hn); [lia|]. rewrite E; simpl.
    eexists; split; [reflexivity|]. split; [simpl; lia|].
    intros [|j]; simpl; auto.
Qed.

Lemma update_nth_panic {A} p i (f : A -> A) l :
  length l <= i -> update_nth p i f l = Panic p.
Proof.
  revert i; induction l as [|a l IH]; simpl; intros i Hi; [now destruct i|].
  destruct i as [|i]; [lia|]. simpl. rewrite IH by lia. reflexivity.
Qed.

(** ** Association lists *)

Section HashMapLemmas.
  Context {K V : Type} (eqk : K -> K -> bool).
  Hypothesis eqk_spec : forall a b, eqk a b = true <-> a = b.

  Lemma map_entry_ok (m : list (K * V)) k dflt f v' :
    f (match map_get eqk m k with Some v => v | None => dflt end) = Ok v' ->
    exists m', map_entry eqk m k dflt f = Ok m' /\
      forall k', map_get eqk m' k' = if eqk k k' then Some v' else map_get eqk m k'.
  Proof.
    induction m as [|[k0 v0] m IH]; simpl; intros H.
    - rewrite H; simpl. eexists; split; [reflexivity|]. intros k'; simpl.
      destruct (eqk k k'); auto.
    - destruct (eqk k0 k) eqn:E.
      + rewrite H; simpl. eexists; split; [reflexivity|]. intros k'; simpl.
        apply eqk_spec in E; subst. destruct (eqk k k'); auto.
      + destruct (IH H) as (m' & Em & Hm). rewrite Em; simpl.
        eexists; split; [reflexivity|]. intros k'; simpl. rewrite Hm.
        destruct (eqk k0 k') eqn:E1, (eqk k k') eqn:E2; auto.
        apply eqk_spec in E1, E2; subst.
        assert (eqk k' k' = true) by now apply eqk_spec. congruence.
  Qed.

  Lemma map_insert_get (m : list (K * V)) k v k' :
    map_get eqk (map_insert eqk m k v) k' = if eqk k k' then Some v else map_get eqk m k'.
  Proof.
    induction m as [|[k0 v0] m IH]; simpl; auto.
    destruct (eqk k0 k) eqn:E; simpl.
    - apply eqk_spec in E; subst. destruct (eqk k k'); auto.
    - rewrite IH. destruct (eqk k0 k') eqn:E1, (eqk k k') eqn:E2; auto.
      apply eqk_spec in E1, E2; subst.
      assert (eqk k' k' = true) by now apply eqk_spec. congruence.
  Qed.
End HashMapLemmas.

(** ** Lists *)

Lemma nth_error_lt {A} (l : list A) i : i < length l -> exists a, nth_error l i = Some a.
Proof.
  intros H. destruct (nth_error l i) eqn:E; eauto.
  apply nth_error_None in E. lia.
Qed.

Lemma nth_error_lt_rev {A} (l : list A) i a : nth_error l i = Some a -> i < length l.
Proof. intros H. apply nth_error_Some. congruence. Qed.


Lemma flat_map_nil {A B} (f : A -> list B) l :
  (forall a, In a l -> f a = []) -> flat_map f l = [].
Proof.
  induction l as [|a l IH]; simpl; intros H; auto. rewrite (H a) by auto. auto.
Qed.

Lemma flat_map_ext_in {A B} (f g : A -> list B) l :
  (forall a, In a l -> f a = g a) -> flat_map f l = flat_map g l.
Proof.
  induction l as [|a l IH]; simpl; intros H; auto.
  rewrite (H a) by auto. rewrite IH; auto.
Qed.

Lemma Forall2_nth {A B} (P : A -> B -> Prop) l l' :
  Forall2 P l l' -> length l = length l' /\
  forall i a b, nth_error l i = Some a -> nth_error l' i = Some b -> P a b.
Proof.
  induction 1 as [|a b l l' HP H (IH1 & IH2)]; simpl.
  - split; auto. intros [|i]; simpl; discriminate.
  - split; [congruence|]. intros [|i] a' b'; simpl; intros.
    + congruence.
    + eauto.
Qed.
