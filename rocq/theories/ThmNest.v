(** C54: matchers of three components are nested matchers of two; [all] does not
    depend on the order of its components. *)

From Verif Require Export ThmMatch.

Section ThmNest.
Context {UC : Unicode} {U : UserTypes}.

Lemma flat_mapM_assoc {A B C} (f : A -> res (list B)) (g : B -> res (list C)) l cs :
  flat_mapM (fun a => bs <- f a;; flat_mapM g bs) l = Ok cs <->
  (bs <- flat_mapM f l;; flat_mapM g bs) = Ok cs.
Proof.
  revert cs. induction l as [|a l IH]; intros cs; [reflexivity|].
  rewrite !flat_mapM_cons. destruct (f a) as [b| |] eqn:Ea; cbn [bind]; try reflexivity.
  split; intros E.
  - apply bind_ok_inv in E. destruct E as (c1 & E1 & E). apply bind_ok_inv in E. destruct E as (c2 & E2 & E).
    apply IH in E2. apply bind_ok_inv in E2. destruct E2 as (b2 & Eb & Ec). rewrite Eb. cbn [bind].
    rewrite flat_mapM_app, E1, Ec. cbn [bind]. exact E.
  - apply bind_ok_inv in E. destruct E as (b12 & E1 & E). apply bind_ok_inv in E1. destruct E1 as (b2 & Eb & E1).
    inversion E1; subst. rewrite flat_mapM_app in E. apply bind_ok_inv in E. destruct E as (c1 & E1' & E).
    apply bind_ok_inv in E. destruct E as (c2 & E2 & E). rewrite E1'. cbn [bind].
    rewrite (proj2 (IH c2)); [exact E|]. rewrite Eb. exact E2.
Qed.

Lemma flat_mapM_map' {A B C} (g : A -> B) (f : B -> res (list C)) l :
  flat_mapM f (map g l) = flat_mapM (fun a => f (g a)) l.
Proof. induction l as [|a l IH]; [reflexivity|]. cbn [map]. rewrite !flat_mapM_cons, IH. reflexivity. Qed.

Lemma flat_mapM_Ok {A B} (f : A -> list B) l : flat_mapM (fun a => Ok (f a)) l = Ok (flat_map f l).
Proof. apply flat_mapM_ok. auto. Qed.

(** C54: three in sequence are the first two in sequence and then the third. *)
Lemma thm_C54_seq3_left :
  forall l A B C (ma : matcher A) (mb : matcher B) (mc : matcher C) d ms,
    x_seq3 ma mb mc d l = Ok ms <-> x_seq2 (x_seq2 ma mb) mc d l = Ok ms.
Proof.
  intros l A B C ma mb mc d ms. unfold x_seq3, x_seq2.
  destruct (ma d l) as [al| |]; cbn [bind]; try reflexivity.
  set (f := fun x : A * nat => let '(a, i) := x in bl <- go_after mb d i l;; Ok (map (fun '(b, j) => ((a, b), j)) bl)).
  set (g := fun x : A * B * nat => let '(ab, j) := x in cl <- go_after mc d j l;; Ok (map (fun '(c, k) => (ab, c, k)) cl)).
  rewrite <- (flat_mapM_assoc f g). split; intros E; erewrite flat_mapM_ext; try exact E.
  - intros [a i] _. unfold f. cbn beta iota. destruct (go_after mb d i l) as [bl| |]; cbn [bind]; auto.
    rewrite flat_mapM_map'. apply flat_mapM_ext. intros [b j] _. reflexivity.
  - intros [a i] _. unfold f. cbn beta iota. destruct (go_after mb d i l) as [bl| |]; cbn [bind]; auto.
    rewrite flat_mapM_map'. apply flat_mapM_ext. intros [b j] _. reflexivity.
Qed.

Lemma flat_mapM_post {A B C} (f : A -> res (list B)) (h : B -> C) l :
  flat_mapM (fun a => bs <- f a;; Ok (map h bs)) l = (bs <- flat_mapM f l;; Ok (map h bs)).
Proof.
  induction l as [|a l IH]; [reflexivity|]. rewrite !flat_mapM_cons, IH.
  destruct (f a) as [b| |]; cbn [bind]; auto. destruct (flat_mapM f l) as [bs| |]; cbn [bind]; auto.
  now rewrite map_app.
Qed.

(** C54: ... and also the first, and then the other two in sequence. *)
Lemma thm_C54_seq3_right :
  forall l A B C (ma : matcher A) (mb : matcher B) (mc : matcher C) d,
    (forall ms, x_seq3 ma mb mc d l = Ok ms ->
       x_seq2 ma (x_seq2 mb mc) d l = Ok (map (fun '((a, b, c), e) => ((a, (b, c)), e)) ms))
    /\ (forall ms', x_seq2 ma (x_seq2 mb mc) d l = Ok ms' -> exists ms, x_seq3 ma mb mc d l = Ok ms).
Proof.
  intros l A B C ma mb mc d.
  assert (E : x_seq2 ma (x_seq2 mb mc) d l =
    (ms <- x_seq3 ma mb mc d l;; Ok (map (fun '((a, b, c), e) => ((a, (b, c)), e)) ms))).
  { unfold x_seq3, x_seq2. destruct (ma d l) as [al| |]; cbn [bind]; try reflexivity.
    rewrite <- flat_mapM_post. apply flat_mapM_ext. intros [a i] _.
    unfold go_after at 1 3. destruct (dir_after d i l) as [d'|] eqn:Ed; cbn [bind]; [|reflexivity].
    destruct (mb d' l) as [bl| |]; cbn [bind]; auto.
    assert (ED : forall j, go_after mc d' j l = go_after mc d j l).
    { intros j. unfold go_after. destruct d, d'; cbn [dir_after] in *; try reflexivity;
        destruct (_ <? _) in Ed; discriminate. }
    rewrite <- !flat_mapM_post. apply flat_mapM_ext. intros [b j] _. rewrite ED.
    destruct (go_after mc d j l) as [cl| |]; cbn [bind]; auto. f_equal. rewrite !map_map. apply map_ext.
    now intros [c k]. }
  split.
  - intros ms E3. now rewrite E, E3.
  - intros ms'. rewrite E. destruct (x_seq3 ma mb mc d l); cbn [bind]; eauto; discriminate.
Qed.

(** C54: the same for [all]. *)
Lemma thm_C54_all3 :
  forall l A B C (ma : matcher A) (mb : matcher B) (mc : matcher C) d ms,
    (x_all3 ma mb mc d l = Ok ms <-> x_all2 (x_all2 ma mb) mc d l = Ok ms)
    /\ (x_all3 ma mb mc d l = Ok ms ->
        x_all2 ma (x_all2 mb mc) d l = Ok (map (fun '((a, b, c), e) => ((a, (b, c)), e)) ms)).
Proof.
  intros l A B C ma mb mc d ms. unfold x_all3, x_all2.
  destruct (ma d l) as [al| |], (mb d l) as [bl| |], (mc d l) as [cl| |]; cbn [bind]; try (split; [split|]; congruence).
  assert (E1 : flat_map (fun '(ab, ai) => filter_map (fun '(c, ci) => if Nat.eqb ai ci then Some (ab, c, ai) else None) cl)
                 (flat_map (fun '(a, ai) => filter_map (fun '(b, bi) => if Nat.eqb ai bi then Some ((a, b), ai) else None) bl) al)
     = flat_map (fun '(a, ai) => flat_map (fun '(b, bi) => filter_map (fun '(c, ci) =>
         if Nat.eqb ai bi && Nat.eqb ai ci then Some ((a, b, c), ai) else None) cl) bl) al).
  { induction al as [|[a ai] al IH]; [reflexivity|]. cbn [flat_map]. rewrite flat_map_app, IH. f_equal.
    clear IH. induction bl as [|[b bi] bl IH]; [reflexivity|]. cbn [filter_map flat_map].
    destruct (Nat.eqb ai bi); cbn [andb flat_map]; rewrite IH; auto.
    rewrite (filter_map_none (fun '(c, ci) => None) cl); [reflexivity|]. now intros [c ci]. }
  assert (E2 : flat_map (fun '(a, ai) => filter_map (fun '(bc, bi) => if Nat.eqb ai bi then Some ((a, bc), ai) else None)
                 (flat_map (fun '(b, bi) => filter_map (fun '(c, ci) => if Nat.eqb bi ci then Some ((b, c), bi) else None) cl) bl)) al
     = map (fun '((a, b, c), e) => ((a, (b, c)), e))
       (flat_map (fun '(a, ai) => flat_map (fun '(b, bi) => filter_map (fun '(c, ci) =>
         if Nat.eqb ai bi && Nat.eqb ai ci then Some ((a, b, c), ai) else None) cl) bl) al)).
  { clear E1. induction al as [|[a ai] al IH]; [reflexivity|]. cbn [flat_map]. rewrite map_app, IH. f_equal.
    clear IH. induction bl as [|[b bi] bl IH]; [reflexivity|]. cbn [flat_map]. rewrite filter_map_app, map_app, IH. f_equal.
    clear IH. induction cl as [|[c ci] cl IH]; [reflexivity|]. cbn [filter_map].
    destruct (Nat.eqb_spec bi ci) as [->|Hn]; cbn [filter_map].
    - destruct (Nat.eqb_spec ai ci) as [->|]; cbn [andb map]; now rewrite IH.
    - destruct (Nat.eqb_spec ai bi) as [->|]; cbn [andb map]; auto.
      destruct (Nat.eqb_spec bi ci); [easy|]. exact IH. }
  split; [split|]; intros E; inversion E; subst; f_equal; auto.
Qed.

(** C54: [any_of] of three is [any_of] of the first and [any_of] of the others. *)
Lemma thm_C54_any_of3 :
  forall l A B C (ma : matcher A) (mb : matcher B) (mc : matcher C) d,
    rmap (map (fun x => (match fst x with A3_A a => A2_A a | A3_B b => A2_B (A2_A b) | A3_C c => A2_B (A2_B c) end, snd x)))
      (x_any_of3 ma mb mc d l) = x_any_of2 ma (x_any_of2 mb mc) d l.
Proof.
  intros l A B C ma mb mc d. unfold x_any_of3, x_any_of2, rmap.
  destruct (ma d l) as [[|[a e] al]| |]; cbn [bind]; try reflexivity.
  - destruct (mb d l) as [[|[b e] bl]| |]; cbn [bind]; try reflexivity.
    + destruct (mc d l) as [cl| |]; cbn [bind]; try reflexivity. f_equal. rewrite !map_map. apply map_ext. now intros [c k].
    + cbn [map fst snd]. f_equal. f_equal. rewrite !map_map. apply map_ext. now intros [c k].
  - cbn [map fst snd]. f_equal. f_equal. rewrite !map_map. apply map_ext. now intros [c k].
Qed.

Lemma perm_flat_map_swap {A B C} (f : A -> B -> list C) la lb :
  Permutation (flat_map (fun a => flat_map (fun b => f a b) lb) la)
              (flat_map (fun b => flat_map (fun a => f a b) la) lb).
Proof.
  induction la as [|a la IH]; cbn [flat_map].
  - induction lb; simpl; auto.
  - rewrite IH. clear IH. induction lb as [|b lb IH]; cbn [flat_map]; auto.
    rewrite <- IH, <- !app_assoc. apply Permutation_app_head. rewrite !app_assoc. apply Permutation_app_tail.
    apply Permutation_app_comm.
Qed.

(** C54: exchanging the components of [all] only exchanges the components of the
    results. *)
Lemma thm_C54_all_swap :
  forall l A B (ma : matcher A) (mb : matcher B) d ms,
    x_all2 ma mb d l = Ok ms ->
    exists ms', x_all2 mb ma d l = Ok ms' /\ Permutation ms' (map (fun '((a, b), e) => ((b, a), e)) ms).
Proof.
  intros l A B ma mb d ms. unfold x_all2.
  destruct (ma d l) as [al| |], (mb d l) as [bl| |]; cbn [bind]; try discriminate.
  intros E. inversion E; subst ms. eexists. split; [reflexivity|].
  set (g := fun (x : B * nat) (y : A * nat) => if Nat.eqb (snd y) (snd x) then [((fst x, fst y), snd y)] else []).
  transitivity (flat_map (fun x => flat_map (fun y => g x y) al) bl).
  - apply Permutation_refl'. apply flat_map_ext. intros [b bi]. rewrite <- flat_map_filter_map. apply flat_map_ext.
    intros [a ai]. unfold g. cbn [fst snd]. rewrite (Nat.eqb_sym bi ai).
    destruct (Nat.eqb_spec ai bi) as [->|]; reflexivity.
  - etransitivity; [apply (perm_flat_map_swap g)|].
    clear E. induction al as [|[a ai] al IH]; cbn [flat_map]; [constructor|]. rewrite map_app. apply Permutation_app; auto.
    rewrite map_filter_map, <- flat_map_filter_map. apply Permutation_refl'. apply flat_map_ext.
    intros [b bi]. unfold g. cbn [fst snd]. destruct (Nat.eqb ai bi); reflexivity.
Qed.

End ThmNest.
