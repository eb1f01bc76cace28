(** C68: matches on joined inputs. *)

From Verif Require Export SpecCross ThmOrder ThmJoin.
From Coq Require Import Permutation.

Section ThmCross.
Context {UC : Unicode} {U : UserTypes}.

Definition right_way {A} (l : list (LRange * A)) : Prop := Forall (fun x => fst (fst x) <= snd (fst x)) l.

(** ** Combining two relations *)
Definition combine_by {A B C} (f : LRange * A -> LRange * B -> option (LRange * C)) la lb : list (LRange * C) :=
  flat_map (fun x => filter_map (f x) lb) la.

Definition seq_by (fwd : bool) {A B} (x : LRange * A) (y : LRange * B) : option (LRange * (A * B)) :=
  if adjacent fwd (fst x) (fst y) then Some (joined fwd (fst x) (fst y), (snd x, snd y)) else None.
Definition all_by {A B} (x : LRange * A) (y : LRange * B) : option (LRange * (A * B)) :=
  if range_eqb (fst x) (fst y) then Some (fst x, (snd x, snd y)) else None.

Lemma followed_combine {A B} fwd (la : list (LRange * A)) (lb : list (LRange * B)) :
  followed_by fwd la lb = combine_by (seq_by fwd) la lb.
Proof.
  unfold followed_by, combine_by. apply flat_map_ext. intros [ra a]. apply filter_map_ext. intros [rb b] _. reflexivity.
Qed.
Lemma both_combine {A B} (la : list (LRange * A)) (lb : list (LRange * B)) : both_on la lb = combine_by all_by la lb.
Proof.
  unfold both_on, combine_by. apply flat_map_ext. intros [ra a]. apply filter_map_ext. intros [rb b] _. reflexivity.
Qed.

Lemma combine_perm {A B C} (f : LRange * A -> LRange * B -> option (LRange * C)) la la' lb lb' :
  Permutation la la' -> Permutation lb lb' -> Permutation (combine_by f la lb) (combine_by f la' lb').
Proof.
  intros H1 H2. unfold combine_by. etransitivity; [apply (flat_map_perm _ _ _ H1)|].
  apply flat_map_perm_ext. intros x _. now apply filter_map_length_perm.
Qed.

Lemma combine_shifted {A B C} (f : LRange * A -> LRange * B -> option (LRange * C)) k la lb :
  (forall x y, f (moved_range k (fst x), snd x) (moved_range k (fst y), snd y)
               = option_map (fun z => (moved_range k (fst z), snd z)) (f x y)) ->
  combine_by f (shifted k la) (shifted k lb) = shifted k (combine_by f la lb).
Proof.
  intros HF. unfold combine_by, shifted. rewrite flat_map_concat_map, map_map, <- flat_map_concat_map.
  induction la as [|x la IH]; [reflexivity|]. cbn [flat_map map]. rewrite map_app, IH. f_equal. clear IH.
  induction lb as [|y lb IH]; [reflexivity|]. cbn [map filter_map]. rewrite HF. destruct (f x y) as [z|]; cbn [option_map map]; [f_equal|]; exact IH.
Qed.

Definition in_window (lo hi : nat) (r : LRange) : bool := (lo <=? fst r) && (snd r <? hi).
Lemma in_window_iff lo hi r : in_window lo hi r = true <-> lo <= fst r /\ snd r < hi.
Proof. unfold in_window. rewrite andb_true_iff, Nat.leb_le, Nat.ltb_lt. reflexivity. Qed.
Lemma within_eq {A} lo hi (l : list (LRange * A)) : within lo hi l = filter (fun x => in_window lo hi (fst x)) l.
Proof. reflexivity. Qed.

Lemma combine_within {A B C} (f : LRange * A -> LRange * B -> option (LRange * C)) lo hi la lb :
  (forall x y z, In x la -> In y lb -> f x y = Some z ->
     ((lo <= fst (fst z) /\ snd (fst z) < hi) <-> (lo <= fst (fst x) /\ snd (fst x) < hi) /\ (lo <= fst (fst y) /\ snd (fst y) < hi))) ->
  within lo hi (combine_by f la lb) = combine_by f (within lo hi la) (within lo hi lb).
Proof.
  pose proof (in_window_iff lo hi) as HP. unfold combine_by. rewrite !within_eq. set (p := in_window lo hi) in *. clearbody p.
  intros HF. induction la as [|x la IH]; [reflexivity|]. cbn [flat_map filter]. rewrite filter_app, IH by (intros x' y z Hx; apply HF; now right).
  assert (E : filter (fun x => p (fst x)) (filter_map (f x) lb) = if p (fst x) then filter_map (f x) (filter (fun x => p (fst x)) lb) else []).
  { assert (HX : forall y z, In y lb -> f x y = Some z -> (p (fst z) = true <-> p (fst x) = true /\ p (fst y) = true)).
    { intros y z Hy Hz. rewrite !HP. apply (HF x y z (or_introl eq_refl) Hy Hz). }
    clear -HX. induction lb as [|y lb IH]; [now destruct (p (fst x))|]. cbn [filter_map filter].
    specialize (IH (fun y' z Hy => HX y' z (or_intror Hy))).
    destruct (f x y) as [z|] eqn:Ez.
    - specialize (HX y z (or_introl eq_refl) Ez). cbn [filter]. rewrite IH.
      destruct (p (fst x)), (p (fst y)), (p (fst z)); cbn [filter_map]; rewrite ?Ez; try reflexivity; exfalso; intuition discriminate.
    - rewrite IH. destruct (p (fst x)), (p (fst y)); cbn [filter_map]; rewrite ?Ez; reflexivity. }
  rewrite E. destruct (p (fst x)); reflexivity.
Qed.

Lemma seq_moved_by {A B} fwd k (x : LRange * A) (y : LRange * B) :
  seq_by fwd (moved_range k (fst x), snd x) (moved_range k (fst y), snd y)
  = option_map (fun z => (moved_range k (fst z), snd z)) (seq_by fwd x y).
Proof.
  unfold seq_by. cbn [fst snd]. replace (adjacent fwd (moved_range k (fst x)) (moved_range k (fst y))) with (adjacent fwd (fst x) (fst y)).
  - destruct (adjacent fwd (fst x) (fst y)); [|reflexivity]. cbn [option_map fst snd]. do 2 f_equal. unfold joined, moved_range. now destruct fwd.
  - unfold adjacent, moved_range. cbn [fst snd]. destruct fwd.
    + destruct (Nat.eqb_spec (fst (fst y)) (S (snd (fst x)))), (Nat.eqb_spec (k + fst (fst y)) (S (k + snd (fst x)))); auto; lia.
    + destruct (Nat.eqb_spec (fst (fst x)) (S (snd (fst y)))), (Nat.eqb_spec (k + fst (fst x)) (S (k + snd (fst y)))); auto; lia.
Qed.
Lemma all_moved_by {A B} k (x : LRange * A) (y : LRange * B) :
  all_by (moved_range k (fst x), snd x) (moved_range k (fst y), snd y)
  = option_map (fun z => (moved_range k (fst z), snd z)) (all_by x y).
Proof.
  unfold all_by. cbn [fst snd]. rewrite moved_range_eqb. now destruct (range_eqb (fst x) (fst y)).
Qed.

Lemma within_followed {A B} fwd lo hi (la : list (LRange * A)) (lb : list (LRange * B)) : right_way la -> right_way lb ->
  within lo hi (followed_by fwd la lb) = followed_by fwd (within lo hi la) (within lo hi lb).
Proof.
  intros H1 H2. rewrite !followed_combine. apply combine_within. intros x y z Hx Hy E. unfold right_way in *. rewrite Forall_forall in H1, H2.
  specialize (H1 x Hx). specialize (H2 y Hy). destruct x as [[x1 x2] xa], y as [[y1 y2] yb]. unfold seq_by, adjacent, joined in E. cbn [fst snd] in *. destruct fwd.
  - destruct (Nat.eqb_spec y1 (S x2)); [|discriminate E]. injection E as <-. cbn [fst snd]. lia.
  - destruct (Nat.eqb_spec x1 (S y2)); [|discriminate E]. injection E as <-. cbn [fst snd]. lia.
Qed.
Lemma within_both {A B} lo hi (la : list (LRange * A)) (lb : list (LRange * B)) :
  within lo hi (both_on la lb) = both_on (within lo hi la) (within lo hi lb).
Proof.
  rewrite !both_combine. apply combine_within. intros x y z _ _ E. unfold all_by in E.
  destruct (range_eqb (fst x) (fst y)) eqn:ER; [|discriminate E]. injection E as <-. cbn [fst snd]. apply range_eqb_spec in ER. rewrite <- ER. tauto.
Qed.

Lemma followed_perm {A B} fwd (la la' : list (LRange * A)) (lb lb' : list (LRange * B)) :
  Permutation la la' -> Permutation lb lb' -> Permutation (followed_by fwd la lb) (followed_by fwd la' lb').
Proof. rewrite !followed_combine. apply combine_perm. Qed.
Lemma both_perm {A B} (la la' : list (LRange * A)) (lb lb' : list (LRange * B)) :
  Permutation la la' -> Permutation lb lb' -> Permutation (both_on la lb) (both_on la' lb').
Proof. rewrite !both_combine. apply combine_perm. Qed.
Lemma followed_shifted {A B} fwd k (la : list (LRange * A)) (lb : list (LRange * B)) :
  followed_by fwd (shifted k la) (shifted k lb) = shifted k (followed_by fwd la lb).
Proof. rewrite !followed_combine. apply combine_shifted. apply seq_moved_by. Qed.
Lemma both_shifted {A B} k (la : list (LRange * A)) (lb : list (LRange * B)) :
  both_on (shifted k la) (shifted k lb) = shifted k (both_on la lb).
Proof. rewrite !both_combine. apply combine_shifted. apply all_moved_by. Qed.

(** ** Values on ranges the right way round *)
Lemma right_assigned t lg : proper lg -> right_way (assigned t lg).
Proof.
  intros HP. apply Forall_forall. intros [r v] Hin. apply assigned_In in Hin. unfold proper in HP. rewrite Forall_forall in HP. apply (HP _ Hin).
Qed.
Lemma right_filter {A} p (l : list (LRange * A)) : right_way l -> right_way (filter p l).
Proof. unfold right_way. rewrite !Forall_forall. intros H x Hx. apply filter_In in Hx. apply H, Hx. Qed.
Lemma right_on_value {A B} (f : A -> B) l : right_way l -> right_way (on_value f l).
Proof. unfold right_way, on_value. rewrite !Forall_forall. intros H x Hx. apply in_map_iff in Hx. destruct Hx as ([r a] & <- & Hx). apply (H _ Hx). Qed.
Lemma right_app {A} (l l' : list (LRange * A)) : right_way l -> right_way l' -> right_way (l ++ l').
Proof. intros. now apply Forall_app. Qed.
Lemma combine_In {A B C} (f : LRange * A -> LRange * B -> option (LRange * C)) la lb z :
  In z (combine_by f la lb) <-> exists x y, In x la /\ In y lb /\ f x y = Some z.
Proof.
  unfold combine_by. rewrite in_flat_map. split.
  - intros (x & Hx & Hz). apply in_filter_map in Hz. destruct Hz as (y & Hy & E). eauto.
  - intros (x & y & Hx & Hy & E). exists x. split; [exact Hx|]. apply in_filter_map. eauto.
Qed.
Lemma right_followed {A B} fwd (la : list (LRange * A)) (lb : list (LRange * B)) : right_way la -> right_way lb -> right_way (followed_by fwd la lb).
Proof.
  unfold right_way. rewrite followed_combine, !Forall_forall. intros H1 H2 z Hz. apply combine_In in Hz. destruct Hz as (x & y & Hx & Hy & E).
  specialize (H1 x Hx). specialize (H2 y Hy). destruct x as [[x1 x2] xa], y as [[y1 y2] yb]. unfold seq_by, adjacent, joined in E. cbn [fst snd] in *. destruct fwd.
  - destruct (Nat.eqb_spec y1 (S x2)); [|discriminate E]. injection E as <-. cbn [fst snd]. lia.
  - destruct (Nat.eqb_spec x1 (S y2)); [|discriminate E]. injection E as <-. cbn [fst snd]. lia.
Qed.
Lemma right_both {A B} (la : list (LRange * A)) (lb : list (LRange * B)) : right_way la -> right_way (both_on la lb).
Proof.
  unfold right_way. rewrite both_combine, !Forall_forall. intros H1 z Hz. apply combine_In in Hz. destruct Hz as (x & y & Hx & Hy & E).
  specialize (H1 x Hx). unfold all_by in E. destruct (range_eqb (fst x) (fst y)); [|discriminate E]. injection E as <-. exact H1.
Qed.
Lemma right_where_none {A B} fwd (la : list (LRange * A)) (lb : list (LRange * B)) : right_way lb -> right_way (where_none fwd la lb).
Proof. apply right_filter. Qed.
Lemma meaning_right fwd toks lg A (e : mexp A) : proper lg -> right_way (meaning fwd toks lg e).
Proof.
  intros HP. induction e; cbn [meaning].
  - now apply right_assigned.
  - now apply right_on_value, right_filter, right_assigned.
  - now apply right_filter, right_assigned.
  - unfold right_way. rewrite Forall_forall. intros x Hx. apply in_map_iff in Hx. destruct Hx as ([i s] & <- & _). reflexivity.
  - now apply right_both.
  - now apply right_both, right_both.
  - apply right_app; apply right_on_value; [assumption|]. now apply right_where_none.
  - repeat apply right_app; apply right_on_value; [assumption| |]; repeat apply right_where_none; assumption.
  - now apply right_followed.
  - apply right_followed; [now apply right_followed|assumption].
Qed.

(** ** A window of a line *)
Lemma filter_comm {A} (p q : A -> bool) l : filter p (filter q l) = filter q (filter p l).
Proof.
  induction l as [|x l IH]; [reflexivity|]. cbn [filter]. destruct (p x) eqn:Ep, (q x) eqn:Eq; cbn [filter]; rewrite ?Ep, ?Eq, IH; reflexivity.
Qed.
Lemma within_on_value {A B} (f : A -> B) lo hi l : within lo hi (on_value f l) = on_value f (within lo hi l).
Proof.
  unfold within, on_value. induction l as [|[r a] l IH]; [reflexivity|]. cbn [map filter fst]. rewrite IH.
  now destruct ((lo <=? fst r) && (snd r <? hi)).
Qed.
Lemma shifted_on_value {A B} (f : A -> B) k l : shifted k (on_value f l) = on_value f (shifted k l).
Proof. unfold shifted, on_value. rewrite !map_map. apply map_ext. intros [r a]. reflexivity. Qed.
Lemma on_value_perm {A B} (f : A -> B) l l' : Permutation l l' -> Permutation (on_value f l) (on_value f l').
Proof. apply Permutation_map. Qed.
Lemma filter_perm {A} (p : A -> bool) l l' : Permutation l l' -> Permutation (filter p l) (filter p l').
Proof.
  induction 1 as [|x l l' H IH|x y l|l l' l'' H1 IH1 H2 IH2]; cbn [filter]; auto.
  - destruct (p x); auto.
  - destruct (p x), (p y); auto. constructor.
  - now transitivity (filter p l').
Qed.
Lemma filter_shifted {A} (p : LRange * A -> bool) k l :
  (forall x, p (moved_range k (fst x), snd x) = p x) -> filter p (shifted k l) = shifted k (filter p l).
Proof.
  intros HF. unfold shifted. induction l as [|x l IH]; [reflexivity|]. cbn [map filter]. rewrite HF, IH. now destruct (p x).
Qed.

Definition texts_on (toks : list LLToken) : list (LRange * str) := map (fun '(i, s) => ((i, i), s)) (text_tokens toks).

Lemma window lo hi k toks lg toks' lg' fwd : proper lg ->
  (forall t, Permutation (within lo hi (assigned t lg)) (shifted k (assigned t lg'))) ->
  within lo hi (texts_on toks) = shifted k (texts_on toks') ->
  forall A (e : mexp A), without_any_of e = true ->
    Permutation (within lo hi (meaning fwd toks lg e)) (shifted k (meaning fwd toks' lg' e)).
Proof.
  intros HP HA HT A e. induction e; cbn [without_any_of]; intros HE; try discriminate HE; cbn [meaning].
  - apply HA.
  - rewrite within_on_value, shifted_on_value. apply on_value_perm. unfold within. rewrite filter_comm.
    rewrite <- filter_shifted by (intros [r w]; reflexivity). apply filter_perm. apply HA.
  - unfold within. rewrite filter_comm. rewrite <- filter_shifted.
    + apply filter_perm. apply HA.
    + intros [r w]. unfold moved_range. cbn [fst snd]. do 2 f_equal. destruct (Nat.eqb_spec (fst r) (snd r)), (Nat.eqb_spec (k + fst r) (k + snd r)); auto; lia.
  - change (map (fun '(i, s) => ((i, i), s)) (text_tokens toks)) with (texts_on toks). rewrite HT. reflexivity.
  - apply andb_true_iff in HE. destruct HE. rewrite within_both, <- both_shifted. apply both_perm; auto.
  - apply andb_true_iff in HE. destruct HE as [HE ?]. apply andb_true_iff in HE. destruct HE.
    rewrite !within_both, <- !both_shifted. repeat apply both_perm; auto.
  - apply andb_true_iff in HE. destruct HE. rewrite within_followed by (now apply meaning_right). rewrite <- followed_shifted. apply followed_perm; auto.
  - apply andb_true_iff in HE. destruct HE as [HE ?]. apply andb_true_iff in HE. destruct HE.
    rewrite !within_followed by (try apply right_followed; now apply meaning_right). rewrite <- !followed_shifted. repeat apply followed_perm; auto.
Qed.

(** ** Without sequences *)
Lemma combine_app {A B C} (f : LRange * A -> LRange * B -> option (LRange * C)) la la' lb lb' :
  (forall x y, In x la -> In y lb' -> f x y = None) -> (forall x y, In x la' -> In y lb -> f x y = None) ->
  combine_by f (la ++ la') (lb ++ lb') = combine_by f la lb ++ combine_by f la' lb'.
Proof.
  intros H1 H2. unfold combine_by. rewrite flat_map_app. f_equal.
  - induction la as [|x la IH]; [reflexivity|]. cbn [flat_map]. rewrite IH by (intros; apply H1; [now right|assumption]). f_equal.
    rewrite filter_map_app. replace (filter_map (f x) lb') with (@nil (LRange * C)); [apply app_nil_r|].
    symmetry. apply filter_map_none. intros y Hy. apply H1; [now left|exact Hy].
  - induction la' as [|x la' IH]; [reflexivity|]. cbn [flat_map]. rewrite IH by (intros; apply H2; [now right|assumption]). f_equal.
    rewrite filter_map_app. replace (filter_map (f x) lb) with (@nil (LRange * C)); [reflexivity|].
    symmetry. apply filter_map_none. intros y Hy. apply H2; [now left|exact Hy].
Qed.

Lemma shifted_low {A} k (l : list (LRange * A)) x : In x (shifted k l) -> k <= fst (fst x) /\ k <= snd (fst x).
Proof. intros H. apply in_map_iff in H. destruct H as (y & <- & _). unfold moved_range. cbn [fst snd]. lia. Qed.

Lemma both_parts {A B} n (la la' : list (LRange * A)) (lb lb' : list (LRange * B)) : rel_in n la -> rel_in n lb ->
  both_on (la ++ shifted n la') (lb ++ shifted n lb') = both_on la lb ++ shifted n (both_on la' lb').
Proof.
  intros H1 H2. rewrite <- both_shifted, !both_combine. unfold rel_in in *. rewrite Forall_forall in H1, H2.
  apply combine_app; intros x y Hx Hy; unfold all_by; destruct (range_eqb (fst x) (fst y)) eqn:E; try reflexivity; exfalso; apply range_eqb_spec in E.
  - specialize (H1 x Hx). apply shifted_low in Hy. destruct x as [[x1 x2] xa], y as [[y1 y2] yb]. cbn [fst snd] in *. injection E as -> ->. lia.
  - specialize (H2 y Hy). apply shifted_low in Hx. destruct x as [[x1 x2] xa], y as [[y1 y2] yb]. cbn [fst snd] in *. injection E as -> ->. lia.
Qed.

Lemma filter_moved {A} (p q : LRange * A -> bool) k l : (forall x, q (moved_range k (fst x), snd x) = p x) ->
  filter q (shifted k l) = shifted k (filter p l).
Proof.
  intros HF. unfold shifted. induction l as [|x l IH]; [reflexivity|]. cbn [map filter]. rewrite HF, IH. now destruct (p x).
Qed.
Lemma existsb_shifted {A} (p q : LRange * A -> bool) k l : (forall x, q (moved_range k (fst x), snd x) = p x) ->
  existsb q (shifted k l) = existsb p l.
Proof. intros HF. unfold shifted. induction l as [|x l IH]; [reflexivity|]. cbn [map existsb]. now rewrite HF, IH. Qed.
Lemma existsb_none {A} (p : A -> bool) l : (forall x, In x l -> p x = false) -> existsb p l = false.
Proof. induction l as [|x l IH]; intros H; [reflexivity|]. cbn [existsb]. rewrite (H x (or_introl eq_refl)). apply IH. intros y Hy. apply H. now right. Qed.

Lemma where_none_parts {A B} fwd n (la la' : list (LRange * A)) (lb lb' : list (LRange * B)) : rel_in n la -> rel_in n lb ->
  where_none fwd (la ++ shifted n la') (lb ++ shifted n lb') = where_none fwd la lb ++ shifted n (where_none fwd la' lb').
Proof.
  intros H1 H2. unfold rel_in in *. rewrite Forall_forall in H1, H2. unfold where_none. rewrite filter_app. f_equal.
  - apply filter_ext_in. intros [rb b] Hb. f_equal. rewrite existsb_app. rewrite (existsb_none _ (shifted n la')); [apply orb_false_r|].
    intros [ra a] Ha. apply Nat.eqb_neq. apply shifted_low in Ha. specialize (H2 _ Hb). cbn [fst snd] in *. destruct fwd; cbn [from_tok]; lia.
  - apply filter_moved. intros [rb b]. cbn [fst snd]. f_equal. rewrite existsb_app, existsb_none; [cbn [orb]|].
    + apply existsb_shifted. intros [ra a]. cbn [fst snd].
      destruct fwd; cbn [from_tok moved_range fst snd]; [destruct (Nat.eqb_spec (fst ra) (fst rb)), (Nat.eqb_spec (n + fst ra) (n + fst rb))|
        destruct (Nat.eqb_spec (snd ra) (snd rb)), (Nat.eqb_spec (n + snd ra) (n + snd rb))]; auto; lia.
    + intros [ra a] Ha. apply Nat.eqb_neq. specialize (H1 _ Ha). cbn [fst snd] in *. destruct fwd; cbn [from_tok moved_range fst snd]; lia.
Qed.

Lemma where_none_perm {A B} fwd (la la' : list (LRange * A)) (lb lb' : list (LRange * B)) :
  Permutation la la' -> Permutation lb lb' -> Permutation (where_none fwd la lb) (where_none fwd la' lb').
Proof.
  intros H1 H2. unfold where_none. etransitivity; [apply (filter_perm _ _ _ H2)|].
  erewrite filter_ext; [reflexivity|]. intros [rb b]. f_equal.
  apply eq_true_iff_eq. rewrite !existsb_exists. split; intros (x & Hx & E); exists x; (split; [|exact E]).
  - eapply Permutation_in; eauto.
  - eapply Permutation_in; [apply Permutation_sym; eauto|exact Hx].
Qed.

Lemma shifted_app {A} k (l l' : list (LRange * A)) : shifted k (l ++ l') = shifted k l ++ shifted k l'.
Proof. apply map_app. Qed.
Lemma on_value_app {A B} (f : A -> B) l l' : on_value f (l ++ l') = on_value f l ++ on_value f l'.
Proof. apply map_app. Qed.
Lemma rel_in_where_none {A B} fwd n (la : list (LRange * A)) (lb : list (LRange * B)) : rel_in n lb -> rel_in n (where_none fwd la lb).
Proof. unfold rel_in, where_none. rewrite !Forall_forall. intros H x Hx. apply filter_In in Hx. apply H, Hx. Qed.
Lemma four_perm {A} (a b c d a' b' : list A) : Permutation a (a' ++ c) -> Permutation b (b' ++ d) -> Permutation (a ++ b) ((a' ++ b') ++ (c ++ d)).
Proof.
  intros -> ->. rewrite <- !app_assoc. apply Permutation_app_head. rewrite !app_assoc. apply Permutation_app_tail. apply Permutation_app_comm.
Qed.

Lemma parts n toks lg l1 lg1 toks2 lg2 fwd : Repr l1 lg1 -> n = length (ll_tokens l1) ->
  (forall t, Permutation (assigned t lg) (assigned t lg1 ++ shifted n (assigned t lg2))) ->
  texts_on toks = texts_on (ll_tokens l1) ++ shifted n (texts_on toks2) ->
  forall A (e : mexp A), without_seq e = true ->
    Permutation (meaning fwd toks lg e) (meaning fwd (ll_tokens l1) lg1 e ++ shifted n (meaning fwd toks2 lg2 e)).
Proof.
  intros HR Hn HA HT A e.
  assert (HM : forall A (e : mexp A), rel_in n (meaning fwd (ll_tokens l1) lg1 e)) by (intros; subst n; now apply meaning_in).
  induction e; cbn [without_seq]; intros HE; try discriminate HE; cbn [meaning].
  - apply HA.
  - rewrite shifted_on_value, <- on_value_app. apply on_value_perm.
    rewrite <- filter_shifted by (intros [r w]; reflexivity). rewrite <- filter_app. apply filter_perm. apply HA.
  - rewrite <- filter_shifted.
    + rewrite <- filter_app. apply filter_perm. apply HA.
    + intros [r w]. unfold moved_range. cbn [fst snd]. do 2 f_equal. destruct (Nat.eqb_spec (fst r) (snd r)), (Nat.eqb_spec (n + fst r) (n + snd r)); auto; lia.
  - change (map (fun '(i, s) => ((i, i), s)) (text_tokens toks)) with (texts_on toks). rewrite HT. reflexivity.
  - apply andb_true_iff in HE. destruct HE. rewrite <- both_parts by apply HM. apply both_perm; auto.
  - apply andb_true_iff in HE. destruct HE as [HE ?]. apply andb_true_iff in HE. destruct HE.
    assert (HB : rel_in n (both_on (meaning fwd (ll_tokens l1) lg1 e1) (meaning fwd (ll_tokens l1) lg1 e2))) by exact (HM _ (M_all2 _ _ e1 e2)).
    rewrite <- both_parts by (try exact HB; apply HM). apply both_perm; auto. rewrite <- both_parts by apply HM. apply both_perm; auto.
  - apply andb_true_iff in HE. destruct HE. cbn zeta. rewrite shifted_app, !shifted_on_value. apply four_perm; rewrite <- on_value_app; apply on_value_perm; [auto|].
    rewrite <- where_none_parts by apply HM. apply where_none_perm; auto.
  - apply andb_true_iff in HE. destruct HE as [HE ?]. apply andb_true_iff in HE. destruct HE. cbn zeta.
    rewrite !shifted_app, !shifted_on_value. repeat apply four_perm; rewrite <- on_value_app; apply on_value_perm; [auto| |].
    + rewrite <- where_none_parts by apply HM. apply where_none_perm; auto.
    + rewrite <- where_none_parts by (try apply rel_in_where_none; apply HM). apply where_none_perm; auto.
      rewrite <- where_none_parts by apply HM. apply where_none_perm; auto.
Qed.

(** ** Joined inputs *)
Lemma text_tokens_from : forall toks k, 
  filter_map (fun '(i, tok) => match token tok with LText s _ => Some (i, s) | LValue => None end) (enumerate_from k toks)
  = map (fun '(i, s) => (k + i, s)) (text_tokens toks).
Proof.
  assert (H : forall toks k j, filter_map (fun '(i, tok) => match token tok with LText s _ => Some (i, s) | LValue => None end) (enumerate_from (k + j) toks)
    = map (fun '(i, s) => (k + i, s)) (filter_map (fun '(i, tok) => match token tok with LText s _ => Some (i, s) | LValue => None end) (enumerate_from j toks))).
  { induction toks as [|tok toks IH]; intros k j; [reflexivity|]. cbn [enumerate_from filter_map]. rewrite plus_n_Sm, IH.
    destruct (token tok); reflexivity. }
  intros toks k. rewrite <- (Nat.add_0_r k) at 1. apply H.
Qed.
Lemma enumerate_from_app {A} : forall (xs ys : list A) k, enumerate_from k (xs ++ ys) = enumerate_from k xs ++ enumerate_from (length xs + k) ys.
Proof.
  induction xs as [|x xs IH]; intros ys k; [reflexivity|]. cbn [app enumerate_from length]. rewrite IH. do 2 f_equal. f_equal. lia.
Qed.
Lemma texts_on_app toks1 toks2 : texts_on (toks1 ++ toks2) = texts_on toks1 ++ shifted (length toks1) (texts_on toks2).
Proof.
  unfold texts_on, text_tokens at 1. rewrite enumerate_from_app, filter_map_app, map_app, Nat.add_0_r. apply f_equal2; [reflexivity|].
  rewrite text_tokens_from. unfold shifted. rewrite !map_map. apply map_ext. intros [i s]. reflexivity.
Qed.
Lemma texts_on_moved k p M toks : texts_on (map (moved_token k p M) toks) = texts_on toks.
Proof.
  unfold texts_on, text_tokens. f_equal. generalize 0 as j. induction toks as [|tok toks IH]; intros j; [reflexivity|].
  cbn [map enumerate_from filter_map]. rewrite IH. reflexivity.
Qed.

Lemma pairs_app {A} (q q' : list (LRange * str * list A)) : pairs (q ++ q') = pairs q ++ pairs q'.
Proof. apply flat_map_app. Qed.
Lemma pairs_moved {A} k (q : list (LRange * str * list A)) : pairs (map (moved_row k) q) = shifted k (pairs q).
Proof.
  unfold pairs, shifted. induction q as [|[[r s] vs] q IH]; [reflexivity|]. cbn [map flat_map moved_row fst snd]. rewrite map_app, IH. f_equal.
  rewrite map_map. reflexivity.
Qed.

(** The whole, the parts, and what has been assigned to each. *)
Definition parts_of (l : LLLine) lg (l1 : LLLine) lg1 (l2 : LLLine) lg2 : Prop :=
  History l lg /\ proper lg /\ History l1 lg1 /\ proper lg1 /\ History l2 lg2 /\ proper lg2
  /\ length (ll_tokens l) = length (ll_tokens l1) + length (ll_tokens l2)
  /\ (text_only l -> text_only l1 /\ text_only l2)
  /\ texts_on (ll_tokens l) = texts_on (ll_tokens l1) ++ shifted (length (ll_tokens l1)) (texts_on (ll_tokens l2))
  /\ forall t, Permutation (assigned t lg) (assigned t lg1 ++ shifted (length (ll_tokens l1)) (assigned t lg2)).

Lemma joined_parts tg sz i1 i2 l : Forall wf_input i1 -> Forall wf_input i2 ->
  create_line_from_input_tokens tg (i1 ++ i2) sz = Ok l ->
  exists l1 l2 lg lg1 lg2, create_line_from_input_tokens tg i1 sz = Ok l1 /\ create_line_from_input_tokens tg i2 sz = Ok l2
    /\ parts_of l lg l1 lg1 l2 lg2.
Proof.
  intros HW1 HW2 H. destruct (thm_C55_join tg sz i1 i2 l HW1 HW2 H) as (l1 & l2 & E1 & E2 & ET & HQ).
  destruct (thm_C24_created tg sz (i1 ++ i2) l ltac:(now apply Forall_app) H) as (lg & HH & HP).
  destruct (thm_C24_created tg sz i1 l1 HW1 E1) as (lg1 & HH1 & HP1).
  destruct (thm_C24_created tg sz i2 l2 HW2 E2) as (lg2 & HH2 & HP2).
  exists l1, l2, lg, lg1, lg2. split; [exact E1|]. split; [exact E2|]. unfold parts_of.
  do 6 (split; [assumption|]). split; [now rewrite ET, app_length, map_length|]. split; [|split].
  - intros HX. unfold text_only in *. split.
    + intros tok Hin. apply HX. rewrite ET. apply in_or_app. now left.
    + intros tok Hin E. apply (HX (moved_token (length (ll_tokens l1)) (end_of l1) (2 ^ usize_bits tg) tok)).
      * rewrite ET. apply in_or_app. right. now apply in_map.
      * exact E.
  - now rewrite ET, texts_on_app, texts_on_moved.
  - intros t. destruct (HQ t) as (q & q1 & q2 & Q & Q1 & Q2 & P & _).
    rewrite <- (query_pairs l lg t q (history_repr _ _ HH) Q), <- (query_pairs l1 lg1 t q1 (history_repr _ _ HH1) Q1).
    unfold shifted. rewrite <- (query_pairs l2 lg2 t q2 (history_repr _ _ HH2) Q2). fold (shifted (length (ll_tokens l1)) (pairs q2)).
    rewrite <- pairs_moved, <- pairs_app. unfold pairs. apply (flat_map_perm _ _ _ P).
Qed.

Lemma applies {A} (e : mexp A) l lg : History l lg -> (uses_has_any e = true -> text_only l) -> applicable e l lg.
Proof. intros HH HX HE i Hi. eapply text_attributed; eauto. Qed.

Lemma found_whole {A} (e : mexp A) id l lg : History l lg -> (uses_has_any e = true -> text_only l) -> ll_tokens l <> [] ->
  (exists f, find_by (whole id l) (matcher_of e) = Ok f /\ Permutation (found_pairs f) (meaning true (ll_tokens l) lg e))
  /\ (exists f, find_by_forwards_and_backwards (whole id l) (matcher_of e) = Ok f
       /\ Permutation (found_pairs f) (meaning true (ll_tokens l) lg e ++ meaning false (ll_tokens l) lg e)).
Proof.
  intros HH HX HN. pose proof (applies e l lg HH HX) as HA. pose proof (history_repr _ _ HH) as HR.
  assert (HO : sel_ok (whole id l)).
  { unfold sel_ok, line_len. cbn [whole start_idx end_idx line_of sel_line rc_line]. destruct (ll_tokens l); [easy|]. cbn [length]. lia. }
  split.
  - destruct (thm_C57_find_by A (whole id l) e lg HH HA HO) as (f & E & _ & _ & P). exists f. split; [exact E|].
    cbn [line_of whole sel_line rc_line] in P. fold (whole id l) in P. now rewrite (proj1 (beginning_in_whole id l _ (meaning_in true l lg A e HR))) in P.
  - destruct (thm_C57_find_both A (whole id l) e lg HH HA HO) as (f & E & _ & P). exists f. split; [exact E|].
    cbn [line_of whole sel_line rc_line] in P. fold (whole id l) in P.
    now rewrite (proj1 (beginning_in_whole id l _ (meaning_in true l lg A e HR))), (proj2 (beginning_in_whole id l _ (meaning_in false l lg A e HR))) in P.
Qed.

Lemma within_perm {A} lo hi (l l' : list (LRange * A)) : Permutation l l' -> Permutation (within lo hi l) (within lo hi l').
Proof. apply filter_perm. Qed.
Lemma within_app {A} lo hi (l l' : list (LRange * A)) : within lo hi (l ++ l') = within lo hi l ++ within lo hi l'.
Proof. apply filter_app. Qed.
Lemma shifted_perm {A} k (l l' : list (LRange * A)) : Permutation l l' -> Permutation (shifted k l) (shifted k l').
Proof. apply Permutation_map. Qed.
Lemma shifted_0 {A} (l : list (LRange * A)) : shifted 0 l = l.
Proof. unfold shifted. rewrite <- (map_id l) at 2. apply map_ext. intros [[i j] a]. reflexivity. Qed.

Lemma window_low {A} n (la lb : list (LRange * A)) : rel_in n la -> within 0 n (la ++ shifted n lb) = la.
Proof.
  intros H. unfold rel_in in H. rewrite Forall_forall in H. rewrite within_app. unfold within. rewrite filter_all, filter_none; [apply app_nil_r| |].
  - intros x Hx. apply shifted_low in Hx. destruct x as [[x1 x2] a]. cbn [fst snd] in *. apply andb_false_iff. right. apply Nat.ltb_ge. lia.
  - intros x Hx. specialize (H x Hx). destruct x as [[x1 x2] a]. cbn [fst snd] in *. apply andb_true_iff. split; [apply Nat.leb_le|apply Nat.ltb_lt]; lia.
Qed.
Lemma window_high {A} n m (la lb : list (LRange * A)) : rel_in n la -> rel_in m lb -> within n (n + m) (la ++ shifted n lb) = shifted n lb.
Proof.
  intros H H2. unfold rel_in in *. rewrite Forall_forall in H, H2. rewrite within_app. unfold within. rewrite filter_none, filter_all; [reflexivity| |].
  - intros x Hx. unfold shifted in Hx. apply in_map_iff in Hx. destruct Hx as (y & <- & Hy). specialize (H2 y Hy). destruct y as [[y1 y2] a]. unfold moved_range. cbn [fst snd] in *.
    apply andb_true_iff. split; [apply Nat.leb_le|apply Nat.ltb_lt]; lia.
  - intros x Hx. specialize (H x Hx). destruct x as [[x1 x2] a]. cbn [fst snd] in *. apply andb_false_iff. left. apply Nat.leb_gt. lia.
Qed.
Lemma texts_in toks : rel_in (length toks) (texts_on toks).
Proof.
  unfold rel_in, texts_on. rewrite Forall_forall. intros x Hx. apply in_map_iff in Hx. destruct Hx as ([i s] & <- & Hi). unfold text_tokens in Hi.
  apply in_filter_map in Hi. destruct Hi as ([j tok] & Hj & E). apply (in_map fst) in Hj. rewrite enumerate_seq in Hj. apply in_seq in Hj. cbn [fst] in Hj.
  cbn [fst snd]. destruct (token tok); [|discriminate]. injection E as -> <-. lia.
Qed.

Lemma windows l lg l1 lg1 l2 lg2 fwd A (e : mexp A) : parts_of l lg l1 lg1 l2 lg2 -> without_any_of e = true ->
  Permutation (within 0 (length (ll_tokens l1)) (meaning fwd (ll_tokens l) lg e)) (meaning fwd (ll_tokens l1) lg1 e)
  /\ Permutation (within (length (ll_tokens l1)) (length (ll_tokens l)) (meaning fwd (ll_tokens l) lg e))
       (shifted (length (ll_tokens l1)) (meaning fwd (ll_tokens l2) lg2 e)).
Proof.
  intros (HH & HP & HH1 & HP1 & HH2 & HP2 & EL & _ & HT & HA) HE.
  assert (R1 : forall t, rel_in (length (ll_tokens l1)) (assigned t lg1)) by (intros; apply assigned_rel_in; now apply history_repr).
  assert (R2 : forall t, rel_in (length (ll_tokens l2)) (assigned t lg2)) by (intros; apply assigned_rel_in; now apply history_repr).
  split.
  - rewrite <- (shifted_0 (meaning fwd (ll_tokens l1) lg1 e)). apply window; auto.
    + intros t. rewrite shifted_0. rewrite (within_perm _ _ _ _ (HA t)). rewrite window_low by apply R1. reflexivity.
    + rewrite shifted_0, HT. apply window_low. apply texts_in.
  - apply window; auto; rewrite EL.
    + intros t. rewrite (within_perm _ _ _ _ (HA t)). rewrite window_high by auto. reflexivity.
    + rewrite HT. apply window_high; apply texts_in.
Qed.

(** C68: what any_of-free expressions match inside each part. *)
Lemma thm_C68_inside :
  forall tg sz i1 i2 l id id1 id2 A (e : mexp A),
    Forall wf_input i1 -> Forall wf_input i2 -> create_line_from_input_tokens tg (i1 ++ i2) sz = Ok l ->
    without_any_of e = true -> (uses_has_any e = true -> text_only l) ->
    exists l1 l2, create_line_from_input_tokens tg i1 sz = Ok l1 /\ create_line_from_input_tokens tg i2 sz = Ok l2
      /\ (ll_tokens l1 <> [] -> ll_tokens l2 <> [] ->
          let n1 := length (ll_tokens l1) in
          let n := length (ll_tokens l) in
          (exists f f1 f2, find_by (whole id l) (matcher_of e) = Ok f
             /\ find_by (whole id1 l1) (matcher_of e) = Ok f1 /\ find_by (whole id2 l2) (matcher_of e) = Ok f2
             /\ Permutation (within 0 n1 (found_pairs f)) (found_pairs f1)
             /\ Permutation (within n1 n (found_pairs f)) (shifted n1 (found_pairs f2)))
          /\ (exists f f1 f2, find_by_forwards_and_backwards (whole id l) (matcher_of e) = Ok f
             /\ find_by_forwards_and_backwards (whole id1 l1) (matcher_of e) = Ok f1
             /\ find_by_forwards_and_backwards (whole id2 l2) (matcher_of e) = Ok f2
             /\ Permutation (within 0 n1 (found_pairs f)) (found_pairs f1)
             /\ Permutation (within n1 n (found_pairs f)) (shifted n1 (found_pairs f2)))).
Proof.
  intros tg sz i1 i2 l id id1 id2 A e HW1 HW2 H HE HX.
  destruct (joined_parts tg sz i1 i2 l HW1 HW2 H) as (l1 & l2 & lg & lg1 & lg2 & E1 & E2 & HJ).
  exists l1, l2. split; [exact E1|]. split; [exact E2|]. intros N1 N2. cbn zeta.
  pose proof (windows l lg l1 lg1 l2 lg2 true A e HJ HE) as (P1 & P2). pose proof (windows l lg l1 lg1 l2 lg2 false A e HJ HE) as (P1' & P2').
  destruct HJ as (HH & HP & HH1 & HP1 & HH2 & HP2 & EL & HTX & _ & _).
  assert (N0 : ll_tokens l <> []) by (intros E; rewrite E in EL; destruct (ll_tokens l1); [easy|discriminate EL]).
  destruct (found_whole e id l lg HH HX N0) as ((f & F & P) & (g & G & Q)).
  destruct (found_whole e id1 l1 lg1 HH1 (fun E => proj1 (HTX (HX E))) N1) as ((f1 & F1 & R1) & (g1 & G1 & Q1)).
  destruct (found_whole e id2 l2 lg2 HH2 (fun E => proj2 (HTX (HX E))) N2) as ((f2 & F2 & R2) & (g2 & G2 & Q2)).
  split.
  - exists f, f1, f2. do 3 (split; [assumption|]). split.
    + now rewrite (within_perm _ _ _ _ P), R1.
    + now rewrite (within_perm _ _ _ _ P), (shifted_perm _ _ _ R2).
  - exists g, g1, g2. do 3 (split; [assumption|]). split.
    + rewrite (within_perm _ _ _ _ Q), Q1, within_app. now apply Permutation_app.
    + rewrite (within_perm _ _ _ _ Q), (shifted_perm _ _ _ Q2), within_app, shifted_app. now apply Permutation_app.
Qed.

(** C68: without sequences nothing is matched across the seam, and [any_of] is harmless too. *)
Lemma thm_C68_no_seq :
  forall tg sz i1 i2 l id id1 id2 A (e : mexp A),
    Forall wf_input i1 -> Forall wf_input i2 -> create_line_from_input_tokens tg (i1 ++ i2) sz = Ok l ->
    without_seq e = true -> (uses_has_any e = true -> text_only l) ->
    exists l1 l2, create_line_from_input_tokens tg i1 sz = Ok l1 /\ create_line_from_input_tokens tg i2 sz = Ok l2
      /\ (ll_tokens l1 <> [] -> ll_tokens l2 <> [] ->
          let n1 := length (ll_tokens l1) in
          (exists f f1 f2, find_by (whole id l) (matcher_of e) = Ok f
             /\ find_by (whole id1 l1) (matcher_of e) = Ok f1 /\ find_by (whole id2 l2) (matcher_of e) = Ok f2
             /\ Permutation (found_pairs f) (found_pairs f1 ++ shifted n1 (found_pairs f2)))
          /\ (exists f f1 f2, find_by_forwards_and_backwards (whole id l) (matcher_of e) = Ok f
             /\ find_by_forwards_and_backwards (whole id1 l1) (matcher_of e) = Ok f1
             /\ find_by_forwards_and_backwards (whole id2 l2) (matcher_of e) = Ok f2
             /\ Permutation (found_pairs f) (found_pairs f1 ++ shifted n1 (found_pairs f2)))).
Proof.
  intros tg sz i1 i2 l id id1 id2 A e HW1 HW2 H HE HX.
  destruct (joined_parts tg sz i1 i2 l HW1 HW2 H) as (l1 & l2 & lg & lg1 & lg2 & E1 & E2 & HJ).
  exists l1, l2. split; [exact E1|]. split; [exact E2|]. intros N1 N2. cbn zeta.
  destruct HJ as (HH & HP & HH1 & HP1 & HH2 & HP2 & EL & HTX & HT & HA).
  pose proof (fun fwd => parts _ (ll_tokens l) lg l1 lg1 (ll_tokens l2) lg2 fwd (history_repr _ _ HH1) eq_refl HA HT A e HE) as PP.
  assert (N0 : ll_tokens l <> []) by (intros E; rewrite E in EL; destruct (ll_tokens l1); [easy|discriminate EL]).
  destruct (found_whole e id l lg HH HX N0) as ((f & F & P) & (g & G & Q)).
  destruct (found_whole e id1 l1 lg1 HH1 (fun E => proj1 (HTX (HX E))) N1) as ((f1 & F1 & R1) & (g1 & G1 & Q1)).
  destruct (found_whole e id2 l2 lg2 HH2 (fun E => proj2 (HTX (HX E))) N2) as ((f2 & F2 & R2) & (g2 & G2 & Q2)).
  split.
  - exists f, f1, f2. do 3 (split; [assumption|]). now rewrite P, R1, (shifted_perm _ _ _ R2).
  - exists g, g1, g2. do 3 (split; [assumption|]). rewrite Q, Q1, (shifted_perm _ _ _ Q2), shifted_app. apply four_perm; apply PP.
Qed.
End ThmCross.
