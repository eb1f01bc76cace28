(** C57: what a matcher expression finds is its meaning; what a resolver written with
    it assigns. *)

From Verif Require Export SpecLayer ThmText ThmNest.

Section ThmLayer.
Context {UC : Unicode} {U : UserTypes}.

Local Ltac perm_eq := match goal with |- Permutation ?a ?b => cut (a = b); [intros ->; reflexivity|] end.

(** ** Relations *)

Definition rel_in {A} (n : nat) (l : list (LRange * A)) : Prop :=
  Forall (fun x => fst (fst x) < n /\ snd (fst x) < n) l.

Lemma at_point_perm {A} d (l1 l2 : list (LRange * A)) :
  Permutation l1 l2 -> Permutation (at_point d l1) (at_point d l2).
Proof. intros H. destruct d; apply filter_map_length_perm; exact H. Qed.

Lemma at_point_app {A} d (l1 l2 : list (LRange * A)) : at_point d (l1 ++ l2) = at_point d l1 ++ at_point d l2.
Proof. destruct d; apply filter_map_app. Qed.

Lemma at_point_eq {A} d (l : list (LRange * A)) :
  at_point d l = filter_map (fun '(r, a) => if Nat.eqb (from_tok (is_fwd d) r) (dir_idx d)
                                            then Some (a, to_tok (is_fwd d) r) else None) l.
Proof. destruct d; reflexivity. Qed.

Lemma at_point_In {A} d (l : list (LRange * A)) a j :
  In (a, j) (at_point d l) <->
  exists r, In (r, a) l /\ from_tok (is_fwd d) r = dir_idx d /\ to_tok (is_fwd d) r = j.
Proof.
  rewrite at_point_eq, in_filter_map. split.
  - intros ([r b] & Hin & E). destruct (Nat.eqb_spec (from_tok (is_fwd d) r) (dir_idx d)); [|discriminate].
    inversion E; subst. eauto.
  - intros (r & Hin & E1 & E2). exists (r, a). split; auto. rewrite E1, Nat.eqb_refl. congruence.
Qed.

Lemma at_point_on_value {A B} (f : A -> B) d l :
  at_point d (on_value f l) = map (fun x => (f (fst x), snd x)) (at_point d l).
Proof.
  rewrite !at_point_eq. unfold on_value. rewrite filter_map_map, map_filter_map. apply filter_map_ext.
  intros [r a] _. destruct (Nat.eqb _ _); reflexivity.
Qed.

Lemma flat_mapM_perm {A B} (f : A -> res (list B)) (g : A -> list B) l :
  (forall a, In a l -> exists b, f a = Ok b /\ Permutation b (g a)) ->
  exists bs, flat_mapM f l = Ok bs /\ Permutation bs (flat_map g l).
Proof.
  induction l as [|a l IH]; intros H.
  - exists []. split; auto.
  - destruct (H a (or_introl eq_refl)) as (b & Eb & Pb).
    destruct IH as (bs & Ebs & Pbs); [intros; apply H; now right|].
    exists (b ++ bs). rewrite flat_mapM_cons, Eb, Ebs. split; [reflexivity|]. cbn [flat_map]. now apply Permutation_app.
Qed.

Lemma flat_map_perm {A B} (g : A -> list B) l1 l2 :
  Permutation l1 l2 -> Permutation (flat_map g l1) (flat_map g l2).
Proof. intros H. now apply Permutation_flat_map. Qed.

(** The point after [j]. *)
Definition next_dir (d : direction) (n j : nat) : option direction :=
  match d with
  | Fwd _ => if S j <? n then Some (Fwd (S j)) else None
  | Bwd _ => if 0 <? j then Some (Bwd (j - 1)) else None
  end.

Lemma at_point_followed {A B} d n (la : list (LRange * A)) (lb : list (LRange * B)) :
  rel_in n lb ->
  at_point d (followed_by (is_fwd d) la lb) =
  flat_map (fun '(a, j) => map (fun '(b, e) => ((a, b), e))
                             (match next_dir d n j with Some d' => at_point d' lb | None => [] end))
           (at_point d la).
Proof.
  intros HB. unfold followed_by. induction la as [|[ra a] la IH]; [destruct d; reflexivity|].
  cbn [flat_map]. rewrite at_point_app, IH. clear IH.
  set (rest := flat_map _ (at_point d la)).
  replace (at_point d ((ra, a) :: la))
    with ((if Nat.eqb (from_tok (is_fwd d) ra) (dir_idx d) then [(a, to_tok (is_fwd d) ra)] else []) ++ at_point d la)
    by (destruct d; simpl; destruct (Nat.eqb _ _); reflexivity).
  rewrite flat_map_app. subst rest. f_equal.
  destruct (Nat.eqb_spec (from_tok (is_fwd d) ra) (dir_idx d)) as [E|E].
  - cbn [flat_map]. rewrite app_nil_r. destruct d as [i|i]; cbn [is_fwd from_tok to_tok dir_idx next_dir] in *; subst i.
    + destruct (Nat.ltb_spec (S (snd ra)) n) as [Hn|Hn].
      * unfold at_point, adjacent, joined. rewrite map_filter_map. induction lb as [|[rb b] lb IHb]; [reflexivity|].
        apply Forall_inv_tail in HB. cbn [filter_map].
        destruct (Nat.eqb_spec (fst rb) (S (snd ra))); cbn [filter_map option_map fst snd]; [|now apply IHb].
        rewrite Nat.eqb_refl. f_equal. now apply IHb.
      * cbn [map]. apply filter_map_none. intros [r x] Hin. exfalso. apply in_filter_map in Hin.
        destruct Hin as ([rb b] & Hin & Ex). unfold adjacent in Ex.
        destruct (Nat.eqb_spec (fst rb) (S (snd ra))); [|discriminate].
        unfold rel_in in HB. rewrite Forall_forall in HB. specialize (HB _ Hin). simpl in HB. lia.
    + destruct (Nat.ltb_spec 0 (fst ra)) as [Hn|Hn].
      * unfold at_point, adjacent, joined. rewrite map_filter_map. induction lb as [|[rb b] lb IHb]; [reflexivity|].
        apply Forall_inv_tail in HB. cbn [filter_map].
        destruct (Nat.eqb_spec (fst ra) (S (snd rb))) as [E2|E2], (Nat.eqb_spec (snd rb) (fst ra - 1)) as [E3|E3];
          try lia; cbn [filter_map option_map fst snd]; [|now apply IHb].
        rewrite Nat.eqb_refl. f_equal. now apply IHb.
      * cbn [map]. apply filter_map_none. intros [r x] Hin. exfalso. apply in_filter_map in Hin.
        destruct Hin as ([rb b] & Hin & Ex). unfold adjacent in Ex.
        destruct (Nat.eqb_spec (fst ra) (S (snd rb))); [lia|discriminate].
  - cbn [flat_map]. rewrite at_point_eq. apply filter_map_none. intros [r x] Hin. apply in_filter_map in Hin.
    destruct Hin as ([rb b] & Hin & Ex). destruct (adjacent (is_fwd d) ra rb); [|discriminate]. inversion Ex; subst.
    replace (from_tok (is_fwd d) (joined (is_fwd d) ra rb)) with (from_tok (is_fwd d) ra) by (destruct d; reflexivity).
    destruct (Nat.eqb_spec (from_tok (is_fwd d) ra) (dir_idx d)); [easy|reflexivity].
Qed.

Lemma range_eqb_ends fwd ra rb :
  range_eqb ra rb = Nat.eqb (from_tok fwd ra) (from_tok fwd rb) && Nat.eqb (to_tok fwd ra) (to_tok fwd rb).
Proof. destruct ra, rb, fwd; unfold range_eqb; simpl; auto. apply andb_comm. Qed.

Lemma at_point_both {A B} d (la : list (LRange * A)) (lb : list (LRange * B)) :
  at_point d (both_on la lb) =
  flat_map (fun '(a, ai) => filter_map (fun '(b, bi) => if Nat.eqb ai bi then Some ((a, b), ai) else None) (at_point d lb))
           (at_point d la).
Proof.
  unfold both_on. induction la as [|[ra a] la IH]; [destruct d; reflexivity|].
  cbn [flat_map]. rewrite at_point_app, IH. clear IH.
  set (rest := flat_map _ (at_point d la)).
  replace (at_point d ((ra, a) :: la))
    with ((if Nat.eqb (from_tok (is_fwd d) ra) (dir_idx d) then [(a, to_tok (is_fwd d) ra)] else []) ++ at_point d la)
    by (destruct d; simpl; destruct (Nat.eqb _ _); reflexivity).
  rewrite flat_map_app. subst rest. f_equal. rewrite !at_point_eq.
  destruct (Nat.eqb_spec (from_tok (is_fwd d) ra) (dir_idx d)) as [E|E]; cbn [flat_map].
  - rewrite app_nil_r. induction lb as [|[rb b] lb IHb]; [reflexivity|]. cbn [filter_map].
    rewrite (range_eqb_ends (is_fwd d)), E, (Nat.eqb_sym (dir_idx d)).
    destruct (Nat.eqb_spec (from_tok (is_fwd d) rb) (dir_idx d)) as [E2|E2]; cbn [andb]; [|exact IHb].
    cbn [filter_map]. destruct (Nat.eqb_spec (to_tok (is_fwd d) ra) (to_tok (is_fwd d) rb)); [|exact IHb].
    cbn [filter_map]. rewrite E, Nat.eqb_refl. f_equal. exact IHb.
  - apply filter_map_none. intros [r x] Hin. apply in_filter_map in Hin. destruct Hin as ([rb b] & Hin & Ex).
    destruct (range_eqb ra rb); [|discriminate]. inversion Ex; subst.
    destruct (Nat.eqb_spec (from_tok (is_fwd d) r) (dir_idx d)); [easy|reflexivity].
Qed.

Lemma at_point_where_none {A B} d (la : list (LRange * A)) (lb : list (LRange * B)) :
  at_point d (where_none (is_fwd d) la lb) = match at_point d la with [] => at_point d lb | _ :: _ => [] end.
Proof.
  rewrite (at_point_eq d lb), (at_point_eq d (where_none _ _ _)). unfold where_none.
  assert (HE : existsb (fun '(ra, _) => Nat.eqb (from_tok (is_fwd d) ra) (dir_idx d)) la =
               match at_point d la with [] => false | _ :: _ => true end).
  { rewrite at_point_eq. induction la as [|[ra a] la IH]; [reflexivity|]. cbn [existsb filter_map].
    destruct (Nat.eqb _ _); [reflexivity|exact IH]. }
  induction lb as [|[rb b] lb IH]; [destruct (at_point d la); reflexivity|]. cbn [filter filter_map].
  destruct (Nat.eqb_spec (from_tok (is_fwd d) rb) (dir_idx d)) as [E|E].
  - rewrite E, HE. destruct (at_point d la); cbn [negb filter_map].
    + rewrite E, Nat.eqb_refl. f_equal. exact IH.
    + exact IH.
  - destruct (negb _); cbn [filter_map]; [|exact IH].
    destruct (Nat.eqb_spec (from_tok (is_fwd d) rb) (dir_idx d)); [easy|exact IH].
Qed.

(** ** Ranges stay in the line *)

Lemma assigned_rel_in l lg t : Repr l lg -> rel_in (length (ll_tokens l)) (assigned t lg).
Proof.
  intros HR. pose proof (rp_in _ _ HR) as HI. unfold in_line, rel_in in *. rewrite Forall_forall in *. intros [r v] Hin.
  unfold assigned in Hin. apply in_filter_map in Hin. destruct Hin as ([r' a] & Hin & E).
  destruct (downcast t a); inversion E; subst. apply (HI _ Hin).
Qed.

Lemma rel_in_filter {A} n p (l : list (LRange * A)) : rel_in n l -> rel_in n (filter p l).
Proof. unfold rel_in. rewrite !Forall_forall. intros H x Hx. apply filter_In in Hx. now apply H. Qed.

Lemma rel_in_on_value {A B} n (f : A -> B) l : rel_in n l -> rel_in n (on_value f l).
Proof.
  unfold rel_in. rewrite !Forall_forall. intros H x Hx. apply in_map_iff in Hx. destruct Hx as ([r a] & <- & Hx).
  apply (H _ Hx).
Qed.

Lemma rel_in_followed {A B} n fwd (la : list (LRange * A)) (lb : list (LRange * B)) :
  rel_in n la -> rel_in n lb -> rel_in n (followed_by fwd la lb).
Proof.
  unfold rel_in. rewrite !Forall_forall. intros Ha Hb x Hx. apply in_flat_map in Hx. destruct Hx as ([ra a] & Hia & Hx).
  apply in_filter_map in Hx. destruct Hx as ([rb b] & Hib & E). destruct (adjacent fwd ra rb); inversion E; subst.
  specialize (Ha _ Hia). specialize (Hb _ Hib). destruct fwd; simpl in *; lia.
Qed.

Lemma rel_in_both {A B} n (la : list (LRange * A)) (lb : list (LRange * B)) :
  rel_in n la -> rel_in n (both_on la lb).
Proof.
  unfold rel_in. rewrite !Forall_forall. intros Ha x Hx. apply in_flat_map in Hx. destruct Hx as ([ra a] & Hia & Hx).
  apply in_filter_map in Hx. destruct Hx as ([rb b] & Hib & E). destruct (range_eqb ra rb); inversion E; subst.
  apply (Ha _ Hia).
Qed.

Lemma meaning_in fwd l lg A (e : mexp A) : Repr l lg ->
  rel_in (length (ll_tokens l)) (meaning fwd (ll_tokens l) lg e).
Proof.
  intros HR. induction e; cbn [meaning].
  - now apply assigned_rel_in.
  - now apply rel_in_on_value, rel_in_filter, assigned_rel_in.
  - now apply rel_in_filter, assigned_rel_in.
  - unfold rel_in. rewrite Forall_forall. intros x Hx. apply in_map_iff in Hx. destruct Hx as ([i s] & <- & Hx).
    apply text_tokens_In in Hx. destruct Hx as (tok & tag & Hn & _). apply nth_error_lt_rev in Hn. simpl. auto.
  - now apply rel_in_both.
  - now apply rel_in_both, rel_in_both.
  - apply Forall_app. split; apply rel_in_on_value; auto. now apply rel_in_filter.
  - repeat (apply Forall_app; split); apply rel_in_on_value; auto; repeat apply rel_in_filter; auto.
  - now apply rel_in_followed.
  - now repeat apply rel_in_followed.
Qed.

(** ** The matchers *)

Lemma perm_nil_case {A B} (l1 l2 : list A) (x y : B) : Permutation l1 l2 ->
  match l1 with [] => x | _ :: _ => y end = match l2 with [] => x | _ :: _ => y end.
Proof.
  intros H. destruct l1 as [|a l1].
  - apply Permutation_nil in H. now subst.
  - destruct l2; [|reflexivity]. symmetry in H. apply Permutation_nil in H. discriminate.
Qed.

Lemma all2_perm {A B} (al al' : list (A * nat)) (bl bl' : list (B * nat)) :
  Permutation al al' -> Permutation bl bl' ->
  Permutation (flat_map (fun '(a, ai) => filter_map (fun '(b, bi) => if Nat.eqb ai bi then Some ((a, b), ai) else None) bl) al)
              (flat_map (fun '(a, ai) => filter_map (fun '(b, bi) => if Nat.eqb ai bi then Some ((a, b), ai) else None) bl') al').
Proof.
  intros Ha Hb. etransitivity; [apply flat_map_perm; exact Ha|]. clear Ha.
  induction al' as [|[a ai] al' IH]; cbn [flat_map]; auto. apply Permutation_app; auto. now apply filter_map_length_perm.
Qed.

Definition means {A} (m : matcher A) (l : LLLine) (d : direction) (rel : list (LRange * A)) : Prop :=
  exists ms, m d l = Ok ms /\ Permutation ms (at_point d rel).

Lemma means_all2 {A B} (ma : matcher A) (mb : matcher B) l d la lb :
  means ma l d la -> means mb l d lb -> means (x_all2 ma mb) l d (both_on la lb).
Proof.
  intros (al & Ea & Pa) (bl & Eb & Pb). unfold means, x_all2. rewrite Ea, Eb. cbn [bind].
  eexists. split; [reflexivity|]. rewrite at_point_both. now apply all2_perm.
Qed.

Lemma next_dir_after d l j : dir_after d j l = next_dir d (length (ll_tokens l)) j.
Proof. destruct d; reflexivity. Qed.

Lemma means_seq2 {A B} (ma : matcher A) (mb : matcher B) l d la lb :
  rel_in (length (ll_tokens l)) la -> rel_in (length (ll_tokens l)) lb ->
  means ma l d la ->
  (forall d', is_fwd d' = is_fwd d -> dir_idx d' < length (ll_tokens l) -> means mb l d' lb) ->
  means (x_seq2 ma mb) l d (followed_by (is_fwd d) la lb).
Proof.
  intros HIa HIb (al & Ea & Pa) HB. unfold means, x_seq2. rewrite Ea. cbn [bind].
  rewrite (at_point_followed d (length (ll_tokens l))) by auto.
  destruct (flat_mapM_perm
    (fun '(a, i) => bl <- go_after mb d i l;; Ok (map (fun '(b, j) => (a, b, j)) bl))
    (fun '(a, j) => map (fun '(b, e) => ((a, b), e))
       (match next_dir d (length (ll_tokens l)) j with Some d' => at_point d' lb | None => [] end)) al)
    as (bs & E & P).
  { intros [a j] Hin. unfold go_after. rewrite next_dir_after.
    destruct (next_dir d (length (ll_tokens l)) j) as [d'|] eqn:Ed; cbn [bind].
    - destruct (HB d') as (bl & Eb & Pb).
      + destruct d; simpl in Ed; destruct (_ <? _) in Ed; inversion Ed; reflexivity.
      + apply (Permutation_in _ Pa), at_point_In in Hin. destruct Hin as (r & Hr & _ & Ht).
        unfold rel_in in HIa. rewrite Forall_forall in HIa. specialize (HIa _ Hr).
        destruct d; simpl in *; destruct (_ <? _) eqn:El in Ed; inversion Ed; subst; simpl;
          apply Nat.ltb_lt in El; lia.
      + rewrite Eb. cbn [bind]. eexists. split; [reflexivity|]. now apply Permutation_map.
    - eexists. split; [reflexivity|]. constructor. }
  exists bs. split; [exact E|]. rewrite P. now apply flat_map_perm.
Qed.

Lemma means_any2 {A B} (ma : matcher A) (mb : matcher B) l d la lb :
  means ma l d la -> means mb l d lb ->
  means (x_any_of2 ma mb) l d (on_value A2_A la ++ on_value A2_B (where_none (is_fwd d) la lb)).
Proof.
  intros (al & Ea & Pa) (bl & Eb & Pb). unfold means, x_any_of2. rewrite Ea. cbn [bind].
  rewrite at_point_app, !at_point_on_value, at_point_where_none, <- (perm_nil_case _ _ _ _ Pa).
  destruct al as [|x al].
  - rewrite Eb. cbn [bind]. eexists. split; [reflexivity|]. apply Permutation_nil in Pa. rewrite Pa. cbn [map app].
    rewrite <- Pb. apply Permutation_refl', map_ext. now intros [b i].
  - eexists. split; [reflexivity|]. cbn [map]. rewrite app_nil_r, <- Pa.
    apply Permutation_refl', (map_ext (fun '(a, i) => (A2_A a, i)) (fun y => (A2_A (fst y), snd y))) with (l := x :: al). now intros [a i].
Qed.

Lemma means_any3 {A B C} (ma : matcher A) (mb : matcher B) (mc : matcher C) l d la lb lc :
  means ma l d la -> means mb l d lb -> means mc l d lc ->
  means (x_any_of3 ma mb mc) l d
    (on_value A3_A la ++ on_value A3_B (where_none (is_fwd d) la lb)
     ++ on_value A3_C (where_none (is_fwd d) la (where_none (is_fwd d) lb lc))).
Proof.
  intros (al & Ea & Pa) (bl & Eb & Pb) (cl & Ec & Pc). unfold means, x_any_of3. rewrite Ea. cbn [bind].
  rewrite !at_point_app, !at_point_on_value, !at_point_where_none, <- !(perm_nil_case _ _ _ _ Pa), <- !(perm_nil_case _ _ _ _ Pb).
  destruct al as [|x al].
  - apply Permutation_nil in Pa. rewrite Pa. rewrite Eb. cbn [bind map app]. destruct bl as [|y bl].
    + apply Permutation_nil in Pb. rewrite Pb, Ec. cbn [bind map app]. eexists. split; [reflexivity|].
      rewrite <- Pc. apply Permutation_refl', map_ext. now intros [c i].
    + eexists. split; [reflexivity|]. cbn [map]. rewrite app_nil_r, <- Pb.
      apply Permutation_refl', (map_ext (fun '(b, i) => (A3_B b, i)) (fun z => (A3_B (fst z), snd z))) with (l := y :: bl). now intros [b i].
  - eexists. split; [reflexivity|]. cbn [map app]. rewrite app_nil_r, <- Pa.
    apply Permutation_refl', (map_ext (fun '(a, i) => (A3_A a, i)) (fun y => (A3_A (fst y), snd y))) with (l := x :: al). now intros [a i].
Qed.

(** C57: at every token, in both directions, what a matcher made from the library's
    constructors reports is what the expression means. *)
Lemma thm_C57_meaning :
  forall l lg A (e : mexp A) d,
    History l lg -> applicable e l lg -> dir_idx d < length (ll_tokens l) ->
    exists ms, matcher_of e d l = Ok ms
      /\ Permutation ms (at_point d (meaning (is_fwd d) (ll_tokens l) lg e)).
Proof.
  intros l lg A e d H. pose proof (history_repr _ _ H) as HR. revert d.
  assert (HX : forall A (e : mexp A) d, applicable e l lg -> dir_idx d < length (ll_tokens l) ->
    means (matcher_of e) l d (meaning (is_fwd d) (ll_tokens l) lg e)).
  2:{ intros d HF Hd. exact (HX A e d HF Hd). }
  clear A e.
  assert (F1 : forall A (a : mexp A) b, (uses_has_any a || b = true -> forall i, i < length (ll_tokens l) -> attributed i lg) -> applicable a l lg).
  { intros A a b HF Hu. apply HF. now rewrite Hu. }
  assert (F2 : forall A (a : mexp A) b, (b || uses_has_any a = true -> forall i, i < length (ll_tokens l) -> attributed i lg) -> applicable a l lg).
  { intros A a b HF Hu. apply HF. rewrite Hu. apply orb_true_r. }
  intros A e. induction e; intros d HF Hd; cbn [matcher_of meaning]; unfold applicable in HF; cbn [uses_has_any] in HF.
  - destruct (thm_C15_attr l lg t (dir_idx d) H Hd) as [(m1 & E1 & P1) (m2 & E2 & P2)]. destruct d; cbn [dir_idx] in *; eexists; split; eauto.
  - destruct (thm_C15_attr_eq l lg t eqT v (dir_idx d) H Hd) as [(m1 & E1 & P1) (m2 & E2 & P2)].
    destruct d; cbn [dir_idx] in *; eexists; (split; [eassumption|]); rewrite at_point_on_value; [rewrite P1|rewrite P2];
      perm_eq; unfold passing, starting_at, ending_at, at_point; f_equal;
      generalize (assigned t lg) as al; intros al; rewrite filter_filter_map, filter_map_filter; apply filter_map_ext; intros [r w] _; simpl;
      destruct (Nat.eqb _ _); simpl; destruct (eqT w v); reflexivity.
  - destruct (thm_C18_token_has_any l lg t eqT set (dir_idx d) H Hd) as (_ & E1 & (m2 & E2 & P2)).
    destruct d as [i|i]; cbn [dir_idx is_fwd] in *.
    + eexists; split; [apply E1; auto|]. perm_eq. unfold at_point, values_on.
      generalize (assigned t lg) as al. intros al. rewrite filter_filter_map, map_filter_map, filter_map_filter. apply filter_map_ext. intros [[s e] w] _. simpl.
      unfold range_eqb. simpl. destruct (Nat.eqb_spec s i), (Nat.eqb_spec e i), (Nat.eqb_spec s e); subst; simpl; try easy;
        destruct (existsb _ set); reflexivity.
    + eexists; split; [eassumption|]. rewrite P2. perm_eq. unfold passing, ending_at, at_point.
      generalize (assigned t lg) as al. intros al. rewrite filter_filter_map, filter_map_filter. apply filter_map_ext. intros [[s e] w] _. simpl.
      destruct (Nat.eqb e i); simpl; destruct (existsb _ set); reflexivity.
  - destruct (nth_error_lt _ _ Hd) as (tok & Hn).
    assert (HT : forall i tok, nth_error (ll_tokens l) i = Some tok ->
              filter_map (fun '(k, s) => if Nat.eqb k i then Some (s, k) else None) (text_tokens (ll_tokens l))
              = map (fun s => (s, i)) (text_of tok)).
    { clear. intros i tok. unfold text_tokens.
      assert (HG : forall k, k <= i -> nth_error (ll_tokens l) (i - k) = Some tok ->
        filter_map (fun '(k, s) => if Nat.eqb k i then Some (s, k) else None)
          (filter_map (fun '(i, tok) => match token tok with LText s _ => Some (i, s) | LValue => None end) (enumerate_from k (ll_tokens l)))
        = map (fun s => (s, i)) (text_of tok)).
      { generalize (ll_tokens l) as ts. induction ts as [|t ts IH]; intros k Hk Hn; [now destruct (i - k)|].
        cbn [enumerate_from filter_map]. destruct (Nat.eq_dec k i) as [->|Hne].
        - rewrite Nat.sub_diag in Hn. inversion Hn; subst.
          assert (HN : filter_map (fun '(k, s) => if Nat.eqb k i then Some (s, k) else None)
             (filter_map (fun '(i, tok) => match token tok with LText s _ => Some (i, s) | LValue => None end) (enumerate_from (S i) ts)) = []).
          { apply filter_map_none. intros [k s] Hin. apply in_filter_map in Hin. destruct Hin as ([k' t'] & Hin & E).
            apply enumerate_In in Hin. destruct (token t'); inversion E; subst. destruct (Nat.eqb_spec k i); [lia|reflexivity]. }
          unfold text_of. destruct (token tok); cbn [filter_map map]; rewrite ?Nat.eqb_refl, ?HN; reflexivity.
        - replace (i - k) with (S (i - S k)) in Hn by lia. cbn [nth_error] in Hn.
          destruct (token t) as [s tag|]; cbn [filter_map]; [destruct (Nat.eqb_spec k i); [easy|]|]; apply IH; auto; lia. }
      intros Hn. apply HG; [lia|]. now rewrite Nat.sub_0_r. }
    specialize (HT _ _ Hn). destruct d as [i|i]; cbn [dir_idx is_fwd] in *.
    + eexists. split; [apply token_text_at; eassumption|]. unfold at_point. rewrite filter_map_map.
      rewrite <- HT. perm_eq; apply filter_map_ext. now intros [k s].
    + exists (map (fun s => (s, i)) (text_of tok)). split.
      * unfold x_token_text, dir_text_token, text_of. rewrite Hn. cbn [bind]. destruct (token tok); reflexivity.
      * unfold at_point. rewrite filter_map_map.
        rewrite <- HT. perm_eq; apply filter_map_ext. now intros [k s].
  - apply means_all2; eauto.
  - destruct (means_all2 _ _ l d _ _ (means_all2 _ _ l d _ _ (IHe1 d (F1 _ _ _ (fun q => HF (orb_true_intro _ _ (or_introl q)))) Hd) (IHe2 d (F2 _ _ _ (fun q => HF (orb_true_intro _ _ (or_introl q)))) Hd)) (IHe3 d (F2 _ _ _ HF) Hd)) as (ms & E & P).
    exists ms. split; auto. now apply (thm_C54_all3 l _ _ _ (matcher_of e1) (matcher_of e2) (matcher_of e3) d ms).
  - apply means_any2; eauto.
  - apply means_any3; eauto.
    + apply IHe1; auto. intros q. apply HF. now rewrite q.
    + apply IHe2; auto. intros q. apply HF. now rewrite q, orb_true_r.
  - apply means_seq2; eauto using meaning_in. intros d' Ed' Hd'. rewrite <- Ed'. eauto.
  - assert (M : means (x_seq2 (x_seq2 (matcher_of e1) (matcher_of e2)) (matcher_of e3)) l d
       (followed_by (is_fwd d) (followed_by (is_fwd d) (meaning (is_fwd d) (ll_tokens l) lg e1) (meaning (is_fwd d) (ll_tokens l) lg e2))
          (meaning (is_fwd d) (ll_tokens l) lg e3))).
    { apply means_seq2.
      - apply rel_in_followed; now apply meaning_in.
      - now apply meaning_in.
      - apply means_seq2; eauto using meaning_in.
        + apply IHe1; auto. intros q. apply HF. now rewrite q.
        + intros d' Ed' Hd'. rewrite <- Ed'. apply IHe2; auto. intros q. apply HF. now rewrite q, orb_true_r.
      - intros d' Ed' Hd'. rewrite <- Ed'. eauto. }
    destruct M as (ms & E & P). exists ms. split; auto.
    now apply (thm_C54_seq3_left l _ _ _ (matcher_of e1) (matcher_of e2) (matcher_of e3) d ms).
Qed.

(** C57: every matcher that can be written with the library is such an expression. *)
Lemma thm_C57_every_matcher :
  forall has A (m : matcher A),
    lib_matcher any_ty has A m <-> exists e : mexp A, matcher_of e = m /\ uses_has_any e = has.
Proof.
  intros has A m. split.
  - induction 1.
    + now exists (M_attr t).
    + now exists (M_attr_eq t eqT v).
    + now exists (M_has_any t eqT set).
    + now exists M_text.
    + destruct IHlib_matcher1 as (e1 & <- & <-), IHlib_matcher2 as (e2 & <- & <-). now exists (M_all2 _ _ e1 e2).
    + destruct IHlib_matcher1 as (e1 & <- & <-), IHlib_matcher2 as (e2 & <- & <-), IHlib_matcher3 as (e3 & <- & <-).
      now exists (M_all3 _ _ _ e1 e2 e3).
    + destruct IHlib_matcher1 as (e1 & <- & <-), IHlib_matcher2 as (e2 & <- & <-). now exists (M_any2 _ _ e1 e2).
    + destruct IHlib_matcher1 as (e1 & <- & <-), IHlib_matcher2 as (e2 & <- & <-), IHlib_matcher3 as (e3 & <- & <-).
      now exists (M_any3 _ _ _ e1 e2 e3).
    + destruct IHlib_matcher1 as (e1 & <- & <-), IHlib_matcher2 as (e2 & <- & <-). now exists (M_seq2 _ _ e1 e2).
    + destruct IHlib_matcher1 as (e1 & <- & <-), IHlib_matcher2 as (e2 & <- & <-), IHlib_matcher3 as (e3 & <- & <-).
      now exists (M_seq3 _ _ _ e1 e2 e3).
  - intros (e & <- & <-). induction e; cbn [matcher_of uses_has_any].
    + now apply LM_attr.
    + now apply LM_attr_eq.
    + now apply LM_token_has_any.
    + apply LM_token_text.
    + now apply LM_all2.
    + now apply LM_all3.
    + now apply LM_any2.
    + now apply LM_any3.
    + now apply LM_seq2.
    + now apply LM_seq3.
Qed.

(** ** Searching *)

Lemma flat_map_split {A B} (f g : A -> list B) l :
  Permutation (flat_map (fun a => f a ++ g a) l) (flat_map f l ++ flat_map g l).
Proof.
  induction l as [|a l IH]; cbn [flat_map]; auto. rewrite IH, <- !app_assoc. apply Permutation_app_head.
  rewrite !app_assoc. apply Permutation_app_tail, Permutation_app_comm.
Qed.

Lemma flat_map_at {B} (x : B) k lo n :
  flat_map (fun i => if Nat.eqb k i then [x] else []) (seq lo n) = if (lo <=? k) && (k <? lo + n) then [x] else [].
Proof.
  revert lo. induction n as [|n IH]; intros lo; cbn [seq flat_map].
  - destruct (Nat.leb_spec lo k), (Nat.ltb_spec k (lo + 0)); simpl; auto; lia.
  - rewrite IH. destruct (Nat.eqb_spec k lo) as [->|Hne].
    + destruct (Nat.leb_spec (S lo) lo), (Nat.leb_spec lo lo), (Nat.ltb_spec lo (lo + S n)); simpl; auto; lia.
    + destruct (Nat.leb_spec (S lo) k), (Nat.ltb_spec k (S lo + n)), (Nat.leb_spec lo k), (Nat.ltb_spec k (lo + S n)); simpl; auto; lia.
Qed.

Lemma gather_fwd {A} (l : list (LRange * A)) lo n :
  Permutation (flat_map (fun i => map (fun '(a, j) => ((i, j), a)) (at_point (Fwd i) l)) (seq lo n))
              (filter (fun x => (lo <=? fst (fst x)) && (fst (fst x) <? lo + n)) l).
Proof.
  induction l as [|[[s e] a] l IH].
  - rewrite flat_map_nil; auto.
  - transitivity (flat_map (fun i => (if Nat.eqb s i then [((s, e), a)] else []) ++ map (fun '(a, j) => ((i, j), a)) (at_point (Fwd i) l)) (seq lo n)).
    + perm_eq. apply flat_map_ext. intros i. cbn [at_point filter_map fst snd]. destruct (Nat.eqb_spec s i); subst; reflexivity.
    + rewrite flat_map_split, IH, flat_map_at. cbn [filter fst]. destruct (_ && _); reflexivity.
Qed.

Lemma gather_bwd {A} (l : list (LRange * A)) lo n :
  Permutation (flat_map (fun i => map (fun '(a, j) => ((j, i), a)) (at_point (Bwd i) l)) (seq lo n))
              (filter (fun x => (lo <=? snd (fst x)) && (snd (fst x) <? lo + n)) l).
Proof.
  induction l as [|[[s e] a] l IH].
  - rewrite flat_map_nil; auto.
  - transitivity (flat_map (fun i => (if Nat.eqb e i then [((s, e), a)] else []) ++ map (fun '(a, j) => ((j, i), a)) (at_point (Bwd i) l)) (seq lo n)).
    + perm_eq. apply flat_map_ext. intros i. cbn [at_point filter_map fst snd]. destruct (Nat.eqb_spec e i); subst; reflexivity.
    + rewrite flat_map_split, IH, flat_map_at. cbn [filter fst snd]. destruct (_ && _); reflexivity.
Qed.

Lemma flat_map_perm_ext {A B} (f g : A -> list B) l :
  (forall a, In a l -> Permutation (f a) (g a)) -> Permutation (flat_map f l) (flat_map g l).
Proof.
  induction l as [|a l IH]; cbn [flat_map]; intros H; auto. apply Permutation_app; [apply H|apply IH; intros; apply H]; simpl; auto.
Qed.

Lemma range_filter (f : LRange -> nat) {A} s e (l : list (LRange * A)) : s <= S e ->
  filter (fun x => (s <=? f (fst x)) && (f (fst x) <? s + (S e - s))) l
  = filter (fun x => (s <=? f (fst x)) && (f (fst x) <=? e)) l.
Proof.
  intros H. apply filter_ext. intros x. f_equal.
  destruct (Nat.ltb_spec (f (fst x)) (s + (S e - s))), (Nat.leb_spec (f (fst x)) e); auto; lia.
Qed.

(** C57: searching a selection finds the part of the meaning that begins in it. *)
Lemma thm_C57_find_by :
  forall A s (e : mexp A) lg,
    History (line_of s) lg -> applicable e (line_of s) lg -> sel_ok s ->
    exists found, find_by s (matcher_of e) = Ok found
      /\ (forall s' a, In (s', a) found -> sel_line s' = sel_line s)
      /\ StronglySorted le (map (fun x => fst (fst x)) (found_pairs found))
      /\ Permutation (found_pairs found) (beginning_in s (meaning true (ll_tokens (line_of s)) lg e)).
Proof.
  intros A s e lg H HA Hs.
  assert (HM : forall i, covers s i -> exists ms, matcher_of e (Fwd i) (line_of s) = Ok ms
     /\ Permutation ms (at_point (Fwd i) (meaning true (ll_tokens (line_of s)) lg e))).
  { intros i Hi. apply (thm_C57_meaning (line_of s) lg A e (Fwd i) H HA). unfold covers, sel_ok, line_len in *. simpl. lia. }
  destruct (proj2 (thm_C25_ok_iff A s (matcher_of e))) as (found & EF).
  { intros i Hi. destruct (HM i Hi) as (ms & E & _). eauto. }
  exists found. split; auto. destruct (thm_C25_find_by A s (matcher_of e) found EF) as (HI & HS & _). split; [|split].
  - intros s' a Hin. now apply HI in Hin.
  - unfold found_pairs. rewrite map_map. exact HS.
  - unfold find_by in EF.
    destruct (flat_mapM_perm
      (fun i => ms <- matcher_of e (Fwd i) (line_of s);; Ok (map (fun '(out, j) => (mkSel (sel_line s) i j, out)) ms))
      (fun i => map (fun '(out, j) => (mkSel (sel_line s) i j, out)) (at_point (Fwd i) (meaning true (ll_tokens (line_of s)) lg e)))
      (range_incl (start_idx s) (end_idx s))) as (found' & E' & P').
    { intros i Hi. apply in_range_incl in Hi. destruct (HM i Hi) as (ms & E & P). rewrite E. cbn [bind].
      eexists. split; [reflexivity|]. now apply Permutation_map. }
    assert (found' = found) by congruence. subst found'. clear E'.
    unfold found_pairs. rewrite (Permutation_map _ P'), flat_map_concat_map, concat_map, map_map, <- flat_map_concat_map.
    unfold beginning_in. rewrite <- (range_filter fst) by (unfold sel_ok in Hs; lia).
    rewrite <- gather_fwd. unfold range_incl. perm_eq. apply flat_map_ext. intros i. rewrite map_map. apply map_ext. now intros [a j].
Qed.

(** C57: ... and searching in both directions also what ends in it, read backwards. *)
Lemma thm_C57_find_both :
  forall A s (e : mexp A) lg,
    History (line_of s) lg -> applicable e (line_of s) lg -> sel_ok s ->
    exists found, find_by_forwards_and_backwards s (matcher_of e) = Ok found
      /\ (forall s' a, In (s', a) found -> sel_line s' = sel_line s)
      /\ Permutation (found_pairs found)
           (beginning_in s (meaning true (ll_tokens (line_of s)) lg e)
            ++ ending_in s (meaning false (ll_tokens (line_of s)) lg e)).
Proof.
  intros A s e lg H HA Hs.
  assert (HM : forall d, covers s (dir_idx d) -> exists ms, matcher_of e d (line_of s) = Ok ms
     /\ Permutation ms (at_point d (meaning (is_fwd d) (ll_tokens (line_of s)) lg e))).
  { intros d Hi. apply (thm_C57_meaning (line_of s) lg A e d H HA). unfold covers, sel_ok, line_len in *. lia. }
  unfold find_by_forwards_and_backwards.
  set (F := meaning true (ll_tokens (line_of s)) lg e) in *. set (B := meaning false (ll_tokens (line_of s)) lg e) in *.
  destruct (flat_mapM_perm
      (fun i => fs <- matcher_of e (Fwd i) (line_of s);; bs <- matcher_of e (Bwd i) (line_of s);;
         Ok (map (fun '(out, j) => (mkSel (sel_line s) i j, out)) fs ++ map (fun '(out, j) => (mkSel (sel_line s) j i, out)) bs))
      (fun i => map (fun '(out, j) => (mkSel (sel_line s) i j, out)) (at_point (Fwd i) F)
             ++ map (fun '(out, j) => (mkSel (sel_line s) j i, out)) (at_point (Bwd i) B))
      (range_incl (start_idx s) (end_idx s))) as (found & E & P).
  { intros i Hi. apply in_range_incl in Hi.
    destruct (HM (Fwd i) Hi) as (fs & E1 & P1). destruct (HM (Bwd i) Hi) as (bs & E2 & P2). rewrite E1, E2. cbn [bind].
    eexists. split; [reflexivity|]. now apply Permutation_app; apply Permutation_map. }
  exists found. split; auto. split.
  - intros s' a Hin. apply (Permutation_in _ P), in_flat_map in Hin. destruct Hin as (i & _ & Hin).
    apply in_app_iff in Hin. destruct Hin as [Hin|Hin]; apply in_map_iff in Hin; destruct Hin as ([x j] & E' & _); now inversion E'.
  - unfold found_pairs. rewrite (Permutation_map _ P), flat_map_concat_map, concat_map, map_map, <- flat_map_concat_map.
    unfold beginning_in, ending_in. rewrite <- (range_filter fst), <- (range_filter snd) by (unfold sel_ok in Hs; lia).
    rewrite <- gather_fwd, <- gather_bwd, <- flat_map_split. unfold range_incl. perm_eq. apply flat_map_ext. intros i.
    rewrite map_app, !map_map. f_equal; apply map_ext; now intros [a j].
Qed.

Lemma beginning_in_whole {A} id l (rel : list (LRange * A)) : rel_in (length (ll_tokens l)) rel ->
  beginning_in (whole id l) rel = rel /\ ending_in (whole id l) rel = rel.
Proof.
  intros H. unfold rel_in in H. rewrite Forall_forall in H.
  split; apply filter_all; intros x Hx; specialize (H x Hx); cbn [whole start_idx end_idx];
    apply andb_true_iff; split; apply Nat.leb_le; lia.
Qed.

(** C57: a resolver that searches with a matcher expression and finishes each result with
    [f] assigns exactly the meaning of the expression. *)
Lemma thm_C57_run :
  forall t id l lg A (e : mexp A) (f : A -> den t),
    History l lg -> applicable e l lg ->
    exists out, runs_to id l lg (find_resolver t (matcher_of e) f) out
      /\ Permutation out (on_value f (meaning true (ll_tokens l) lg e)).
Proof.
  intros t id l lg A e f H HA. pose proof (history_repr _ _ H) as HR. pose proof (meaning_in true l lg A e HR) as HM.
  destruct (ll_tokens l) as [|t0 ts] eqn:ET.
  - exists []. split.
    + apply runs_to_intro; auto. rewrite ET. easy.
    + destruct (meaning true [] lg e) as [|x rel] eqn:Em; [constructor|]. apply Forall_inv in HM. simpl in HM. lia.
  - rewrite <- ET in *. assert (HL : 0 < length (ll_tokens l)) by (rewrite ET; simpl; lia).
    destruct (thm_C57_find_by A (whole id l) e lg H HA) as (found & EF & _ & _ & P).
    { unfold sel_ok, line_len. cbn [whole start_idx end_idx line_of sel_line rc_line]. lia. }
    cbn [line_of whole sel_line rc_line] in P. fold (whole id l) in P. rewrite (proj1 (beginning_in_whole id l _ HM)) in P.
    exists (on_value f (found_pairs found)). split.
    + apply runs_to_intro; auto.
      * intros E. rewrite E in ET. discriminate.
      * intros _. unfold find_resolver. rewrite EF. cbn [bind]. eexists. split; [reflexivity|].
        unfold finish_with, on_value, found_pairs. rewrite !map_map. apply map_ext. now intros [s a].
      * apply rel_in_on_value. unfold rel_in. eapply Permutation_Forall; [symmetry; exact P|exact HM].
    + unfold on_value. now apply Permutation_map.
Qed.

Lemma thm_C57_run_both :
  forall t id l lg A (e : mexp A) (f : A -> den t),
    History l lg -> applicable e l lg ->
    exists out, runs_to id l lg (find_both_resolver t (matcher_of e) f) out
      /\ Permutation out (on_value f (meaning true (ll_tokens l) lg e ++ meaning false (ll_tokens l) lg e)).
Proof.
  intros t id l lg A e f H HA. pose proof (history_repr _ _ H) as HR.
  pose proof (meaning_in true l lg A e HR) as HM. pose proof (meaning_in false l lg A e HR) as HM'.
  destruct (ll_tokens l) as [|t0 ts] eqn:ET.
  - exists []. split.
    + apply runs_to_intro; auto. rewrite ET. easy.
    + destruct (meaning true [] lg e) as [|x rel] eqn:Em.
      * destruct (meaning false [] lg e) as [|x rel'] eqn:Em'; [constructor|]. apply Forall_inv in HM'. simpl in HM'. lia.
      * apply Forall_inv in HM. simpl in HM. lia.
  - rewrite <- ET in *. assert (HL : 0 < length (ll_tokens l)) by (rewrite ET; simpl; lia).
    destruct (thm_C57_find_both A (whole id l) e lg H HA) as (found & EF & _ & P).
    { unfold sel_ok, line_len. cbn [whole start_idx end_idx line_of sel_line rc_line]. lia. }
    cbn [line_of whole sel_line rc_line] in P. fold (whole id l) in P.
    rewrite (proj1 (beginning_in_whole id l _ HM)), (proj2 (beginning_in_whole id l _ HM')) in P.
    exists (on_value f (found_pairs found)). split.
    + apply runs_to_intro; auto.
      * intros E. rewrite E in ET. discriminate.
      * intros _. unfold find_both_resolver. rewrite EF. cbn [bind]. eexists. split; [reflexivity|].
        unfold finish_with, on_value, found_pairs. rewrite !map_map. apply map_ext. now intros [s a].
      * apply rel_in_on_value. unfold rel_in. eapply Permutation_Forall; [symmetry; exact P|].
        apply Forall_app. now split.
    + unfold on_value. now apply Permutation_map.
Qed.

(** C57: [LLLine::find] reports the meaning of the expression, with the positions
    of the tokens at the ends of the ranges. *)
Lemma thm_C57_find :
  forall l lg A (e : mexp A),
    History l lg -> applicable e l lg ->
    exists fs rel, find l (matcher_of e) = Ok fs
      /\ Permutation rel (meaning true (ll_tokens l) lg e)
      /\ Forall2 (fun x y => exists ts te, nth_error (ll_tokens l) (fst (fst y)) = Some ts
                    /\ nth_error (ll_tokens l) (snd (fst y)) = Some te
                    /\ start_pos_at x = pos_starts_at ts /\ end_pos_at x = pos_ends_at te
                    /\ found x = snd y) fs rel.
Proof.
  intros l lg A e H HA. pose proof (history_repr _ _ H) as HR. pose proof (meaning_in true l lg A e HR) as HM.
  set (R := meaning true (ll_tokens l) lg e) in *.
  assert (HX : forall k lo, lo + k <= length (ll_tokens l) ->
    exists fs rel, flat_mapM (fun i => ms <- matcher_of e (Fwd i) l;;
        mapM (fun '(out, j) => s <- pos_start_at l i;; e <- pos_end_at l j;; Ok (mkFind s e out)) ms) (seq lo k) = Ok fs
      /\ Permutation rel (flat_map (fun i => map (fun '(a, j) => ((i, j), a)) (at_point (Fwd i) R)) (seq lo k))
      /\ Forall2 (fun x y => exists ts te, nth_error (ll_tokens l) (fst (fst y)) = Some ts
                    /\ nth_error (ll_tokens l) (snd (fst y)) = Some te
                    /\ start_pos_at x = pos_starts_at ts /\ end_pos_at x = pos_ends_at te
                    /\ found x = snd y) fs rel).
  { induction k as [|k IH]; intros lo Hk; cbn [seq].
    - exists [], []. repeat split; constructor.
    - rewrite flat_mapM_cons. destruct (thm_C57_meaning l lg A e (Fwd lo) H HA) as (ms & E & P); [simpl; lia|].
      destruct (IH (S lo)) as (fs & rel & Ef & Pf & FF); [lia|].
      rewrite E, Ef. cbn [bind is_fwd] in *. fold R in P.
      assert (HF : Forall (fun x => snd x < length (ll_tokens l)) ms).
      { apply Forall_forall. intros [a j] Hin. apply (Permutation_in _ P), at_point_In in Hin. destruct Hin as (r & Hr & _ & <-).
        unfold rel_in in HM. rewrite Forall_forall in HM. apply (HM _ Hr). }
      assert (HE : exists fm, mapM (fun '(out, j) => s <- pos_start_at l lo;; e <- pos_end_at l j;; Ok (mkFind s e out)) ms = Ok fm
        /\ Forall2 (fun x y => exists ts te, nth_error (ll_tokens l) (fst (fst y)) = Some ts
                    /\ nth_error (ll_tokens l) (snd (fst y)) = Some te
                    /\ start_pos_at x = pos_starts_at ts /\ end_pos_at x = pos_ends_at te
                    /\ found x = snd y) fm (map (fun '(a, j) => ((lo, j), a)) ms)).
      { clear E P. destruct (nth_error_lt (ll_tokens l) lo) as (ts & Es); [lia|].
        induction HF as [|[a j] ms Hj HF IHm]; [exists []; split; constructor|].
        destruct IHm as (fm & Em & Fm). destruct (nth_error_lt (ll_tokens l) j Hj) as (te & Ee).
        eexists. cbn [mapM]. unfold pos_start_at, pos_end_at in *. rewrite Es, Ee. cbn [expect bind]. cbn [expect bind] in Em.
        rewrite Es in Em. cbn [expect bind] in Em. rewrite Em. cbn [bind]. split; [reflexivity|]. cbn [map]. constructor; auto.
        exists ts, te. auto. }
      destruct HE as (fm & Em & Fm). rewrite Em. cbn [bind].
      exists (fm ++ fs), (map (fun '(a, j) => ((lo, j), a)) ms ++ rel). split; [reflexivity|]. split.
      + cbn [flat_map]. apply Permutation_app; auto. now apply Permutation_map.
      + now apply Forall2_app. }
  destruct (HX (length (ll_tokens l)) 0) as (fs & rel & E & P & F); [lia|].
  exists fs, rel. split; [exact E|]. split; auto. rewrite P, gather_fwd. perm_eq. apply filter_all.
  intros x Hx. unfold rel_in in HM. rewrite Forall_forall in HM. specialize (HM x Hx). simpl. apply Nat.ltb_lt. lia.
Qed.

(** ** Currencies *)

(** C57: an amount right before or right after a currency symbol, and nothing else,
    becomes a currency amount on the joint range. *)
Lemma thm_C57_currency :
  forall tS tA tC (f : den tS * den tA -> den tC) id l lg,
    History l lg ->
    exists out, runs_to id l lg (currency_amount_resolver tS tA tC f) out
      /\ forall r c, In (r, c) out <->
           exists rs s ra a, In (rs, s) (assigned tS lg) /\ In (ra, a) (assigned tA lg) /\ c = f (s, a)
             /\ ((fst ra = S (snd rs) /\ r = (fst rs, snd ra)) \/ (fst rs = S (snd ra) /\ r = (fst ra, snd rs))).
Proof.
  intros tS tA tC f id l lg H.
  destruct (thm_C57_run_both tC id l lg _ (M_seq2 _ _ (M_attr tS) (M_attr tA)) f H) as (out & HR & P); [easy|].
  exists out. split; [exact HR|]. intros r c. cbn [meaning] in P.
  assert (HF : forall fwd q, In q (followed_by fwd (assigned tS lg) (assigned tA lg)) <->
     exists rs s ra a, In (rs, s) (assigned tS lg) /\ In (ra, a) (assigned tA lg) /\ adjacent fwd rs ra = true /\ q = (joined fwd rs ra, (s, a))).
  { intros fwd q. unfold followed_by. rewrite in_flat_map. split.
    - intros ([rs s] & Hs & Hq). apply in_filter_map in Hq. destruct Hq as ([ra a] & Ha & E).
      destruct (adjacent fwd rs ra) eqn:Ad; inversion E; subst. exists rs, s, ra, a. auto.
    - intros (rs & s & ra & a & Hs & Ha & Ad & ->). exists (rs, s). split; auto. apply in_filter_map. exists (ra, a). split; auto. now rewrite Ad. }
  assert (HI : In (r, c) out <-> In (r, c) (on_value f (followed_by true (assigned tS lg) (assigned tA lg) ++ followed_by false (assigned tS lg) (assigned tA lg)))).
  { split; apply Permutation_in; [exact P|symmetry; exact P]. }
  rewrite HI. unfold on_value. rewrite in_map_iff. split.
  - intros ([r' x] & E & Hin). inversion E; subst. clear E. apply in_app_iff in Hin. rewrite !HF in Hin.
    destruct Hin as [(rs & s & ra & a & Hs & Ha & Ad & E)|(rs & s & ra & a & Hs & Ha & Ad & E)]; inversion E; subst;
      exists rs, s, ra, a; repeat (split; auto); apply Nat.eqb_eq in Ad; auto.
  - intros (rs & s & ra & a & Hs & Ha & -> & HC). exists (r, (s, a)). split; auto. apply in_app_iff. rewrite !HF.
    destruct HC as [[E ->]|[E ->]]; [left|right]; exists rs, s, ra, a; repeat (split; auto); now apply Nat.eqb_eq.
Qed.

(** C57: the currency symbols are the tokens whose text is one of the two characters. *)
Lemma thm_C57_symbols :
  forall tS (usd euro : den tS) id l lg,
    History l lg -> text_only l -> plain TChar l lg ->
    runs_to id l lg (currency_symbol_resolver tS usd euro)
      (on_tokens (fun _ text => if str_eqb text [36%N] then [usd] else if str_eqb text [8364%N] then [euro] else []) (ll_tokens l)).
Proof.
  intros tS usd euro id l lg H HT HP. apply runs_to_intro; auto.
  - apply on_tokens_nil.
  - intros HN. unfold currency_symbol_resolver.
    rewrite (find_by_tokens id l _ (fun _ tok => filter (fun v => existsb (fun s => N.eqb s v) [8364; 36]%N)
                                       (match token tok with LText [c] _ => [c] | _ => [] end)) HN).
    2:{ intros i tok Hn. pose proof (nth_error_lt_rev _ _ _ Hn) as Hi.
        destruct (thm_C18_token_has_any l lg TChar N.eqb [8364; 36]%N i H Hi) as (_ & E & _). cbn [den] in E.
        rewrite E.
        - rewrite (plain_chars l lg i tok HP Hn). destruct (token tok) as [[|c [|c2 s]] tag|]; reflexivity.
        - destruct (attributed_dec i lg) as [|N]; auto. apply (thm_C18_unattributed l lg i H Hi) in N.
          destruct N as (tok' & Hn' & Et & _). exfalso. apply (HT tok'); auto. eapply nth_error_In; eauto. }
    cbn [bind].
    assert (HM : forall toks k,
      exists ass, mapM (fun '(s, c) => if N.eqb c 36 then Ok (finish_with_attr s usd)
                   else if N.eqb c 8364 then Ok (finish_with_attr s euro) else Panic PUser)
        (flat_map (fun '(i, tok) => map (fun a => (mkSel (mkRc id l) i i, a))
             (filter (fun v => existsb (fun s => N.eqb s v) [8364; 36]%N) (match token tok with LText [c] _ => [c] | _ => [] end)))
          (enumerate_from k toks)) = Ok ass
      /\ map as_pair ass = flat_map (fun '(i, text) => map (pair (i, i))
           (if str_eqb text [36%N] then [usd] else if str_eqb text [8364%N] then [euro] else []))
           (filter_map (fun '(i, tok) => match token tok with LText s _ => Some (i, s) | LValue => None end) (enumerate_from k toks))).
    { set (F := fun '(s, c) => if N.eqb c 36 then Ok (finish_with_attr s usd)
                   else if N.eqb c 8364 then Ok (finish_with_attr s euro) else Panic PUser).
      set (P := fun v => existsb (fun s => N.eqb s v) [8364; 36]%N).
      assert (HPc : forall c, P c = N.eqb c 36 || N.eqb c 8364).
      { intros c. unfold P. cbn [existsb]. rewrite orb_false_r, (N.eqb_sym 8364 c), (N.eqb_sym 36 c). apply orb_comm. }
      assert (F1 : forall x, F (x, 36%N) = Ok (finish_with_attr x usd)) by reflexivity.
      assert (F2 : forall x, F (x, 8364%N) = Ok (finish_with_attr x euro)) by reflexivity.
      clearbody F P. induction toks as [|tok toks IH]; intros k; cbn [enumerate_from flat_map filter_map]; [now exists []|].
      destruct (IH (S k)) as (ass & E & EP). destruct (token tok) as [[|c [|c2 s]] tag|]; cbn [filter map app flat_map].
      - exists ass. auto.
      - rewrite HPc. cbn [str_eqb]. rewrite !andb_true_r.
        destruct (N.eqb_spec c 36) as [E1|N1]; destruct (N.eqb_spec c 8364) as [E2|N2]; subst; cbn [orb map app]; try discriminate.
        + cbn [mapM]. rewrite F1, E. cbn [bind]. eexists. split; [reflexivity|]. cbn [map]. rewrite EP. reflexivity.
        + cbn [mapM]. rewrite F2, E. cbn [bind]. eexists. split; [reflexivity|]. cbn [map]. rewrite EP. reflexivity.
        + exists ass. split; auto.
      - cbn [str_eqb]. rewrite !andb_false_r. cbn [map app]. exists ass. auto.
      - exists ass. auto. }
    destruct (HM (ll_tokens l) 0) as (ass & E & EP). unfold text_tokens, on_tokens. cbn [den] in *. rewrite E. cbn [bind]. eexists. split; [reflexivity|].
    exact EP.
  - apply on_tokens_in.
Qed.

End ThmLayer.
