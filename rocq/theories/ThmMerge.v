(** C98: tables and keyword lists may be taken apart and put together. *)

From Verif Require Export SpecMerge ThmOrder.
From Coq Require Import Permutation.

Section Merge.
Context {UC : Unicode} {U : UserTypes}.

(** ** Logs that differ in the order of single tokens *)

Lemma firsts_app xs ys : firsts (xs ++ ys) = firsts xs ++ filter (fun r => negb (existsb (range_eqb r) xs)) (firsts ys).
Proof.
  induction xs as [|x xs IH]; [cbn; symmetry; apply filter_all; reflexivity|]. cbn [app firsts existsb]. rewrite IH, filter_app. cbn [app]. f_equal. f_equal.
  generalize (firsts ys). clear. induction l as [|r l IH]; [reflexivity|]. cbn [filter]. destruct (existsb (range_eqb r) xs); cbn [negb filter]; rewrite ?orb_true_r, ?orb_false_r; cbn [negb].
  - exact IH.
  - destruct (range_eqb r x); cbn [negb]; rewrite IH; reflexivity.
Qed.

Lemma values_nil t r lg : values_on t r lg = [] <-> ~ In r (map fst (assigned t lg)).
Proof.
  split.
  - intros E C. apply in_map_iff in C. destruct C as ([r' v] & <- & Hin). apply (proj2 (ThmClause.values_on_assigned t r' v lg)) in Hin. cbn [fst] in E. rewrite E in Hin. destruct Hin.
  - intros N. destruct (values_on t r lg) as [|v vs] eqn:E; [reflexivity|]. exfalso. apply N. apply in_map_iff. exists (r, v). split; [reflexivity|].
    apply (proj1 (ThmClause.values_on_assigned t r v lg)). rewrite E. now left.
Qed.

Lemma existsb_member r xs : existsb (range_eqb r) xs = true <-> In r xs.
Proof.
  rewrite existsb_exists. split; [intros (y & Hy & E); apply range_eqb_spec in E; now subst|]. intros H. exists r. split; [exact H|]. now apply range_eqb_spec.
Qed.

Record like_logs (t : ty) (lg lg' : list entry) : Prop := {
  lk_other : forall t', t' <> t -> assigned t' lg = assigned t' lg';
  lk_values : forall r, values_on t r lg = values_on t r lg';
  lk_starts : forall i, filter (starts_here i) (ranges_of t lg) = filter (starts_here i) (ranges_of t lg');
  lk_ends : forall i, filter (ends_here i) (ranges_of t lg) = filter (ends_here i) (ranges_of t lg') }.

Lemma like_sym t lg lg' : like_logs t lg lg' -> like_logs t lg' lg.
Proof. intros [A B C D]. constructor; intros; symmetry; auto. Qed.

Lemma like_member t lg lg' r : like_logs t lg lg' -> existsb (range_eqb r) (map fst (assigned t lg)) = existsb (range_eqb r) (map fst (assigned t lg')).
Proof.
  intros HL. apply eq_true_iff_eq. rewrite !existsb_member. pose proof (values_nil t r lg) as A. pose proof (values_nil t r lg') as B. rewrite (lk_values _ _ _ HL r) in A.
  assert (D : forall xs, In r xs \/ ~ In r xs) by (intros xs; destruct (existsb (range_eqb r) xs) eqn:E; [left; now apply existsb_member|right; intros C; apply existsb_member in C; congruence]).
  destruct (D (map fst (assigned t lg))), (D (map fst (assigned t lg'))); tauto.
Qed.

Lemma like_app t lg lg' new : like_logs t lg lg' -> like_logs t (lg ++ new) (lg' ++ new).
Proof.
  intros HL.
  assert (HR : forall p, filter p (ranges_of t lg) = filter p (ranges_of t lg') -> filter p (ranges_of t (lg ++ new)) = filter p (ranges_of t (lg' ++ new))).
  { intros p E. unfold ranges_of in *. rewrite !LemStore.assigned_app, !map_app, !firsts_app, !filter_app, E. f_equal. f_equal. apply filter_ext. intros r. now rewrite (like_member t lg lg' r HL). }
  constructor; intros.
  - rewrite !LemStore.assigned_app, (lk_other _ _ _ HL t'); auto.
  - rewrite !values_on_app, (lk_values _ _ _ HL r). reflexivity.
  - apply HR, (lk_starts _ _ _ HL).
  - apply HR, (lk_ends _ _ _ HL).
Qed.

Lemma like_values t lg lg' t' r : like_logs t lg lg' -> values_on t' r lg = values_on t' r lg'.
Proof. intros HL. destruct (ty_eq_dec t' t) as [->|N]; [apply (lk_values _ _ _ HL)|]. unfold values_on. now rewrite (lk_other _ _ _ HL t' N). Qed.

Lemma like_attributed t lg lg' i : like_logs t lg lg' -> attributed i lg -> attributed i lg'.
Proof.
  intros HL HA. apply in_map_iff in HA. destruct HA as ([r [t' v]] & E & Hin). cbn in E. subst r. apply in_map_iff. exists ((i, i), mkany t' v). split; [reflexivity|].
  apply assigned_In, (ThmClause.values_on_assigned t' (i, i) v lg'). rewrite <- (like_values t lg lg' t' (i, i) HL). apply (ThmClause.values_on_assigned t' (i, i) v lg), assigned_In. exact Hin.
Qed.

Lemma like_scan {B} t lg lg' t' d (f : LRange -> den t' -> option B) : like_logs t lg lg' -> scan t' lg (sel_of d) f = scan t' lg' (sel_of d) f.
Proof.
  intros HL. destruct (ty_eq_dec t' t) as [->|N]; [|apply scan_ext, (lk_other _ _ _ HL t' N)]. unfold scan.
  assert (E : filter (sel_of d) (ranges_of t lg) = filter (sel_of d) (ranges_of t lg')) by (destruct d as [i|i]; [apply (lk_starts _ _ _ HL)|apply (lk_ends _ _ _ HL)]).
  rewrite E. apply flat_map_ext. intros r. now rewrite (lk_values _ _ _ HL r).
Qed.

Lemma like_matcher t has A (m : matcher A) l lg l' lg' : lib_matcher any_ty has A m -> Repr l lg -> Repr l' lg' -> ll_tokens l = ll_tokens l' -> like_logs t lg lg' -> forall d, m d l = m d l'.
Proof.
  intros HM HR HR' HT HL. assert (HC : contents l = contents l') by (unfold contents; now rewrite HT). induction HM; intros d.
  - unfold x_attr. rewrite (dir_attr_run l lg), (dir_attr_run l' lg') by auto. rewrite HT. erewrite like_scan; eauto.
  - unfold x_attr_eq. rewrite (dir_attr_eq_run l lg), (dir_attr_eq_run l' lg') by auto. rewrite HT. erewrite like_scan; eauto.
  - unfold x_token_has_any. destruct d as [i|i].
    + rewrite (token_attr_one_of_fwd l lg), (token_attr_one_of_fwd l' lg') by auto. rewrite (like_values t lg lg' _ (i, i) HL).
      pose proof (like_attributed t lg lg' i HL). pose proof (like_attributed t lg' lg i (like_sym _ _ _ HL)). destruct (attributed_dec i lg), (attributed_dec i lg'); tauto.
    + rewrite (token_attr_one_of_bwd l lg), (token_attr_one_of_bwd l' lg') by auto. rewrite HT. change (ends_here i) with (sel_of (Bwd i)). erewrite like_scan; eauto.
  - unfold x_token_text, dir_text_token. now rewrite HT.
  - unfold x_all2. now rewrite IHHM1, IHHM2.
  - unfold x_all3. now rewrite IHHM1, IHHM2, IHHM3.
  - unfold x_any_of2. now rewrite IHHM1, IHHM2.
  - unfold x_any_of3. now rewrite IHHM1, IHHM2, IHHM3.
  - unfold x_seq2. rewrite IHHM1. apply bind_ext. intros al. apply flat_mapM_ext. intros [a i] _. rewrite (go_after_ext mb l l'); auto.
  - unfold x_seq3. rewrite IHHM1. apply bind_ext. intros al. apply flat_mapM_ext. intros [a i] _. rewrite (go_after_ext mb l l'); auto.
    apply bind_ext. intros bl. apply flat_mapM_ext. intros [b j] _. rewrite (go_after_ext mc l l'); auto.
Qed.

Lemma mapM_perm {A B} (f : A -> res B) xs ys : Permutation xs ys -> forall q, mapM f xs = Ok q -> exists q', mapM f ys = Ok q' /\ Permutation q q'.
Proof.
  induction 1 as [|x xs ys HP IH|x y xs|xs ys zs HP1 IH1 HP2 IH2]; intros q HQ.
  - exists q. auto.
  - cbn [mapM] in *. destruct (f x) as [b| |]; try discriminate. cbn [bind] in *. destruct (mapM f xs) as [bs| |]; try discriminate. cbn [bind] in *. injection HQ as <-.
    destruct (IH bs eq_refl) as (q' & E & P). rewrite E. exists (b :: q'). auto.
  - cbn [mapM] in *. destruct (f y) as [b| |]; try discriminate. cbn [bind] in *. destruct (f x) as [c| |]; try discriminate. cbn [bind] in *.
    destruct (mapM f xs) as [bs| |]; try discriminate. cbn [bind] in *. injection HQ as <-. exists (c :: b :: bs). split; [reflexivity|apply perm_swap].
  - destruct (IH1 q HQ) as (q1 & E1 & P1). destruct (IH2 q1 E1) as (q2 & E2 & P2). exists q2. split; [exact E2|]. now transitivity q1.
Qed.

Lemma like_query t l lg l' lg' : Repr l lg -> Repr l' lg' -> ll_tokens l = ll_tokens l' -> like_logs t lg lg' ->
  forall q, query l t = Ok q -> exists q', query l' t = Ok q' /\ Permutation q q'.
Proof.
  intros HR HR' HT HL q HQ. rewrite (query_run l lg t HR) in HQ. rewrite (query_run l' lg' t HR'). rewrite <- HT.
  rewrite (mapM_ext _ (fun r => toks <- slice_incl (ll_tokens l) (fst r) (snd r);; Ok (r, concat (map token_str toks), values_on t r lg)) (ranges_of t lg')).
  2:{ intros r _. now rewrite (lk_values _ _ _ HL r). }
  refine (mapM_perm _ _ _ _ q HQ). apply NoDup_Permutation; try apply firsts_NoDup. intros r. unfold ranges_of. rewrite !firsts_In, <- !existsb_member, (like_member t lg lg' r HL). tauto.
Qed.

Lemma find_same {A} (m : matcher A) l l' : ll_tokens l = ll_tokens l' -> (forall d, m d l = m d l') -> find l m = find l' m.
Proof.
  intros HT HM. unfold find. rewrite HT. apply flat_mapM_ext. intros i _. rewrite HM. apply bind_ext. intros ms. apply mapM_ext. intros [out j] _. unfold pos_start_at, pos_end_at. now rewrite HT.
Qed.

Lemma like_alike t l lg l' lg' : Repr l lg -> Repr l' lg' -> ll_tokens l = ll_tokens l' -> like_logs t lg lg' -> answer_alike t l l'.
Proof.
  intros HR HR' HT HL. split; [exact HT|].
  split; [intros t' N; eapply query_ext; eauto; now apply (lk_other _ _ _ HL)|].
  split; [now apply (like_query t l lg l' lg')|].
  split; [intros q' HQ; destruct (like_query t l' lg' l lg HR' HR (eq_sym HT) (like_sym _ _ _ HL) q' HQ) as (q & E & P); exists q; split; [exact E|now symmetry]|].
  split; [intros has A m d HM; eapply like_matcher; eauto|].
  split; [intros has A m HM; apply find_same; [exact HT|]; intros d; eapply like_matcher; eauto|].
  intros tg incs HI. eapply show_ext; eauto. intros x Hx. apply (lk_other _ _ _ HL). now apply HI.
Qed.

(** ** Further runs *)

Lemma like_resolver t s id l lg l' lg' : no_user_code (id, s) -> Repr l lg -> Repr l' lg' -> ll_tokens l = ll_tokens l' -> like_logs t lg lg' ->
  resolver_of s (whole id l) = resolver_of s (whole id l').
Proof.
  intros HU HR HR' HT HL. set (rc := mkRc id l). set (rc' := mkRc id l').
  assert (HM : forall has A (m : matcher A), lib_matcher any_ty has A m -> forall d, m d l = m d l') by (intros; eapply like_matcher; eauto).
  assert (EL : length (ll_tokens (rc_line rc)) = length (ll_tokens (rc_line rc'))) by (cbn; now rewrite HT).
  assert (EW : whole id l' = mv rc' (whole id l)) by (unfold whole, mv; cbn [start_idx end_idx]; now rewrite HT).
  assert (HO : on rc (whole id l)) by reflexivity.
  rewrite EW.
  assert (LT : lib_matcher any_ty false str x_token_text) by apply LM_token_text.
  destruct s as [[t0 m|r| |dict noun|parse r]|t0 A e f|t0 A e f|]; cbn [resolver_of writes] in *; symmetry.
  - apply (text_match_mv rc rc'); auto. intros d. eapply HM, LT.
  - apply (clause_keyword_mv rc rc'); auto. intros d. eapply HM, LT.
  - apply (clause_mv rc rc'); auto; intros d.
    + apply (HM false _ x_separator). unfold x_separator. apply (LM_any2 _ false false); [apply LM_attr|apply LM_attr_eq]; exact I.
    + apply (HM false _ x_whitespace). apply LM_attr_eq. exact I.
    + apply (HM false _ (x_attr TKeyword)). apply LM_attr. exact I.
  - apply (pos_mv rc rc'); auto; intros d. apply (HM false). apply (LM_all2 _ false false); [apply LM_attr_eq; exact I|exact LT].
  - apply (amount_mv rc rc'); auto; intros d.
    + apply (HM false). unfold x_number. apply (LM_all2 _ false false); [apply LM_attr_eq; exact I|exact LT].
    + apply (HM true _ (x_token_has_any TChar N.eqb (delimiters r))). apply LM_token_has_any. exact I.
    + apply (HM true _ (x_token_has_any TChar N.eqb [decimal r])). apply LM_token_has_any. exact I.
  - apply (find_resolver_mv rc rc'); auto; intros d. apply (HM (uses_has_any e)). apply types_lib. intros; exact I.
  - apply (find_both_resolver_mv rc rc'); auto; intros d. apply (HM (uses_has_any e)). apply types_lib. intros; exact I.
  - destruct HU.
Qed.

Lemma like_onward t ss : Forall no_user_code ss -> forall l lg l' lg', History l lg -> History l' lg' -> ll_tokens l = ll_tokens l' -> like_logs t lg lg' ->
  forall l1, after_any l ss l1 -> exists l1', after_any l' ss l1' /\ answer_alike t l1 l1'.
Proof.
  induction ss as [|[id s] ss IH]; intros HF l lg l' lg' H H' HT HL l1 HA.
  - inversion HA; subst. exists l'. split; [constructor|]. eapply like_alike; eauto using history_repr.
  - inversion HF as [|? ? HU HF']; subst. inversion HA as [|? ? ? ? l2 ? HR HA']; subst. rewrite run_any_run in HR.
    destruct (ll_tokens l) as [|tok toks] eqn:EL.
    + unfold run in HR. rewrite EL in HR. injection HR as <-. destruct (IH HF' l lg l' lg' H H') with (l1 := l1) as (l1' & A1 & A2); [congruence|exact HL|exact HA'|].
      exists l1'. split; [|exact A2]. eapply AA_step; [|exact A1]. rewrite run_any_run. unfold run. now rewrite <- HT.
    + assert (HN : ll_tokens l <> []) by congruence. assert (HN' : ll_tokens l' <> []) by congruence. rewrite <- EL in HT.
      destruct (run_inv id l lg _ l2 (history_repr _ _ H) HN HR) as (g & Hg & G1 & G2 & ET & _).
      assert (Hg' : resolver_of s (whole id l') = Ok g) by (rewrite <- Hg; symmetry; eapply (like_resolver t); eauto using history_repr).
      destruct (proj2 (thm_C14_run_ok_iff _ id l' lg' (resolver_of s) H' HN')) as (l2' & HR'); [exists g; rewrite <- HT; auto|].
      destruct (run_inv id l' lg' _ l2' (history_repr _ _ H') HN' HR') as (_ & _ & _ & _ & ET' & _).
      destruct (IH HF' l2 (lg ++ map assignment_entry (go_assignments g)) l2' (lg' ++ map assignment_entry (go_assignments g))) with (l1 := l1) as (l1' & A1 & A2).
      * exact (H_run l lg _ id _ g l2 H HN Hg HR).
      * exact (H_run l' lg' _ id _ g l2' H' HN' Hg' HR').
      * congruence.
      * now apply like_app.
      * exact HA'.
      * exists l1'. split; [|exact A2]. eapply AA_step; [|exact A1]. now rewrite run_any_run.
Qed.

Lemma alike_sym t l l' : answer_alike t l l' -> answer_alike t l' l.
Proof.
  intros (A & B & C & D & E & F & G). split; [auto|]. split; [intros; symmetry; auto|].
  split; [intros q HQ; destruct (D q HQ) as (q' & X & P); exists q'; split; [exact X|now symmetry]|].
  split; [intros q HQ; destruct (C q HQ) as (q' & X & P); exists q'; split; [exact X|now symmetry]|].
  split; [intros; symmetry; eauto|]. split; [intros; symmetry; eauto|]. intros; symmetry; auto.
Qed.

Lemma like_interchangeable t l lg l' lg' : History l lg -> History l' lg' -> ll_tokens l = ll_tokens l' -> like_logs t lg lg' -> interchangeable t l l'.
Proof.
  intros H H' HT HL ss HF. split; [now apply (like_onward t ss HF l lg l' lg')|].
  intros l1 HA. destruct (like_onward t ss HF l' lg' l lg H' H (eq_sym HT) (like_sym _ _ _ HL) l1 HA) as (l1' & A & B). exists l1'. split; [exact A|now apply alike_sym].
Qed.

(** ** Single-token steps of one type *)

Definition tagged_out {t : ty} (out : list (LRange * den t)) : list entry := map (fun '(rg, v) => (rg, mkany t v)) out.
Definition outs {t : ty} (fs : list (str -> list (den t))) (toks : list LLToken) : list (LRange * den t) := flat_map (fun f => on_tokens (fun _ text => f text) toks) fs.

Lemma outs_run {X} {t} (step_of : X -> N * any_step) (f_of : X -> str -> list (den t)) :
  forall xs l lg, History l lg ->
  (forall x l lg, In x xs -> History l lg -> exists l', run_any (fst (step_of x)) l (snd (step_of x)) = Ok l' /\ ll_tokens l' = ll_tokens l /\ History l' (lg ++ tagged_out (on_tokens (fun _ text => f_of x text) (ll_tokens l)))) ->
  exists l', after_any l (map step_of xs) l' /\ ll_tokens l' = ll_tokens l /\ History l' (lg ++ tagged_out (outs (map f_of xs) (ll_tokens l))).
Proof.
  induction xs as [|x xs IH]; intros l lg H HX.
  - exists l. split; [constructor|]. split; [reflexivity|]. cbn. now rewrite app_nil_r.
  - destruct (HX x l lg (or_introl eq_refl) H) as (l1 & R & ET & H1). destruct (IH l1 _ H1) as (l' & A & ET' & H'); [intros y m mg Hy Hm; apply HX; [now right|exact Hm]|].
    exists l'. split; [cbn [map]; destruct (step_of x); eapply AA_step; [exact R|exact A]|]. split; [congruence|].
    rewrite <- app_assoc in H'. unfold outs, tagged_out in *. cbn [map flat_map]. rewrite map_app. now rewrite ET in H'.
Qed.

Lemma at_range {A} (f : str -> list A) toks r :
  filter_map (fun x : LRange * A => if range_eqb (fst x) r then Some (snd x) else None) (on_tokens (fun _ text => f text) toks)
  = match nth_error toks (fst r) with Some tok => match token tok with LText s _ => if Nat.eqb (fst r) (snd r) then f s else [] | LValue => [] end | None => [] end.
Proof.
  destruct r as [i j]. cbn [fst snd].
  assert (K : (forall v, ~ In ((i, j), v) (on_tokens (fun _ text => f text) toks)) -> filter_map (fun x : LRange * A => if range_eqb (fst x) (i, j) then Some (snd x) else None) (on_tokens (fun _ text => f text) toks) = []).
  { intros HN. apply filter_map_none. intros [r v] Hin. cbn [fst snd]. destruct (range_eqb r (i, j)) eqn:E; [|reflexivity]. apply range_eqb_spec in E. subst r. destruct (HN v Hin). }
  destruct (nth_error toks i) as [tok|] eqn:En.
  2:{ apply K. intros v Hin. apply on_tokens_In in Hin. destruct Hin as (_ & tok & s & tag & Hn & _). congruence. }
  destruct (token tok) as [s tag|] eqn:Et.
  2:{ apply K. intros v Hin. apply on_tokens_In in Hin. destruct Hin as (_ & tok' & s & tag & Hn & Ht & _). congruence. }
  destruct (Nat.eqb i j) eqn:E.
  - apply Nat.eqb_eq in E. subst j. rewrite (on_tokens_at (fun _ text => f text) toks i s); [reflexivity|]. apply text_tokens_In. eauto.
  - apply K. intros v Hin. apply on_tokens_In in Hin. destruct Hin as (-> & _). now rewrite Nat.eqb_refl in E.
Qed.

Lemma outs_at {t} (fs : list (str -> list (den t))) toks r :
  values_on t r (tagged_out (outs fs toks))
  = match nth_error toks (fst r) with Some tok => match token tok with LText s _ => if Nat.eqb (fst r) (snd r) then flat_map (fun f => f s) fs else [] | LValue => [] end | None => [] end.
Proof.
  unfold values_on, tagged_out. rewrite assigned_same. unfold outs. induction fs as [|f fs IH].
  - cbn. destruct (nth_error toks (fst r)) as [tok|]; [|reflexivity]. destruct (token tok); [|reflexivity]. now destruct (Nat.eqb _ _).
  - cbn [flat_map]. rewrite filter_map_app, IH.
    rewrite (filter_map_ext _ (fun x : LRange * den t => if range_eqb (fst x) r then Some (snd x) else None)) by (intros [? ?]; reflexivity). rewrite at_range.
    destruct (nth_error toks (fst r)) as [tok|]; [|reflexivity]. destruct (token tok); [|reflexivity]. now destruct (Nat.eqb _ _).
Qed.

Lemma outs_single {t} (fs : list (str -> list (den t))) toks r : In r (map fst (outs fs toks)) -> fst r = snd r.
Proof.
  intros Hr. apply in_map_iff in Hr. destruct Hr as ([rg v] & <- & Hin). apply in_flat_map in Hin. destruct Hin as (f & _ & Hin). now apply on_tokens_single in Hin.
Qed.

Lemma one_member (a : LRange) xs ys : NoDup xs -> NoDup ys -> (forall r, In r xs -> r = a) -> (forall r, In r xs <-> In r ys) -> xs = ys.
Proof.
  intros N1 N2 HA HI. assert (K : forall zs, NoDup zs -> (forall r, In r zs -> r = a) -> zs = [] \/ zs = [a]).
  { intros zs N H. destruct zs as [|z [|z' zs]]; [now left|right; now rewrite (H z (or_introl eq_refl))|].
    exfalso. inversion N as [|? ? N' _]; subst. apply N'. left. rewrite (H z), (H z'); cbn; auto. }
  destruct (K xs N1 HA) as [->| ->], (K ys N2 (fun r Hr => HA r (proj2 (HI r) Hr))) as [->| ->]; auto.
  - exfalso. apply (proj2 (HI a)). now left.
  - exfalso. apply (proj1 (HI a)). now left.
Qed.

Lemma outs_like {t} (fs gs : list (str -> list (den t))) lg toks :
  (forall s tok tag, In tok toks -> token tok = LText s tag -> flat_map (fun f => f s) fs = flat_map (fun f => f s) gs) ->
  like_logs t (lg ++ tagged_out (outs fs toks)) (lg ++ tagged_out (outs gs toks)).
Proof.
  intros HE.
  assert (HV : forall r, values_on t r (tagged_out (outs fs toks)) = values_on t r (tagged_out (outs gs toks))).
  { intros r. rewrite !outs_at. destruct (nth_error toks (fst r)) as [tok|] eqn:En; [|reflexivity]. destruct (token tok) as [s tag|] eqn:Et; [|reflexivity].
    rewrite (HE s tok tag); [reflexivity|eapply nth_error_In; eauto|exact Et]. }
  assert (HI : forall r, In r (map fst (outs fs toks)) <-> In r (map fst (outs gs toks))).
  { intros r. pose proof (values_nil t r (tagged_out (outs fs toks))) as A. pose proof (values_nil t r (tagged_out (outs gs toks))) as B.
    rewrite HV in A. unfold tagged_out in A, B. rewrite assigned_same in A, B.
    assert (D : forall xs, In r xs \/ ~ In r xs) by (intros xs; destruct (existsb (range_eqb r) xs) eqn:E; [left; now apply existsb_member|right; intros C; apply existsb_member in C; congruence]).
    destruct (D (map fst (outs fs toks))), (D (map fst (outs gs toks))); tauto. }
  assert (HR : forall p i, (forall r, fst r = snd r -> p r = true -> r = (i, i)) -> filter p (ranges_of t (lg ++ tagged_out (outs fs toks))) = filter p (ranges_of t (lg ++ tagged_out (outs gs toks)))).
  { intros p i Hp. unfold ranges_of, tagged_out. rewrite !LemStore.assigned_app, !map_app, !firsts_app, !filter_app, !assigned_same. f_equal.
    apply (one_member (i, i)); try (repeat apply NoDup_filter; apply firsts_NoDup).
    - intros r Hr. apply filter_In in Hr. destruct Hr as [Hr Pr]. apply filter_In in Hr. destruct Hr as [Hr _]. rewrite firsts_In in Hr. apply Hp; [|exact Pr]. now apply outs_single in Hr.
    - intros r. rewrite !filter_In, !firsts_In, HI. tauto. }
  constructor.
  - intros t' N. unfold tagged_out. rewrite !LemStore.assigned_app, !assigned_other by exact N. reflexivity.
  - intros r. now rewrite !values_on_app, HV.
  - intros i. apply (HR _ i). intros [a b] E P. unfold starts_here in P. apply Nat.eqb_eq in P. cbn in *. congruence.
  - intros i. apply (HR _ i). intros [a b] E P. unfold ends_here in P. apply Nat.eqb_eq in P. cbn in *. congruence.
Qed.

(** ** Tables *)

Definition table_values {V} (table : list (str * list V)) (text : str) : list V := entry_values (fun k => str_eqb k text) table.

Lemma tables_run {t} (tables : list (N * list (str * list (den t)))) l lg : History l lg -> Forall (fun x => NoDup (map fst (snd x))) tables ->
  exists l', after_any l (map table_step tables) l' /\ ll_tokens l' = ll_tokens l /\ History l' (lg ++ tagged_out (outs (map (fun x => table_values (snd x)) tables) (ll_tokens l))).
Proof.
  intros H HN. apply (outs_run table_step (fun x : N * list (str * list (den t)) => table_values (snd x)) tables l lg H). intros x m mg Hx Hm. rewrite Forall_forall in HN.
  exact (thm_C37_case_sensitive t (fst x) m mg (snd x) Hm (HN x Hx)).
Qed.

(** C98: tables that give every text the same values, one after the other, leave lines that answer alike. *)
Lemma thm_C98_tables :
  forall t l lg (tables tables' : list (N * list (str * list (den t)))),
    History l lg -> Forall (fun x => NoDup (map fst (snd x))) tables -> Forall (fun x => NoDup (map fst (snd x))) tables' ->
    (forall text, flat_map (fun x => entry_values (fun k => str_eqb k text) (snd x)) tables = flat_map (fun x => entry_values (fun k => str_eqb k text) (snd x)) tables') ->
    exists l1 l2, after_any l (map table_step tables) l1 /\ after_any l (map table_step tables') l2 /\ interchangeable t l1 l2.
Proof.
  intros t l lg tables tables' H D1 D2 HE. destruct (tables_run tables l lg H D1) as (l1 & A1 & T1 & H1). destruct (tables_run tables' l lg H D2) as (l2 & A2 & T2 & H2).
  exists l1, l2. split; [exact A1|]. split; [exact A2|]. eapply like_interchangeable; [exact H1|exact H2|congruence|]. apply outs_like. intros s tok tag _ _.
  assert (K : forall ts : list (N * list (str * list (den t))), flat_map (fun f => f s) (map (fun x => table_values (snd x)) ts) = flat_map (fun x => entry_values (fun k => str_eqb k s) (snd x)) ts).
  { induction ts as [|x ts IH]; [reflexivity|]. cbn [map flat_map]. now rewrite IH. }
  rewrite !K. apply HE.
Qed.

Lemma flat_map_flat_map_concat {A B} (f : A -> list B) (xss : list (list A)) : flat_map f (concat xss) = flat_map (flat_map f) xss.
Proof. induction xss as [|xs xss IH]; [reflexivity|]. cbn [concat flat_map]. now rewrite flat_map_app, IH. Qed.

Lemma apart_nodup {V} (tables : list (list (str * V))) : keys_apart tables -> Forall (fun tb => NoDup (map fst tb)) tables -> NoDup (map fst (concat tables)).
Proof.
  induction 1 as [|tb tbs HF _ IH]; intros HN; [constructor|]. inversion HN; subst. cbn [concat]. rewrite map_app.
  assert (D : forall k, In k (map fst tb) -> ~ In k (map fst (concat tbs))).
  { intros k Hk C. apply in_map_iff in C. destruct C as (e & <- & He). apply in_concat in He. destruct He as (tb' & Ht & He). rewrite Forall_forall in HF. apply (HF tb' Ht (fst e) Hk). now apply in_map. }
  revert D. specialize (IH H2). clear HF HN H2. induction (map fst tb) as [|k ks IHk]; intros D; [exact IH|]. inversion H1; subst. cbn [app]. constructor.
  - rewrite in_app_iff. intros [C|C]; [contradiction|]. apply (D k); [now left|exact C].
  - apply IHk; [assumption|]. intros k' Hk'. apply D. now right.
Qed.

(** C98: one table, or the same entries in several. *)
Lemma thm_C98_split :
  forall t l lg id (tables : list (N * list (str * list (den t)))),
    History l lg -> keys_apart (map snd tables) -> Forall (fun x => NoDup (map fst (snd x))) tables ->
    exists l1 l2, after_any l (map table_step tables) l1 /\ run id l (text_match_go (text_match_new (concat (map snd tables)))) = Ok l2 /\ interchangeable t l1 l2.
Proof.
  intros t l lg id tables H HA HN.
  destruct (thm_C98_tables t l lg tables [(id, concat (map snd tables))] H HN) as (l1 & l2 & A1 & A2 & HI).
  - constructor; [|constructor]. cbn [snd]. apply apart_nodup; [exact HA|]. apply Forall_map. exact HN.
  - intros text. cbn [flat_map]. rewrite app_nil_r. unfold entry_values. cbn [snd]. rewrite flat_map_flat_map_concat. clear. induction tables as [|x xs IH]; [reflexivity|]. cbn [map flat_map]. now rewrite IH.
  - exists l1, l2. split; [exact A1|]. split; [|exact HI]. inversion A2 as [|? ? ? ? l3 ? HR HD]; subst. inversion HD; subst. exact HR.
Qed.

Lemma values_absent {V} (tb : list (str * list V)) text : ~ In text (map fst tb) -> entry_values (fun k => str_eqb k text) tb = [].
Proof.
  intros HN. unfold entry_values. apply flat_map_nil. intros [k vs] Hin. destruct (str_eqb k text) eqn:E; [|reflexivity]. apply str_eqb_spec in E. subst k. exfalso. apply HN. apply in_map_iff. now exists (text, vs).
Qed.

Lemma pairs_perm {A} (R : A -> A -> Prop) : (forall a b, R a b -> R b a) -> forall xs ys, Permutation xs ys -> ForallOrdPairs R xs -> ForallOrdPairs R ys.
Proof.
  intros SY. induction 1 as [|x xs ys HP IH|x y xs|xs ys zs HP1 IH1 HP2 IH2]; intros HF; auto.
  - inversion HF; subst. constructor; [|auto]. rewrite Forall_forall in *. intros z Hz. apply H1. now apply (Permutation_in _ (Permutation_sym HP)).
  - inversion HF as [|? ? F1 F2]; subst. inversion F2 as [|? ? F3 F4]; subst. inversion F1; subst. constructor; [constructor; auto|]. now constructor.
Qed.

Lemma one_nonempty {A B} (f : A -> list B) xs ys : Permutation xs ys -> ForallOrdPairs (fun a b => f a = [] \/ f b = []) xs -> flat_map f xs = flat_map f ys.
Proof.
  induction 1 as [|x xs ys HP IH|x y xs|xs ys zs HP1 IH1 HP2 IH2]; intros HF; auto.
  - inversion HF; subst. cbn [flat_map]. now rewrite IH.
  - inversion HF as [|? ? F1 F2]; subst. inversion F1 as [|? ? F3 F4]; subst. cbn [flat_map]. destruct F3 as [-> | ->]; reflexivity.
  - rewrite IH1 by assumption. apply IH2. eapply pairs_perm; [|exact HP1|exact HF]. tauto.
Qed.

(** C98: tables without common keys may be used in any order. *)
Lemma thm_C98_order :
  forall t l lg (tables tables' : list (N * list (str * list (den t)))),
    History l lg -> keys_apart (map snd tables) -> Forall (fun x => NoDup (map fst (snd x))) tables -> Permutation tables tables' ->
    exists l1 l2, after_any l (map table_step tables) l1 /\ after_any l (map table_step tables') l2 /\ interchangeable t l1 l2.
Proof.
  intros t l lg tables tables' H HA HN HP. apply (thm_C98_tables t l lg); auto.
  - rewrite Forall_forall in *. intros x Hx. apply HN. now apply (Permutation_in _ (Permutation_sym HP)).
  - intros text. apply one_nonempty; [exact HP|]. unfold keys_apart in HA. clear HN HP H. induction tables as [|x xs IH]; [constructor|]. cbn [map] in HA. inversion HA as [|? ? F1 F2]; subst.
    constructor; [|now apply IH]. rewrite Forall_forall in *. intros y Hy. specialize (F1 (snd y) (in_map snd _ _ Hy) text).
    assert (D : In text (map fst (snd x)) \/ ~ In text (map fst (snd x))) by (destruct (in_dec (list_eq_dec N.eq_dec) text (map fst (snd x))); auto).
    destruct D as [D|D]; [right; apply values_absent; auto|left; now apply values_absent].
Qed.

(** ** Keywords *)

Lemma not_configured r text : ~ configured r (u_lower text) -> keyword_of r text = None.
Proof.
  intros HN. destruct (keyword_of r text) as [k|] eqn:E; [|reflexivity]. exfalso. apply HN. apply keyword_of_spec in E. unfold configured. destruct k; cbn in E; tauto.
Qed.

Lemma configured_dec r w : configured r w \/ ~ configured r w.
Proof.
  unfold configured. destruct (in_dec (list_eq_dec N.eq_dec) w (kw_cond_start r)), (in_dec (list_eq_dec N.eq_dec) w (kw_then r)), (in_dec (list_eq_dec N.eq_dec) w (kw_and r)); tauto.
Qed.

Lemma keywords_run (rs : list (N * ClauseKeywordResolver)) l lg : History l lg ->
  exists l', after_any l (map keyword_step rs) l' /\ ll_tokens l' = ll_tokens l /\ History l' (lg ++ tagged_out (t := TKeyword) (outs (t := TKeyword) (map (fun x text => opt_list (keyword_of (snd x) text)) rs) (ll_tokens l))).
Proof.
  intros H. apply (outs_run (t := TKeyword) keyword_step (fun (x : N * ClauseKeywordResolver) text => opt_list (keyword_of (snd x) text)) rs l lg H). intros x m mg Hx Hm.
  exact (clause_keyword_run (fst x) m mg (snd x) Hm).
Qed.

Lemma keywords_found rs r text : words_apart rs -> all_words rs r -> flat_map (fun r' => opt_list (keyword_of r' text)) rs = opt_list (keyword_of r text).
Proof.
  intros HA HW. specialize (HW (u_lower text)). revert r HW. induction HA as [|r0 rs HF HA IH]; intros r HW.
  - cbn. rewrite not_configured; [reflexivity|]. unfold configured. destruct HW as (W1 & W2 & W3). rewrite W1, W2, W3. intros [(? & [] & _)|[(? & [] & _)|(? & [] & _)]].
  - cbn [flat_map]. destruct (configured_dec r0 (u_lower text)) as [C|C].
    + assert (EN : flat_map (fun r' => opt_list (keyword_of r' text)) rs = []).
      { apply flat_map_nil. intros r' Hr'. rewrite Forall_forall in HF. rewrite not_configured; [reflexivity|]. now apply (HF r' Hr'). }
      rewrite EN, app_nil_r. f_equal.
      assert (KO : forall r', In r' rs -> ~ configured r' (u_lower text)) by (intros r' Hr'; rewrite Forall_forall in HF; now apply (HF r' Hr')).
      destruct HW as (W1 & W2 & W3).
      assert (KI : forall sel : ClauseKeywordResolver -> list str, (forall r' w, In w (sel r') -> configured r' w) -> (In (u_lower text) (sel r) <-> exists r', In r' (r0 :: rs) /\ In (u_lower text) (sel r')) ->
        (In (u_lower text) (sel r0) <-> In (u_lower text) (sel r))).
      { intros sel HS W. rewrite W. split; [intros K; exists r0; split; [now left|exact K]|]. intros (r' & [<-|Hr'] & K); [exact K|]. destruct (KO r' Hr'). now apply HS. }
      pose proof (KI kw_cond_start ltac:(unfold configured; tauto) W1) as E1. pose proof (KI kw_then ltac:(unfold configured; tauto) W2) as E2. pose proof (KI kw_and ltac:(unfold configured; tauto) W3) as E3.
      destruct (keyword_of r0 text) as [k|] eqn:K0.
      * symmetry. apply keyword_of_spec. apply keyword_of_spec in K0. destruct k; cbn in *; tauto.
      * destruct (keyword_of r text) as [k|] eqn:K1; [|reflexivity]. apply keyword_of_spec in K1. rewrite <- K0. symmetry. symmetry. apply keyword_of_spec. destruct k; cbn in *; tauto.
    + rewrite (not_configured r0 text C). cbn [opt_list app]. apply IH. destruct HW as (W1 & W2 & W3). unfold configured in C.
      assert (KI : forall sel : ClauseKeywordResolver -> list str, ~ In (u_lower text) (sel r0) -> (In (u_lower text) (sel r) <-> exists r', In r' (r0 :: rs) /\ In (u_lower text) (sel r')) ->
        (In (u_lower text) (sel r) <-> exists r', In r' rs /\ In (u_lower text) (sel r'))).
      { intros sel HS W. rewrite W. split; [intros (r' & [<-|Hr'] & K); [contradiction|eauto]|]. intros (r' & Hr' & K). exists r'. split; [now right|exact K]. }
      split; [apply KI; tauto|]. split; apply KI; tauto.
Qed.

(** C98: keyword lists without common words may be used one after the other, in any order, or all at once; the clauses are the same. *)
Lemma thm_C98_keywords :
  forall l lg id rs r,
    History l lg -> words_apart (map snd rs) -> all_words (map snd rs) r ->
    exists l1 l2, after_any l (map keyword_step rs) l1 /\ run id l (clause_keyword_go r) = Ok l2 /\ interchangeable TKeyword l1 l2.
Proof.
  intros l lg id rs r H HA HW. destruct (keywords_run rs l lg H) as (l1 & A1 & T1 & H1). destruct (keywords_run [(id, r)] l lg H) as (l2 & A2 & T2 & H2).
  exists l1, l2. split; [exact A1|]. split; [inversion A2 as [|? ? ? ? l3 ? HR HD]; subst; inversion HD; subst; exact HR|].
  eapply like_interchangeable; [exact H1|exact H2|congruence|]. apply outs_like. intros s tok tag _ _.
  cbn [map flat_map snd]. rewrite app_nil_r, <- (keywords_found (map snd rs) r s HA HW). clear. induction rs as [|x rs IH]; [reflexivity|]. cbn [map flat_map]. now rewrite IH.
Qed.

End Merge.
