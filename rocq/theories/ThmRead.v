(** The display of a line can be read back (C69). *)

From Verif Require Export ThmDisplay SpecRead.

Section ThmRead.
Context {UC : Unicode} {U : UserTypes}.

Lemma columns_app a b : columns (a ++ b) = columns a + columns b.
Proof. exact (str_width_app a b). Qed.

(** Start columns grow with the token, end columns too, and two tokens take two columns. *)
Lemma row_before_S toks i tok :
  nth_error toks i = Some tok ->
  row_before toks (S i) = row_before toks i ++ shown tok ++ two_spaces.
Proof.
  revert i. induction toks as [|x toks IH]; intros [|i] H; try discriminate.
  - injection H as ->. unfold row_before. cbn. now rewrite app_nil_r.
  - cbn [nth_error] in H. specialize (IH i H). unfold row_before in *. rewrite !firstn_cons. cbn [flat_map].
    rewrite IH. now rewrite <- !app_assoc.
Qed.

Lemma before_step toks i :
  0 < u_width 32%N -> i < length toks -> columns (row_upto toks i) + 2 <= columns (row_before toks (S i)).
Proof.
  intros HW Hi. destruct (nth_error toks i) as [tok|] eqn:E; [|apply nth_error_None in E; lia].
  rewrite (row_before_S _ _ _ E). unfold row_upto. rewrite E. rewrite !columns_app.
  change (columns two_spaces) with (u_width 32%N + (u_width 32%N + 0)). lia.
Qed.

Lemma before_upto toks i : columns (row_before toks i) <= columns (row_upto toks i).
Proof. unfold row_upto. rewrite columns_app. lia. Qed.

Lemma before_lt toks i j :
  0 < u_width 32%N -> i < j -> j <= length toks -> columns (row_upto toks i) + 2 <= columns (row_before toks j).
Proof.
  intros HW Hij. revert i Hij. induction j as [|j IH]; intros i Hij Hj; [lia|].
  destruct (Nat.eq_dec i j) as [->|Hne]; [apply before_step; auto; lia|].
  specialize (IH i ltac:(lia) ltac:(lia)). pose proof (before_upto toks j).
  pose proof (before_step toks j HW ltac:(lia)). lia.
Qed.

Lemma before_inj toks i j :
  0 < u_width 32%N -> i < length toks -> j < length toks ->
  columns (row_before toks i) = columns (row_before toks j) -> i = j.
Proof.
  intros HW Hi Hj HE. destruct (Nat.lt_trichotomy i j) as [H|[H|H]]; auto.
  - pose proof (before_lt toks i j HW H ltac:(lia)). pose proof (before_upto toks i). lia.
  - pose proof (before_lt toks j i HW H ltac:(lia)). pose proof (before_upto toks j). lia.
Qed.

Lemma upto_inj toks i j :
  0 < u_width 32%N -> i < length toks -> j < length toks ->
  columns (row_upto toks i) = columns (row_upto toks j) -> i = j.
Proof.
  intros HW Hi Hj HE. destruct (Nat.lt_trichotomy i j) as [H|[H|H]]; auto.
  - pose proof (before_lt toks i j HW H ltac:(lia)). pose proof (before_upto toks j). lia.
  - pose proof (before_lt toks j i HW H ltac:(lia)). pose proof (before_upto toks i). lia.
Qed.

(** Runs of one character. *)
Lemma repeat_prefix (c d : N) n : forall m a b,
  d <> c -> (forall x r, a = x :: r -> x <> c) -> (forall x r, b = x :: r -> x <> c) ->
  repeat c n ++ a = repeat c m ++ b -> n = m /\ a = b.
Proof.
  intros m a b Hd. revert m. induction n as [|n IH]; intros [|m] Ha Hb H; cbn [repeat app] in H.
  - auto.
  - subst a. exfalso. eapply Ha; reflexivity.
  - symmetry in H. subst b. exfalso. eapply Hb; [reflexivity|]. reflexivity.
  - injection H as H. destruct (IH m Ha Hb H). auto.
Qed.

Lemma underline_inj w1 w2 a b :
  plain a -> plain b -> underline w1 ++ a = underline w2 ++ b ->
  (w1 = w2 \/ (w1 < 2 /\ w2 < 2)) /\ a = b.
Proof.
  intros [_ Ha] [_ Hb] H.
  assert (Hgo : forall k x y,
             (forall c rest, x = c :: rest -> c <> 9472%N /\ c <> 9583%N) ->
             x = repeat 9472%N k ++ [9583%N] ++ y -> False).
  { intros k x y Hx E. destruct k; cbn in E; destruct (Hx _ _ E); congruence. }
  destruct w1 as [|[|w1]], w2 as [|[|w2]]; unfold underline in H; cbn [app] in H; injection H as H;
    try (subst; split; [lia|reflexivity]).
  - exfalso. rewrite <- app_assoc in H. eapply Hgo; [exact Ha|exact H].
  - exfalso. rewrite <- app_assoc in H. eapply Hgo; [exact Ha|exact H].
  - exfalso. rewrite <- app_assoc in H. symmetry in H. eapply Hgo; [exact Hb|exact H].
  - exfalso. rewrite <- app_assoc in H. symmetry in H. eapply Hgo; [exact Hb|exact H].
  - rewrite <- !app_assoc in H. apply (repeat_prefix _ 9583%N) in H; [|discriminate|intros x r E; injection E as <- _; discriminate..].
    destruct H as [-> H]. injection H as ->. split; [lia|reflexivity].
Qed.

Lemma row_inj toks r1 r2 x1 x2 :
  0 < u_width 32%N ->
  fst r1 <= snd r1 < length toks -> fst r2 <= snd r2 < length toks -> plain x1 -> plain x2 ->
  attribute_row toks (r1, x1) = attribute_row toks (r2, x2) -> (r1, x1) = (r2, x2).
Proof.
  intros HW H1 H2 P1 P2 H. destruct r1 as [s1 e1], r2 as [s2 e2]. cbn [fst snd] in *. cbn -[underline] in H.
  injection H as H.
  assert (Hu : forall w a x r, underline w ++ a = x :: r -> x <> 32%N).
  { intros w a x r E. destruct w as [|[|w]]; cbn in E; injection E as <- _; discriminate. }
  apply (repeat_prefix _ 9584%N) in H; [|discriminate|intros x r; apply Hu..].
  destruct H as [Hc H]. apply underline_inj in H; auto. destruct H as [Hw ->].
  apply before_inj in Hc; auto; [|lia..]. subst s2. f_equal. f_equal.
  pose proof (row_before_le toks s1 e1 H1) as L1. pose proof (row_before_le toks s1 e2 H2) as L2.
  destruct Hw as [Hw|[W1 W2]].
  - apply (upto_inj toks); auto; lia.
  - assert (Hs : forall e, s1 <= e < length toks -> columns (row_upto toks e) - columns (row_before toks s1) < 2 -> s1 = e).
    { intros e He Hlt. destruct (Nat.eq_dec s1 e) as [|Hne]; auto. exfalso.
      pose proof (before_lt toks s1 e HW ltac:(lia) ltac:(lia)). pose proof (before_upto toks s1).
      pose proof (before_upto toks e). lia. }
    rewrite <- (Hs e1), <- (Hs e2); auto.
Qed.

(** A row is a line break followed by text without one. *)
Lemma row_shape toks r x : plain x -> exists b, attribute_row toks (r, x) = 10%N :: b /\ ~ In 10%N b.
Proof.
  intros [P _]. destruct r as [s e]. eexists. split; [reflexivity|]. intros H.
  rewrite !in_app_iff in H. destruct H as [H|[H|H]]; auto.
  - apply repeat_spec in H. discriminate.
  - revert H. set (w := _ - _). destruct w as [|[|w]]; unfold underline.
    + intros [H|[]]; discriminate.
    + intros [H|[]]; discriminate.
    + rewrite !in_app_iff. intros [[H|[]]|[H|[H|[]]]]; try discriminate. apply repeat_spec in H. discriminate.
Qed.

Lemma cut_at_break (a b u v : str) :
  ~ In 10%N a -> ~ In 10%N b ->
  (u = [] \/ exists u', u = 10%N :: u') -> (v = [] \/ exists v', v = 10%N :: v') ->
  a ++ u = b ++ v -> a = b /\ u = v.
Proof.
  revert b. induction a as [|x a IH]; intros [|y b] Ha Hb Hu Hv H; cbn [app] in H.
  - auto.
  - exfalso. destruct Hu as [->|[u' ->]]; [discriminate|]. injection H as <- _. apply Hb. now left.
  - exfalso. destruct Hv as [->|[v' ->]]; [discriminate|]. injection H as -> _. apply Ha. now left.
  - injection H as <- H. destruct (IH b) as [-> ->]; auto; intros K; [apply Ha|apply Hb]; now right.
Qed.

Lemma rows_start toks rows :
  Forall (fun row : LRange * str => plain (snd row)) rows ->
  flat_map (attribute_row toks) rows = [] \/ exists u, flat_map (attribute_row toks) rows = 10%N :: u.
Proof.
  intros [|[r x] rows' P _]; [now left|]. right. destruct (row_shape toks r x P) as (b & E & _).
  cbn [flat_map]. rewrite E. eexists. reflexivity.
Qed.

Lemma rows_inj toks (rows1 : list (LRange * str)) : forall rows2 : list (LRange * str),
  0 < u_width 32%N ->
  Forall (fun row : LRange * str => fst (fst row) <= snd (fst row) < length toks /\ plain (snd row)) rows1 ->
  Forall (fun row : LRange * str => fst (fst row) <= snd (fst row) < length toks /\ plain (snd row)) rows2 ->
  flat_map (attribute_row toks) rows1 = flat_map (attribute_row toks) rows2 -> rows1 = rows2.
Proof.
  assert (Hpl : forall rows : list (LRange * str),
             Forall (fun row : LRange * str => fst (fst row) <= snd (fst row) < length toks /\ plain (snd row)) rows ->
             Forall (fun row : LRange * str => plain (snd row)) rows).
  { intros rows F. eapply Forall_impl; [|exact F]. now intros row [_ P]. }
  induction rows1 as [|[r1 x1] rows1 IH]; intros [|[r2 x2] rows2] HW F1 F2 H; auto.
  - inversion_clear F2 as [|? ? [_ P] _]. destruct (row_shape toks r2 x2 P) as (b & E & _).
    cbn [flat_map] in H. rewrite E in H. discriminate.
  - inversion_clear F1 as [|? ? [_ P] _]. destruct (row_shape toks r1 x1 P) as (b & E & _).
    cbn [flat_map] in H. rewrite E in H. discriminate.
  - inversion_clear F1 as [|? ? [R1 P1] G1]. inversion_clear F2 as [|? ? [R2 P2] G2].
    destruct (row_shape toks r1 x1 P1) as (b1 & E1 & N1). destruct (row_shape toks r2 x2 P2) as (b2 & E2 & N2).
    cbn [flat_map] in H. rewrite E1, E2 in H. cbn [app] in H. injection H as H.
    apply cut_at_break in H; auto using rows_start. destruct H as [HB HR].
    rewrite (IH rows2) by auto. f_equal. apply (row_inj toks r1 r2 x1 x2); auto.
    refine (eq_trans E1 _). refine (eq_trans _ (eq_sym E2)). now rewrite HB.
Qed.

Lemma included_ok l lg incs :
  History l lg -> proper lg -> Forall prints_plain incs ->
  Forall (fun row : LRange * str => fst (fst row) <= snd (fst row) < length (ll_tokens l) /\ plain (snd row)) (rows_of incs lg).
Proof.
  intros H HP HF. pose proof (history_repr _ _ H) as HR. apply Forall_forall. intros row Hin.
  apply in_flat_map in Hin. destruct Hin as (x & Hx & Hin). rewrite Forall_forall in HF. specialize (HF x Hx).
  unfold included in Hin. apply in_flat_map in Hin. destruct Hin as (r & Hr & Hin).
  apply in_map_iff in Hin. destruct Hin as (v & <- & _). cbn [fst snd]. split; [|apply HF].
  apply ranges_of_logged in Hr. apply in_map_iff in Hr. destruct Hr as (e & <- & He).
  destruct (in_line_entry _ _ _ (rp_in l lg HR) He). unfold proper in HP. rewrite Forall_forall in HP.
  specialize (HP e He). split; auto.
Qed.

(** C69: over the same tokens, two displays are the same text only if they show the same rows. *)
Lemma thm_C69_read :
  forall tg1 tg2 l1 l2 lg1 lg2 (incs1 incs2 : list { t : ty & den t -> str }) s,
    History l1 lg1 -> History l2 lg2 -> proper lg1 -> proper lg2 ->
    ll_tokens l1 = ll_tokens l2 -> 0 < u_width 32%N ->
    Forall prints_plain incs1 -> Forall prints_plain incs2 ->
    show tg1 l1 incs1 = Ok s -> show tg2 l2 incs2 = Ok s ->
    rows_of incs1 lg1 = rows_of incs2 lg2.
Proof.
  intros tg1 tg2 l1 l2 lg1 lg2 incs1 incs2 s H1 H2 P1 P2 HT HW F1 F2 S1 S2.
  rewrite (thm_C35_display _ _ lg1) in S1 by auto. rewrite (thm_C35_display _ _ lg2) in S2 by auto.
  rewrite <- HT in S2. injection S1 as S1. injection S2 as S2. rewrite <- S2 in S1. clear S2.
  apply app_inv_head in S1. apply (rows_inj (ll_tokens l1)); auto.
  - apply included_ok; auto.
  - rewrite HT. apply included_ok; auto.
Qed.

(** Values grouped by range can be taken apart again. *)
Lemma cut_group {B} (r : LRange) (a : list B) : forall b (u v : list (LRange * B)),
  (forall x, In x u -> fst x <> r) -> (forall x, In x v -> fst x <> r) ->
  map (pair r) a ++ u = map (pair r) b ++ v -> a = b /\ u = v.
Proof.
  induction a as [|x a IH]; intros [|y b] u v Hu Hv H; cbn [map app] in H.
  - auto.
  - exfalso. subst u. apply (Hu (r, y)); [now left|reflexivity].
  - exfalso. subst v. apply (Hv (r, x)); [now left|reflexivity].
  - injection H as -> H. destruct (IH b u v Hu Hv H) as [-> ->]. auto.
Qed.

Lemma group_inj {B} (f1 f2 : LRange -> list B) rs1 : forall rs2,
  NoDup rs1 -> NoDup rs2 -> (forall r, In r rs1 -> f1 r <> []) -> (forall r, In r rs2 -> f2 r <> []) ->
  flat_map (fun r => map (pair r) (f1 r)) rs1 = flat_map (fun r => map (pair r) (f2 r)) rs2 ->
  rs1 = rs2 /\ forall r, In r rs1 -> f1 r = f2 r.
Proof.
  assert (Hno : forall (f : LRange -> list B) r rs, ~ In r rs ->
             forall x, In x (flat_map (fun q => map (pair q) (f q)) rs) -> fst x <> r).
  { intros f r rs Hr x Hx E. apply in_flat_map in Hx. destruct Hx as (q & Hq & Hx). apply in_map_iff in Hx.
    destruct Hx as (b & <- & _). cbn [fst] in E. subst q. auto. }
  induction rs1 as [|r1 rs1 IH]; intros [|r2 rs2] N1 N2 F1 F2 H; cbn [flat_map] in H.
  - split; auto. now intros r [].
  - exfalso. specialize (F2 r2 (or_introl eq_refl)). destruct (f2 r2); [auto|discriminate].
  - exfalso. specialize (F1 r1 (or_introl eq_refl)). destruct (f1 r1); [auto|discriminate].
  - assert (r1 = r2) as <-.
    { pose proof (F1 r1 (or_introl eq_refl)) as A1. pose proof (F2 r2 (or_introl eq_refl)) as A2.
      destruct (f1 r1); [congruence|]. destruct (f2 r2); [congruence|]. cbn in H. congruence. }
    inversion_clear N1 as [|? ? M1 L1]. inversion_clear N2 as [|? ? M2 L2].
    apply cut_group in H; [|apply Hno; auto..]. destruct H as [HA HB].
    destruct (IH rs2) as [-> HI]; auto.
    + intros r Hr. apply F1. now right.
    + intros r Hr. apply F2. now right.
    + split; auto. intros r [<-|Hr]; auto.
Qed.

Lemma map_inj {A B} (f : A -> B) : (forall x y, f x = f y -> x = y) -> forall l1 l2, map f l1 = map f l2 -> l1 = l2.
Proof.
  intros Hf. induction l1 as [|x l1 IH]; intros [|y l2] H; try discriminate; auto.
  injection H as H1 H2. now rewrite (Hf _ _ H1), (IH _ H2).
Qed.

Lemma included_inj t (dbg : den t -> str) lg1 lg2 :
  (forall v w, dbg v = dbg w -> v = w) ->
  included t dbg lg1 = included t dbg lg2 ->
  ranges_of t lg1 = ranges_of t lg2 /\ forall r, values_on t r lg1 = values_on t r lg2.
Proof.
  intros HD H. unfold included in H.
  assert (HM : forall lg, flat_map (fun r => map (fun v => (r, dbg v)) (rev (values_on t r lg))) (ranges_of t lg)
                          = flat_map (fun r => map (pair r) (map dbg (rev (values_on t r lg)))) (ranges_of t lg)).
  { intros lg. apply flat_map_ext. intros r. now rewrite map_map. }
  rewrite !HM in H. clear HM.
  assert (HN : forall lg r, In r (ranges_of t lg) -> map dbg (rev (values_on t r lg)) <> []).
  { intros lg r Hr E. apply ranges_of_values_on in Hr. apply Hr. apply map_eq_nil in E.
    apply (f_equal (@rev _)) in E. now rewrite rev_involutive in E. }
  apply group_inj in H; auto using ranges_of_NoDup. destruct H as [HR HV]. split; auto.
  intros r. destruct (values_on t r lg1) as [|v vs] eqn:E1.
  - destruct (values_on t r lg2) as [|w ws] eqn:E2; auto. exfalso.
    assert (Hin : In r (ranges_of t lg1)) by (rewrite HR; apply ranges_of_values_on; congruence).
    apply ranges_of_values_on in Hin. congruence.
  - rewrite <- E1. assert (Hin : In r (ranges_of t lg1)) by (apply ranges_of_values_on; congruence).
    specialize (HV r Hin). apply (map_inj dbg HD) in HV. apply (f_equal (@rev _)) in HV.
    now rewrite !rev_involutive in HV.
Qed.

(** One type, with different values printed differently: the display tells all that [query] tells. *)
Lemma thm_C69_query :
  forall tg1 tg2 l1 l2 lg1 lg2 t (dbg : den t -> str) s,
    History l1 lg1 -> History l2 lg2 -> proper lg1 -> proper lg2 ->
    ll_tokens l1 = ll_tokens l2 -> 0 < u_width 32%N ->
    (forall v, plain (dbg v)) -> (forall v w, dbg v = dbg w -> v = w) ->
    show tg1 l1 [existT _ t dbg] = Ok s -> show tg2 l2 [existT _ t dbg] = Ok s ->
    query l1 t = query l2 t
    /\ ranges_of t lg1 = ranges_of t lg2
    /\ forall r, values_on t r lg1 = values_on t r lg2.
Proof.
  intros tg1 tg2 l1 l2 lg1 lg2 t dbg s H1 H2 P1 P2 HT HW HP HD S1 S2.
  assert (HR : rows_of [existT _ t dbg] lg1 = rows_of [existT _ t dbg] lg2).
  { eapply (thm_C69_read tg1 tg2 l1 l2); eauto; constructor; auto; intros v; apply HP. }
  unfold rows_of in HR. cbn [flat_map projT1 projT2] in HR. rewrite !app_nil_r in HR.
  destruct (included_inj t dbg lg1 lg2 HD HR) as [HA HB]. split; [|split; auto].
  assert (HQ : forall l lg, History l lg -> proper lg -> query l t = Ok (query_spec (ll_tokens l) t lg)).
  { intros l lg H P. apply query_ordered; [now apply history_repr|]. apply ordered_ranges.
    unfold ordered. eapply Forall_impl; [|exact P]. intros e. cbn beta. lia. }
  rewrite (HQ l1 lg1), (HQ l2 lg2) by auto. unfold query_spec. rewrite HT, HA. f_equal. apply map_ext. intros r. now rewrite HB.
Qed.

End ThmRead.
