(** Printed texts tell values apart, and displays of the library's types can be read back (C70). *)

From Coq Require Import Strings.String.
From Verif Require Export ThmRead SpecDebug.

Local Open Scope string_scope.
Local Open Scope list_scope.

Lemma number_of_app a b : number_of (a ++ [b]) = (10 * number_of a + (b - 48))%N.
Proof. unfold number_of. now rewrite fold_left_app. Qed.

Lemma digits_upto_spec fuel : forall n, (n < 10 ^ N.of_nat fuel)%N -> fuel <> 0 ->
  number_of (digits_upto fuel n) = n /\ Forall digit (digits_upto fuel n) /\ digits_upto fuel n <> [].
Proof.
  induction fuel as [|fuel IH]; intros n Hn Hf; [congruence|]. cbn [digits_upto].
  destruct (N.ltb_spec n 10) as [Hlt|Hge].
  - split; [|split]; [|repeat constructor; unfold digit; lia|discriminate].
    unfold number_of. cbn [fold_left]. lia.
  - rewrite Nat2N.inj_succ, N.pow_succ_r' in Hn.
    assert (Hq : (n / 10 < 10 ^ N.of_nat fuel)%N) by (apply N.div_lt_upper_bound; lia).
    assert (Hf' : fuel <> 0) by (intros ->; cbn in Hn; lia).
    destruct (IH _ Hq Hf') as (E & F & G). pose proof (N.mod_lt n 10 ltac:(lia)) as Hm.
    pose proof (N.div_mod n 10 ltac:(lia)) as Hd. split; [|split].
    + rewrite number_of_app, E. rewrite (N.add_comm 48), N.add_sub. now symmetry.
    + apply Forall_app. split; auto. constructor; [|constructor]. unfold digit.
      clear - Hm. revert Hm. generalize (n mod 10)%N. intros m Hm. unfold char in *. lia.
    + intros K. apply app_eq_nil in K. destruct K. discriminate.
Qed.

Lemma size_bound n : (n < 10 ^ N.of_nat (S (N.size_nat n)))%N.
Proof.
  rewrite Nat2N.inj_succ, N.pow_succ_r'.
  assert (H : (n < 2 ^ N.of_nat (N.size_nat n))%N).
  { replace (N.of_nat (N.size_nat n)) with (N.size n) by (destruct n; [reflexivity|]; cbn; induction p; cbn; lia).
    apply N.size_gt. }
  assert (H2 : (2 ^ N.of_nat (N.size_nat n) <= 10 ^ N.of_nat (N.size_nat n))%N) by (apply N.pow_le_mono_l; lia).
  lia.
Qed.

(** C70: a number is printed in decimal. *)
Lemma thm_C70_number :
  forall n, number_of (dbg_N n) = n /\ Forall digit (dbg_N n) /\ dbg_N n <> [].
Proof. intros n. apply digits_upto_spec; [apply size_bound|discriminate]. Qed.

Lemma dbg_N_inj m n : dbg_N m = dbg_N n -> m = n.
Proof.
  intros H. rewrite <- (proj1 (thm_C70_number m)), <- (proj1 (thm_C70_number n)). now rewrite H.
Qed.

(** Digits end where something else begins. *)
Definition not_digit_first (u : str) : Prop := forall c u', u = c :: u' -> ~ digit c.

Lemma cut_digits a : forall b u v, Forall digit a -> Forall digit b -> not_digit_first u -> not_digit_first v ->
  a ++ u = b ++ v -> a = b /\ u = v.
Proof.
  induction a as [|x a IH]; intros [|y b] u v Ha Hb Hu Hv H; cbn [app] in H.
  - auto.
  - exfalso. inversion_clear Hb. apply (Hu y (b ++ v)); auto.
  - exfalso. inversion_clear Ha. apply (Hv x (a ++ u)); auto.
  - injection H as <- H. inversion_clear Ha. inversion_clear Hb. destruct (IH b u v) as [-> ->]; auto.
Qed.

Ltac nodigit := let c := fresh in let u := fresh in let E := fresh in
  intros c u E; cbn in E; injection E as <- _; unfold digit; lia.

Lemma cut_number m n u v : not_digit_first u -> not_digit_first v -> dbg_N m ++ u = dbg_N n ++ v -> m = n /\ u = v.
Proof.
  intros Hu Hv H. apply cut_digits in H; auto; try apply thm_C70_number. destruct H as [H ->].
  split; auto. now apply dbg_N_inj.
Qed.

Ltac cl := unfold str, char in *; lia.

(** Decimals. *)
Lemma number_zeros k ds : number_of (repeat 48%N k ++ ds) = number_of ds.
Proof.
  unfold number_of. rewrite fold_left_app. f_equal. induction k; auto.
Qed.

Lemma dbg_decimal_inj a b : dbg_decimal a = dbg_decimal b -> a = b.
Proof.
  destruct a as [c1 s1], b as [c2 s2]. unfold dbg_decimal. cbn [dec_coeff dec_scale]. intros H.
  destruct (thm_C70_number (Z.abs_N c1)) as (V1 & D1 & L1). destruct (thm_C70_number (Z.abs_N c2)) as (V2 & D2 & L2).
  set (d1 := dbg_N (Z.abs_N c1)) in *. set (d2 := dbg_N (Z.abs_N c2)) in *.
  set (p1 := repeat 48%N (S s1 - length d1) ++ d1) in *. set (p2 := repeat 48%N (S s2 - length d2) ++ d2) in *.
  assert (P1 : Forall digit p1 /\ s1 < length p1).
  { unfold p1. split; [|rewrite app_length, repeat_length; cl]. apply Forall_app. split; auto.
    apply Forall_forall. intros x Hx. apply repeat_spec in Hx. subst x. unfold digit. cl. }
  assert (P2 : Forall digit p2 /\ s2 < length p2).
  { unfold p2. split; [|rewrite app_length, repeat_length; cl]. apply Forall_app. split; auto.
    apply Forall_forall. intros x Hx. apply repeat_spec in Hx. subst x. unfold digit. cl. }
  assert (N1 : number_of p1 = Z.abs_N c1) by (unfold p1; now rewrite number_zeros).
  assert (N2 : number_of p2 = Z.abs_N c2) by (unfold p2; now rewrite number_zeros).
  clearbody p1 p2. clear d1 d2 V1 V2 D1 D2 L1 L2. destruct P1 as [P1 Q1], P2 as [P2 Q2].
  assert (Hsig : forall n (p : str) u, Forall digit p -> n <> 0 -> n <= length p -> forall w, firstn n p ++ u = 45%N :: w -> False).
  { intros n p u F Hn Hl w E. destruct n; [congruence|]. destruct p as [|x p]; [cbn in Hl; cl|].
    cbn in E. injection E as -> _. inversion_clear F as [|? ? G _]. unfold digit in G. cl. }
  assert (HS : (c1 <? 0)%Z = (c2 <? 0)%Z /\
               firstn (length p1 - s1) p1 ++ (match s1 with 0 => [] | S _ => [46%N] ++ skipn (length p1 - s1) p1 end)
               = firstn (length p2 - s2) p2 ++ (match s2 with 0 => [] | S _ => [46%N] ++ skipn (length p2 - s2) p2 end)).
  { destruct (c1 <? 0)%Z, (c2 <? 0)%Z; cbn [app] in H.
    - injection H as H. split; auto.
    - exfalso. symmetry in H. revert H. apply Hsig; auto; cl.
    - exfalso. revert H. apply Hsig; auto; cl.
    - split; auto. }
  clear H. destruct HS as [HS H].
  assert (Ft : forall k (p : str), Forall digit p -> Forall digit (firstn k p)).
  { intros k p F. rewrite <- (firstn_skipn k p) in F. now apply Forall_app in F. }
  apply cut_digits in H; auto.
  - destruct H as [HF HT].
    assert (Hs : s1 = s2 /\ skipn (length p1 - s1) p1 = skipn (length p2 - s2) p2).
    { assert (E0 : forall p : str, skipn (length p - 0) p = []) by (intros p; apply skipn_all2; cl).
      destruct s1, s2; try discriminate.
      - rewrite !E0. auto.
      - injection HT as HT. split; auto. apply (f_equal (@length _)) in HT. rewrite !skipn_length in HT. cl. }
    destruct Hs as [<- HK]. assert (HP : p1 = p2) by (rewrite <- (firstn_skipn (length p1 - s1) p1), HF, HK; apply firstn_skipn).
    subst p2. rewrite N1 in N2. f_equal. destruct (Z.ltb_spec c1 0), (Z.ltb_spec c2 0); try discriminate; cl.
  - destruct s1; [intros c u E; discriminate|nodigit].
  - destruct s2; [intros c u E; discriminate|nodigit].
Qed.

Lemma dbg_amount_inj a b : dbg_amount a = dbg_amount b -> a = b.
Proof.
  unfold dbg_amount. intros H. apply app_inv_head in H. apply app_inv_tail in H. now apply dbg_decimal_inj.
Qed.

Lemma dbg_decimal_chars d : Forall (fun c => digit c \/ c = 45%N \/ c = 46%N) (dbg_decimal d).
Proof.
  unfold dbg_decimal. destruct (thm_C70_number (Z.abs_N (dec_coeff d))) as (_ & D & _).
  set (ds := dbg_N _) in *. clearbody ds.
  assert (P : Forall (fun c => digit c \/ c = 45%N \/ c = 46%N) (repeat 48%N (S (dec_scale d) - length ds) ++ ds)).
  { apply Forall_app. split.
    - apply Forall_forall. intros x Hx. apply repeat_spec in Hx. subst x. left. unfold digit. lia.
    - eapply Forall_impl; [|exact D]. auto. }
  cbv zeta. set (p := repeat 48%N (S (dec_scale d) - length ds) ++ ds) in *. clearbody p.
  rewrite <- (firstn_skipn (length p - dec_scale d) p) in P. apply Forall_app in P. destruct P as [PA PB].
  apply Forall_app. split; [destruct (dec_coeff d <? 0)%Z; auto|].
  apply Forall_app. split; auto. destruct (dec_scale d); auto. constructor; auto.
Qed.

Section ThmDebug.
Context {UC : Unicode} {U : UserTypes}.

(** C70: every value of a library type is printed plainly ... *)
Lemma thm_C70_plain : Forall prints_plain library_types.
Proof.
  assert (Hlit : forall s, ~ In 10%N s -> (forall c r, s = c :: r -> (c < 128)%N) -> plain s).
  { intros s H1 H2. split; auto. intros c r E. specialize (H2 c r E). split; intros ->; lia. }
  apply Forall_forall. intros x Hx. cbn in Hx. destruct Hx as [<-|[<-|[<-|[<-|[]]]]]; intros v; cbn [projT1 projT2 den] in *; apply Hlit.
  - destruct v; cbn; intuition discriminate.
  - destruct v; cbn; intros c r E; injection E as <- _; lia.
  - unfold dbg_amount. rewrite !in_app_iff. intros [H|[H|H]].
    + cbn in H. intuition discriminate.
    + pose proof (dbg_decimal_chars v) as F. rewrite Forall_forall in F. destruct (F _ H) as [K|[K|K]]; unfold digit in *; lia.
    + cbn in H. intuition discriminate.
  - cbn. intros c r E. injection E as <- _. lia.
  - destruct v; cbn; intuition discriminate.
  - destruct v; cbn; intros c r E; injection E as <- _; lia.
  - destruct v; cbn; intuition discriminate.
  - destruct v; cbn; intros c r E; injection E as <- _; lia.
Qed.

(** ... and differently from every other value of the same or of another one. *)
Lemma thm_C70_apart :
  forall x y (v : den (projT1 x)) (w : den (projT1 y)),
    In x library_types -> In y library_types ->
    projT2 x v = projT2 y w -> existT den (projT1 x) v = existT den (projT1 y) w.
Proof.
  intros x y v w Hx Hy. cbn in Hx, Hy.
  destruct Hx as [<-|[<-|[<-|[<-|[]]]]]; destruct Hy as [<-|[<-|[<-|[<-|[]]]]]; cbn [projT1 projT2 den] in *;
    try (destruct v, w; cbn; intros E; congruence);
    try (destruct v; cbn; intros E; discriminate);
    try (destruct w; cbn; intros E; discriminate).
  intros E. now apply dbg_amount_inj in E as ->.
Qed.

Lemma inj_den (t : ty) (v w : den t) : existT den t v = existT den t w -> v = w.
Proof. apply Eqdep_dec.inj_pair2_eq_dec. apply ty_eq_dec. Qed.

(** Displays of library types tell all that the queries tell. *)
Lemma cut_pred {A} (P : A -> Prop) a : forall b u v,
  Forall P a -> Forall P b -> Forall (fun x => ~ P x) u -> Forall (fun x => ~ P x) v ->
  a ++ u = b ++ v -> a = b /\ u = v.
Proof.
  induction a as [|x a IH]; intros [|y b] u v Ha Hb Hu Hv H; cbn [app] in H.
  - auto.
  - exfalso. subst u. inversion_clear Hb. inversion_clear Hu. auto.
  - exfalso. subst v. inversion_clear Ha. inversion_clear Hv. auto.
  - injection H as <- H. inversion_clear Ha. inversion_clear Hb. destruct (IH b u v) as [-> ->]; auto.
Qed.

Lemma included_printed t (dbg : den t -> str) lg : Forall (fun row => exists v, snd row = dbg v) (included t dbg lg).
Proof.
  apply Forall_forall. intros row H. apply in_flat_map in H. destruct H as (r & _ & H). apply in_map_iff in H.
  destruct H as (v & <- & _). exists v. reflexivity.
Qed.

Lemma library_same x y : In x library_types -> In y library_types -> projT1 x = projT1 y -> x = y.
Proof.
  intros Hx Hy. cbn in Hx, Hy.
  destruct Hx as [<-|[<-|[<-|[<-|[]]]]]; destruct Hy as [<-|[<-|[<-|[<-|[]]]]]; cbn [projT1]; intros E;
    reflexivity || discriminate.
Qed.

Lemma library_rows incs lg1 lg2 :
  incl incs library_types -> NoDup (map (@projT1 _ _) incs) ->
  rows_of incs lg1 = rows_of incs lg2 ->
  forall x, In x incs -> included (projT1 x) (projT2 x) lg1 = included (projT1 x) (projT2 x) lg2.
Proof.
  induction incs as [|y incs IH]; intros HI HN H x Hx; [destruct Hx|]. cbn [map] in HN.
  inversion_clear HN as [|? ? HA HB]. unfold rows_of in H. cbn [flat_map] in H.
  assert (Hno : forall lg, Forall (fun row : LRange * str => ~ exists v, snd row = projT2 y v) (rows_of incs lg)).
  { intros lg. apply Forall_forall. intros row Hr (v & E). apply in_flat_map in Hr. destruct Hr as (z & Hz & Hr).
    pose proof (included_printed (projT1 z) (projT2 z) lg) as F. rewrite Forall_forall in F.
    destruct (F row Hr) as (w & E'). rewrite E' in E.
    apply thm_C70_apart in E; [|apply HI; now right|apply HI; now left].
    apply (f_equal (@projT1 _ _)) in E. cbn [projT1] in E. apply HA. rewrite <- E. now apply in_map. }
  apply (cut_pred (fun row : LRange * str => exists v, snd row = projT2 y v)) in H;
    try apply included_printed; try apply Hno.
  destruct H as [H1 H2]. destruct Hx as [<-|Hx]; auto. apply IH; auto. intros z Hz. apply HI. now right.
Qed.

Lemma query_proper l lg t : History l lg -> proper lg -> query l t = Ok (query_spec (ll_tokens l) t lg).
Proof.
  intros H P. apply query_ordered; [now apply history_repr|]. apply ordered_ranges.
  unfold ordered. eapply Forall_impl; [|exact P]. intros e. cbn beta. lia.
Qed.

Lemma query_spec_inj toks t lg1 lg2 :
  query_spec toks t lg1 = query_spec toks t lg2 ->
  ranges_of t lg1 = ranges_of t lg2 /\ forall r, In r (ranges_of t lg1) -> values_on t r lg1 = values_on t r lg2.
Proof.
  unfold query_spec. generalize (ranges_of t lg1) as rs1, (ranges_of t lg2) as rs2.
  induction rs1 as [|r1 rs1 IH]; intros [|r2 rs2] H; try discriminate; [split; auto; intros r []|].
  cbn [map] in H. injection H as H1 _ H3 H4. subst r2. destruct (IH rs2 H4) as [-> HV]. split; auto.
  intros r [<-|Hr]; auto.
Qed.

Lemma thm_C70_display :
  forall tg1 tg2 l1 l2 lg1 lg2 incs,
    History l1 lg1 -> History l2 lg2 -> proper lg1 -> proper lg2 ->
    ll_tokens l1 = ll_tokens l2 -> 0 < u_width 32%N ->
    incl incs library_types -> NoDup (map (@projT1 _ _) incs) ->
    (show tg1 l1 incs = show tg2 l2 incs <-> forall x, In x incs -> query l1 (projT1 x) = query l2 (projT1 x)).
Proof.
  intros tg1 tg2 l1 l2 lg1 lg2 incs H1 H2 P1 P2 HT HW HI HN. split.
  - intros HS. pose proof (thm_C35_display tg1 l1 lg1 incs H1 P1) as S1.
    assert (S2 := S1). rewrite HS in S2.
    assert (HF : Forall prints_plain incs).
    { apply Forall_forall. intros x Hx. pose proof thm_C70_plain as F. rewrite Forall_forall in F. apply F. auto. }
    pose proof (thm_C69_read _ _ _ _ _ _ _ _ _ H1 H2 P1 P2 HT HW HF HF S1 S2) as HR.
    intros x Hx. pose proof (library_rows incs lg1 lg2 HI HN HR x Hx) as HX.
    apply included_inj in HX.
    + destruct HX as [HA HB]. rewrite (query_proper l1 lg1), (query_proper l2 lg2) by auto.
      unfold query_spec. rewrite HT, HA. f_equal. apply map_ext. intros r. now rewrite HB.
    + intros v w E. apply (thm_C70_apart x x) in E; auto. now apply inj_den in E.
  - intros HQ. rewrite (thm_C35_display tg1 l1 lg1), (thm_C35_display tg2 l2 lg2) by auto. rewrite HT. do 2 f_equal.
    f_equal. rewrite !flat_map_concat_map. f_equal. apply map_ext_in. intros x Hx. specialize (HQ x Hx).
    rewrite (query_proper l1 lg1), (query_proper l2 lg2), HT in HQ by auto. injection HQ as HQ.
    apply query_spec_inj in HQ. destruct HQ as [HA HB]. unfold included. rewrite <- HA.
    rewrite !flat_map_concat_map. f_equal. apply map_ext_in. intros r Hr. now rewrite (HB r Hr).
Qed.

(** Selections, finds, assignments and choices. *)
Lemma thm_C70_selection :
  forall a b, dbg_selection a = dbg_selection b <-> start_idx a = start_idx b /\ end_idx a = end_idx b.
Proof.
  intros a b. split; [|intros [E1 E2]; unfold dbg_selection; now rewrite E1, E2].
  unfold dbg_selection. intros H. apply app_inv_head in H. apply cut_number in H; try nodigit.
  destruct H as [E1 H]. apply app_inv_head in H. apply cut_number in H; try nodigit. destruct H as [E2 _]. lia.
Qed.

Lemma thm_C70_selection_eq :
  forall a b, rc_id (sel_line a) = rc_id (sel_line b) ->
    (dbg_selection a = dbg_selection b <-> sel_eqb a b = true).
Proof.
  intros a b H. rewrite thm_C70_selection. unfold sel_eqb. rewrite H, N.eqb_refl, andb_true_r, andb_true_iff.
  rewrite !Nat.eqb_eq. tauto.
Qed.

Lemma thm_C70_find :
  forall A (da : A -> str), tells_apart da -> tells_apart (dbg_find da).
Proof.
  intros A da HA [s1 e1 f1] [s2 e2 f2] H. unfold dbg_find in H. cbn [start_pos_at end_pos_at found] in H.
  apply app_inv_head in H. apply cut_number in H; try nodigit. destruct H as [-> H].
  apply app_inv_head in H. apply cut_number in H; try nodigit. destruct H as [-> H].
  apply app_inv_head in H. apply app_inv_tail in H. apply HA in H. now subst.
Qed.

Lemma thm_C70_assignment :
  forall t (dv : den t -> str), tells_apart dv -> tells_apart (dbg_assignment dv).
Proof.
  intros t dv HA [s1 e1 f1] [s2 e2 f2] H. unfold dbg_assignment in H. cbn [as_start as_end as_value] in H.
  apply app_inv_head in H. apply cut_number in H; try nodigit. destruct H as [E1 H].
  apply app_inv_head in H. apply cut_number in H; try nodigit. destruct H as [E2 H].
  apply app_inv_head in H. apply app_inv_tail in H. apply HA in H.
  apply Nat2N.inj in E1, E2. now subst.
Qed.

Lemma thm_C70_any_of :
  forall A B C (da : A -> str) (db : B -> str) (dc : C -> str),
    tells_apart da -> tells_apart db -> tells_apart dc ->
    tells_apart (dbg_any_of2 da db) /\ tells_apart (dbg_any_of3 da db dc).
Proof.
  intros A B C da db dc HA HB HC.
  split; intros [a|b|c] [a'|b'|c'] H || intros [a|b] [a'|b'] H; cbn in H; try discriminate;
    injection H as H; apply app_inv_tail in H; first [apply HA in H|apply HB in H|apply HC in H]; now subst.
Qed.

(** C70: no zeros in front. *)
Lemma digits_upto_zero fuel : forall n rest, (n < 10 ^ N.of_nat fuel)%N -> digits_upto fuel n = 48%N :: rest -> rest = [].
Proof.
  induction fuel as [|fuel IH]; intros n rest Hn H; cbn [digits_upto] in H; [discriminate|].
  destruct (N.ltb_spec n 10) as [Hlt|Hge]; [now injection H as _ <-|].
  rewrite Nat2N.inj_succ, N.pow_succ_r' in Hn.
  assert (Hq : (n / 10 < 10 ^ N.of_nat fuel)%N) by (apply N.div_lt_upper_bound; lia).
  assert (Hf' : fuel <> 0) by (intros ->; cbn in Hn; lia).
  destruct (digits_upto_spec fuel _ Hq Hf') as (E & _ & G).
  destruct (digits_upto fuel (n / 10)) as [|c ds] eqn:E1; [congruence|].
  cbn [app] in H. injection H as -> H. specialize (IH _ _ Hq E1). subst ds. unfold number_of in E. cbn in E.
  assert (1 <= n / 10)%N by (apply N.div_le_lower_bound; lia). lia.
Qed.

Lemma thm_C70_decimal :
  forall d, exists whole frac,
    dbg_decimal d = (if (dec_coeff d <? 0)%Z then literal "-" else []) ++ whole
                    ++ (match frac with [] => [] | _ => literal "." ++ frac end)
    /\ length frac = dec_scale d /\ Forall digit (whole ++ frac) /\ number_of (whole ++ frac) = Z.abs_N (dec_coeff d)
    /\ whole <> [] /\ forall rest, whole = 48%N :: rest -> rest = [].
Proof.
  intros [c k]. unfold dbg_decimal. cbn [dec_coeff dec_scale].
  destruct (thm_C70_number (Z.abs_N c)) as (V & D & L).
  assert (Z : forall rest, dbg_N (Z.abs_N c) = 48%N :: rest -> rest = []) by (intros rest; apply digits_upto_zero, size_bound).
  set (ds := dbg_N (Z.abs_N c)) in *. clearbody ds. cbv zeta.
  set (p := repeat 48%N (S k - length ds) ++ ds).
  assert (P : Forall digit p /\ k < length p /\ number_of p = Z.abs_N c).
  { unfold p. split; [|split; [rewrite app_length, repeat_length; cl|now rewrite number_zeros]]. apply Forall_app. split; auto.
    apply Forall_forall. intros x Hx. apply repeat_spec in Hx. subst x. unfold digit. cl. }
  destruct P as (P1 & P2 & P3).
  assert (HL : length (skipn (length p - k) p) = k) by (rewrite skipn_length; cl).
  exists (firstn (length p - k) p), (skipn (length p - k) p). rewrite firstn_skipn. split; [|split; [|split; [|split; [|split]]]]; auto.
  - f_equal. f_equal. destruct k as [|k'], (skipn _ p) eqn:E; cbn [length] in HL; try discriminate; auto.
  - intros K. apply (f_equal (@length _)) in K. rewrite firstn_length in K. cbn [length] in K. cl.
  - intros rest K. unfold p in K. destruct (Nat.le_gt_cases (length ds) k) as [Hle|Hgt].
    + apply (f_equal (@length _)) in K. rewrite firstn_length, app_length, repeat_length in K. cbn [length] in K.
      destruct rest; auto. cbn [length] in K. cl.
    + replace (S k - length ds) with 0 in K by cl. cbn [repeat app] in K.
      remember (length ds - k) as j eqn:Ej in K. assert (Hj : firstn j ds = 48%N :: rest) by (rewrite Ej; exact K). clear K Ej. rename Hj into K. destruct ds as [|x ds']; [congruence|]. destruct j as [|j]; [inversion K|].
      cbn [firstn] in K. injection K as -> K. rewrite (Z ds' eq_refl) in K. now rewrite firstn_nil in K.
Qed.

Lemma thm_C70_layout :
  (forall s, dbg_selection s
     = as_struct "LLSelection" [("start_idx", dbg_N (N.of_nat (start_idx s))); ("end_idx", dbg_N (N.of_nat (end_idx s)))])
  /\ (forall A (da : A -> str) f, dbg_find da f
     = as_struct "LLLineFind" [("start", dbg_N (start_pos_at f)); ("end", dbg_N (end_pos_at f)); ("found", da (found f))])
  /\ (forall t (dv : den t -> str) x, dbg_assignment dv x
     = as_struct "LLCursorAssignment" [("start_idx", dbg_N (N.of_nat (as_start x)));
                                       ("end_idx", dbg_N (N.of_nat (as_end x))); ("value", dv (as_value x))])
  /\ (forall a, dbg_any_attribute a = literal "AnyAttribute")
  /\ (forall A B (da : A -> str) (db : B -> str),
     (forall a, dbg_any_of2 da db (A2_A a) = as_tuple "A" [da a])
     /\ (forall b, dbg_any_of2 da db (A2_B b) = as_tuple "B" [db b]))
  /\ (forall A B C (da : A -> str) (db : B -> str) (dc : C -> str),
     (forall a, dbg_any_of3 da db dc (A3_A a) = as_tuple "A" [da a])
     /\ (forall b, dbg_any_of3 da db dc (A3_B b) = as_tuple "B" [db b])
     /\ (forall c, dbg_any_of3 da db dc (A3_C c) = as_tuple "C" [dc c]))
  /\ (forall d, dbg_amount d = as_tuple "Amount" [dbg_decimal d])
  /\ map dbg_text_tag [NATN; PUNC; SYMB; SPACE; WORD] = map literal ["NATN"; "PUNC"; "SYMB"; "SPACE"; "WORD"]
  /\ map dbg_keyword [KConditionStart; KThen; KAnd] = map literal ["ConditionStart"; "Then"; "And"]
  /\ map dbg_clause [LeadingEffect; TrailingEffect; Condition; Independent]
     = map literal ["LeadingEffect"; "TrailingEffect"; "Condition"; "Independent"].
Proof.
  repeat split; try (intros; reflexivity);
    intros; unfold dbg_selection, dbg_find, dbg_assignment, as_struct;
    repeat match goal with |- context [dbg_N ?n] => generalize (dbg_N n); intros ? end;
    cbn; repeat (rewrite <- app_assoc; cbn); reflexivity.
Qed.

End ThmDebug.
