(** C55: a line made from several inputs is its parts side by side.  C56: texts and
    positions are slices of the source.  C08: digit-led segments. *)

From Verif Require Export SpecJoin ThmMore ThmLayer.
From Coq Require Import Permutation.

Section ThmJoin.
Context {UC : Unicode} {U : UserTypes}.

(** ** Moving tokens and logs *)

Definition moved_log (k : nat) (lg : list entry) : list entry :=
  map (fun e => (moved_range k (fst e), snd e)) lg.

Lemma moved_layout tg k p xs : forall i x,
  layout_by (wadd tg) (k + i) ((p + x) mod usize_mod tg)%N xs =
  map (moved_token k p (usize_mod tg)) (layout_by (wadd tg) i x xs).
Proof.
  assert (HM : usize_mod tg <> 0%N) by (pose proof (usize_mod_pos tg); lia).
  induction xs as [|[t n] xs IH]; intros i x; [reflexivity|].
  cbn [layout_by map]. unfold moved_token at 1. cbn [token_idx pos_starts_at pos_ends_at token].
  assert (E : wadd tg ((p + x) mod usize_mod tg)%N n = ((p + wadd tg x n) mod usize_mod tg)%N).
  { rewrite !wadd_mod by assumption.
    rewrite N.add_mod_idemp_l, N.add_mod_idemp_r by assumption. f_equal. lia. }
  rewrite E. f_equal. rewrite <- Nat.add_succ_r. apply IH.
Qed.

Lemma wadd_fold_lt tg ns : forall p, (p < usize_mod tg)%N -> (fold_left (wadd tg) ns p < usize_mod tg)%N.
Proof.
  assert (HM : usize_mod tg <> 0%N) by (pose proof (usize_mod_pos tg); lia).
  induction ns as [|n ns IH]; simpl; intros p H; auto.
  apply IH. rewrite wadd_mod by assumption. now apply N.mod_lt.
Qed.

Lemma last_layout add xs : forall i p d,
  last (map pos_ends_at (layout_by add i p xs)) d = match xs with [] => d | _ => fold_left add (map snd xs) p end.
Proof.
  induction xs as [|[t n] xs IH]; intros i p d; [reflexivity|].
  cbn [layout_by map fold_left snd]. destruct xs as [|x xs].
  - reflexivity.
  - specialize (IH (S i) (add p n) d). rewrite <- IH. destruct x. reflexivity.
Qed.

Lemma layout_end tg xs : last (map pos_ends_at (layout_by (wadd tg) 0 0%N xs)) 0%N = fold_left (wadd tg) (map snd xs) 0%N.
Proof. rewrite last_layout. destruct xs; reflexivity. Qed.

Lemma tokens_log_app ts1 : forall ts2 i,
  tokens_log i (ts1 ++ ts2) = tokens_log i ts1 ++ tokens_log (i + length ts1) ts2.
Proof.
  induction ts1 as [|t ts1 IH]; intros ts2 i; simpl.
  - now rewrite Nat.add_0_r.
  - now rewrite IH, <- app_assoc, Nat.add_succ_r.
Qed.

Lemma tokens_log_moved k ts : forall i, tokens_log (k + i) ts = moved_log k (tokens_log i ts).
Proof.
  induction ts as [|t ts IH]; intros i; [reflexivity|].
  cbn [tokens_log]. unfold moved_log. rewrite map_app. f_equal.
  - destruct t as [s tag|]; [|reflexivity]. destruct s as [|c [|c' s]]; reflexivity.
  - rewrite <- Nat.add_succ_r. apply IH.
Qed.

Lemma input_log_app g1 : forall i1 g2 i2 i, length g1 = length i1 ->
  input_log i (g1 ++ g2) (i1 ++ i2) = input_log i g1 i1 ++ input_log (i + length (concat g1)) g2 i2.
Proof.
  induction g1 as [|g g1 IH]; intros i1 g2 i2 i HL; destruct i1 as [|it i1]; try discriminate HL.
  - simpl. now rewrite Nat.add_0_r.
  - cbn [input_log app concat]. rewrite app_length. rewrite IH by (simpl in HL; lia).
    rewrite <- app_assoc. now rewrite Nat.add_assoc.
Qed.

Lemma input_log_moved k gs : forall input i, Forall (fun g => g <> []) gs ->
  input_log (k + i) gs input = moved_log k (input_log i gs input).
Proof.
  induction gs as [|g gs IH]; intros input i HN; [reflexivity|]. destruct input as [|it input]; [reflexivity|].
  inversion HN as [|? ? Hg HN']; subst. cbn [input_log]. unfold moved_log. rewrite map_app. f_equal.
  - rewrite map_map. apply map_ext. intros a. unfold moved_range. simpl.
    assert (0 < length g) by (destruct g; [easy|simpl; lia]).
    replace (k + i + length g - 1) with (k + (i + length g - 1)) by lia. reflexivity.
  - rewrite <- Nat.add_assoc. apply IH; auto.
Qed.

Lemma in_line_app n l1 l2 : in_line n (l1 ++ l2) <-> in_line n l1 /\ in_line n l2.
Proof. apply Forall_app. Qed.

Lemma assigned_moved t k lg : assigned t (moved_log k lg) = map (fun x => (moved_range k (fst x), snd x)) (assigned t lg).
Proof.
  unfold assigned, moved_log. induction lg as [|[r a] lg IH]; [reflexivity|].
  simpl. destruct (downcast t a); simpl; now rewrite IH.
Qed.

Lemma moved_range_eqb k r r' : range_eqb (moved_range k r) (moved_range k r') = range_eqb r r'.
Proof.
  destruct (range_eqb r r') eqn:E.
  - apply range_eqb_spec in E. subst. apply range_eqb_refl.
  - apply range_eqb_neq. apply range_eqb_neq in E. intros F. apply E.
    destruct r, r'. unfold moved_range in F. simpl in F. inversion F. f_equal; lia.
Qed.

Lemma values_on_moved t k r lg : values_on t (moved_range k r) (moved_log k lg) = values_on t r lg.
Proof.
  unfold values_on. rewrite assigned_moved. induction (assigned t lg) as [|[r' v] al IH]; [reflexivity|].
  cbn [map filter_map fst snd]. rewrite moved_range_eqb, IH. reflexivity.
Qed.

Lemma values_on_low t k r lg : fst r < k -> values_on t r (moved_log k lg) = [].
Proof.
  intros H. unfold values_on. apply filter_map_none. intros [r' v] Hin. rewrite assigned_moved in Hin.
  apply in_map_iff in Hin. destruct Hin as ([r0 v0] & E & _). inversion E; subst.
  assert (range_eqb (moved_range k r0) r = false) as ->; auto.
  apply range_eqb_neq. intros <-. simpl in H. lia.
Qed.

Lemma values_on_high t k r lg : in_line k lg -> values_on t (moved_range k r) lg = [].
Proof.
  intros HI. unfold values_on. apply filter_map_none. intros [r' v] Hin.
  apply assigned_In in Hin. unfold in_line in HI. rewrite Forall_forall in HI. specialize (HI _ Hin). simpl in HI.
  assert (range_eqb r' (moved_range k r) = false) as ->; auto.
  apply range_eqb_neq. intros ->. simpl in HI. lia.
Qed.

Lemma filter_all {A} (p : A -> bool) l : (forall x, In x l -> p x = true) -> filter p l = l.
Proof.
  induction l as [|a l IH]; intros H; [reflexivity|]. simpl. rewrite (H a (or_introl eq_refl)). f_equal. apply IH.
  intros x Hx. apply H. now right.
Qed.

Lemma firsts_app_disjoint l1 : forall l2, (forall r, In r l1 -> ~ In r l2) -> firsts (l1 ++ l2) = firsts l1 ++ firsts l2.
Proof.
  induction l1 as [|r l1 IH]; intros l2 HD; [reflexivity|]. cbn [firsts app]. rewrite IH.
  2:{ intros x Hx. apply HD. now right. }
  rewrite filter_app. f_equal. f_equal. apply filter_all. intros x Hx.
  apply negb_true_iff, range_eqb_neq. intros ->. apply (HD r); [now left|]. now apply firsts_In.
Qed.

Lemma firsts_moved k l : firsts (map (moved_range k) l) = map (moved_range k) (firsts l).
Proof.
  induction l as [|r l IH]; [reflexivity|]. cbn [map firsts]. rewrite IH. f_equal.
  generalize (firsts l) as rs. clear. induction rs as [|r' rs IHf]; [reflexivity|].
  cbn [map filter]. rewrite moved_range_eqb, IHf. destruct (range_eqb r' r); reflexivity.
Qed.

Lemma moved_range_inj k r r' : moved_range k r = moved_range k r' -> r = r'.
Proof. destruct r, r'. unfold moved_range. simpl. intros E. inversion E. f_equal; lia. Qed.

Lemma NoDup_app_intro {A} (l1 l2 : list A) :
  NoDup l1 -> NoDup l2 -> (forall x, In x l1 -> In x l2 -> False) -> NoDup (l1 ++ l2).
Proof.
  induction l1 as [|a l1 IH]; intros H1 H2 HD; [exact H2|]. inversion H1; subst. simpl. constructor.
  - rewrite in_app_iff. intros [H|H]; [easy|]. apply (HD a); [now left|exact H].
  - apply IH; auto. intros x Hx. apply HD. now right.
Qed.

(** ** Rows *)

(** What is needed of the log of the whole line. *)
Record joined_log (n : nat) (lg lg1 lg2 : list entry) : Prop := {
  jl_in : in_line n lg1;
  jl_values : forall t r, values_on t r lg = values_on t r lg1 ++ values_on t r (moved_log n lg2);
}.

Lemma joined_ranges n lg lg1 lg2 t : joined_log n lg lg1 lg2 ->
  Permutation (ranges_of t lg) (ranges_of t lg1 ++ map (moved_range n) (ranges_of t lg2)).
Proof.
  intros [HI HV]. apply NoDup_Permutation.
  - apply ranges_of_NoDup.
  - apply NoDup_app_intro.
    + apply ranges_of_NoDup.
    + apply FinFun.Injective_map_NoDup; [intros a b; apply moved_range_inj|apply ranges_of_NoDup].
    + intros r H1 H2. apply in_map_iff in H2. destruct H2 as (r2 & <- & _).
      apply ranges_of_values_on in H1. apply H1. now apply values_on_high.
  - intros r. rewrite in_app_iff, !ranges_of_values_on, HV. split.
    + intros H. destruct (values_on t r lg1) eqn:E1; [|left; congruence]. right. simpl in H.
      destruct (values_on t r (moved_log n lg2)) as [|v vs] eqn:E2; [congruence|].
      assert (Hv : In v (values_on t r (moved_log n lg2))) by (rewrite E2; now left).
      apply values_on_In in Hv. unfold moved_log in Hv. apply in_map_iff in Hv.
      destruct Hv as ([r2 a] & E & Hin). inversion E; subst. apply in_map. apply ranges_of_In. now exists v.
    + intros [H|H].
      * destruct (values_on t r lg1); [congruence|discriminate].
      * apply in_map_iff in H. destruct H as (r2 & <- & H). rewrite values_on_moved.
        apply ranges_of_values_on in H. intros E. apply app_eq_nil in E. tauto.
Qed.

Lemma text_between_left toks1 toks2 s e : s < length toks1 -> e < length toks1 ->
  text_between (toks1 ++ toks2) s e = text_between toks1 s e.
Proof.
  intros Hs He. unfold text_between. apply flat_map_ext_in. intros i Hi. apply in_seq in Hi.
  rewrite nth_error_app1 by lia. reflexivity.
Qed.

Lemma seq_moved k n : forall s, seq (k + s) n = map (Nat.add k) (seq s n).
Proof. induction n as [|n IH]; intros s; [reflexivity|]. simpl. f_equal. rewrite <- Nat.add_succ_r. apply IH. Qed.

Lemma text_between_right toks1 toks2 p M r :
  text_between (toks1 ++ map (moved_token (length toks1) p M) toks2)
    (fst (moved_range (length toks1) r)) (snd (moved_range (length toks1) r))
  = text_between toks2 (fst r) (snd r).
Proof.
  unfold text_between, moved_range. cbn [fst snd].
  replace (S (length toks1 + snd r) - (length toks1 + fst r)) with (S (snd r) - fst r) by lia.
  rewrite seq_moved. rewrite !flat_map_concat_map, map_map. f_equal. apply map_ext. intros i.
  rewrite nth_error_app2 by lia. replace (length toks1 + i - length toks1) with i by lia.
  rewrite nth_error_map. destruct (nth_error toks2 i); reflexivity.
Qed.

Lemma values_on_app' t r l1 l2 : values_on t r (l1 ++ l2) = values_on t r l1 ++ values_on t r l2.
Proof. apply LemStore.values_on_app. Qed.

(** The tokens' own entries come before those of the inputs, so the four blocks are
    interleaved; each range sees only its own half. *)
Lemma blocks_joined n T1 I1 T2 I2 :
  in_line n (T1 ++ I1) ->
  joined_log n (T1 ++ moved_log n T2 ++ I1 ++ moved_log n I2) (T1 ++ I1) (T2 ++ I2).
Proof.
  intros HI. split; [exact HI|]. intros t r.
  unfold moved_log at 3. rewrite map_app. fold (moved_log n T2) (moved_log n I2).
  rewrite !values_on_app'. apply in_line_app in HI. destruct HI as [HT HI].
  destruct (le_lt_dec n (fst r)) as [Hr|Hr].
  - assert (E : values_on t r I1 = []).
    { unfold values_on. apply filter_map_none. intros [r' v] Hin.
      apply assigned_In in Hin. unfold in_line in HI. rewrite Forall_forall in HI. specialize (HI _ Hin). simpl in HI.
      assert (range_eqb r' r = false) as ->; auto. apply range_eqb_neq. intros ->. lia. }
    rewrite E, !app_nil_r. reflexivity.
  - rewrite !(values_on_low t n r) by assumption. simpl. rewrite !app_nil_r. reflexivity.
Qed.

Lemma joined_rows n lg lg1 lg2 t toks1 toks2 p M :
  n = length toks1 -> joined_log n lg lg1 lg2 ->
  let f := fun r => (r, text_between (toks1 ++ map (moved_token n p M) toks2) (fst r) (snd r), values_on t r lg) in
  map f (ranges_of t lg1) = query_spec toks1 t lg1
  /\ map f (map (moved_range n) (ranges_of t lg2)) = map (moved_row n) (query_spec toks2 t lg2).
Proof.
  intros -> [HI HV] f. split.
  - unfold query_spec. apply map_ext_in. intros r Hr. unfold f.
    apply ranges_of_In in Hr. destruct Hr as (v & Hin). unfold in_line in HI. rewrite Forall_forall in HI.
    specialize (HI _ Hin). cbn [fst snd] in HI.
    rewrite text_between_left by tauto. rewrite HV, values_on_low by tauto. now rewrite app_nil_r.
  - unfold query_spec. rewrite !map_map. apply map_ext. intros r. unfold f, moved_row. cbn [fst snd].
    rewrite text_between_right. rewrite HV, values_on_moved, values_on_high by assumption. reflexivity.
Qed.

Lemma assigned_tokens_none t ts i : t <> TChar -> t <> TTextTag -> assigned t (tokens_log i ts) = [].
Proof.
  intros H1 H2. revert i. induction ts as [|tok ts IH]; intros i; [reflexivity|]. cbn [tokens_log].
  rewrite LemStore.assigned_app, IH, app_nil_r. unfold assigned. apply filter_map_none. intros [r a] Hin.
  destruct tok as [s tag|]; [|easy]. destruct s as [|c [|c' s]]; simpl in Hin;
    repeat (destruct Hin as [E|Hin]; [inversion E; subst; rewrite downcast_other by congruence; reflexivity|]); easy.
Qed.

Lemma Forall2_len {A B} (R : A -> B -> Prop) l l' : Forall2 R l l' -> length l = length l'.
Proof. induction 1; simpl; auto. Qed.

(** C55: the line of [i1 ++ i2] is the line of [i1] followed by that of [i2]. *)
Lemma thm_C55_join :
  forall tg sz i1 i2 l,
    Forall wf_input i1 -> Forall wf_input i2 ->
    create_line_from_input_tokens tg (i1 ++ i2) sz = Ok l ->
    exists l1 l2,
      create_line_from_input_tokens tg i1 sz = Ok l1 /\ create_line_from_input_tokens tg i2 sz = Ok l2
      /\ ll_tokens l = ll_tokens l1 ++
           map (moved_token (length (ll_tokens l1)) (end_of l1) (2 ^ usize_bits tg)) (ll_tokens l2)
      /\ forall t, exists q q1 q2, query l t = Ok q /\ query l1 t = Ok q1 /\ query l2 t = Ok q2
           /\ Permutation q (q1 ++ map (moved_row (length (ll_tokens l1))) q2)
           /\ (t <> TChar -> t <> TTextTag -> q = q1 ++ map (moved_row (length (ll_tokens l1))) q2).
Proof.
  intros tg sz i1 i2 l HW1 HW2 H.
  destruct (create_facts tg sz (i1 ++ i2) l (proj2 (Forall_app _ _ _) (conj HW1 HW2)) H)
    as (groups & H1 & H2 & H3 & HT & HR).
  apply Forall2_app_inv_l in H1. destruct H1 as (g1 & g2 & F1 & F2 & ->).
  apply Forall_app in H2. destruct H2 as [N1 N2].
  rewrite concat_app in *.
  assert (HF1 : fits tg 0 (concat g1)).
  { destruct H3 as [H3|[H3|H3]]; [now left| |].
    - apply app_eq_nil in H3. right; left; tauto.
    - right; right. rewrite total_app in H3. lia. }
  assert (HF2 : fits tg 0 (concat g2)).
  { destruct H3 as [H3|[H3|H3]]; [now left| |].
    - apply app_eq_nil in H3. right; left; tauto.
    - right; right. rewrite total_app in H3. lia. }
  destruct (create_ok tg sz i1 g1 HW1 F1 N1 HF1) as (l1 & C1 & T1 & R1).
  destruct (create_ok tg sz i2 g2 HW2 F2 N2 HF2) as (l2 & C2 & T2 & R2).
  exists l1, l2. split; [exact C1|]. split; [exact C2|].
  assert (EN : length (ll_tokens l1) = length (concat g1)) by (rewrite T1; apply layout_by_length).
  assert (ET : ll_tokens l = ll_tokens l1 ++
           map (moved_token (length (ll_tokens l1)) (end_of l1) (2 ^ usize_bits tg)) (ll_tokens l2)).
  { rewrite HT, layout_by_app, <- T1, EN. f_equal. unfold end_of. rewrite T1, layout_end, T2.
    set (p := fold_left (wadd tg) (map snd (concat g1)) 0%N).
    assert (Hp : (p < usize_mod tg)%N) by (apply wadd_fold_lt, usize_mod_pos).
    rewrite <- (N.mod_small p (usize_mod tg) Hp) at 1.
    rewrite <- (N.add_0_r p) at 1. rewrite Nat.add_comm. apply moved_layout. }
  split; [exact ET|]. intros t.
  assert (EL : creation_log (map (map fst) (g1 ++ g2)) (i1 ++ i2)
    = tokens_log 0 (concat (map (map fst) g1)) ++ moved_log (length (ll_tokens l1)) (tokens_log 0 (concat (map (map fst) g2)))
      ++ input_log 0 (map (map fst) g1) i1 ++ moved_log (length (ll_tokens l1)) (input_log 0 (map (map fst) g2) i2)).
  { unfold creation_log. rewrite map_app, concat_app, tokens_log_app, <- app_assoc.
    assert (EC : length (concat (map (map fst) g1)) = length (ll_tokens l1)).
    { rewrite EN, <- concat_map. apply map_length. }
    rewrite input_log_app by (rewrite map_length; symmetry; eapply Forall2_len; eauto).
    rewrite EC. rewrite <- (tokens_log_moved _ _ 0), <- (input_log_moved _ _ _ 0).
    2:{ now apply map_nonempty. }
    now rewrite Nat.add_0_r. }
  rewrite EL in HR.
  pose proof (rp_in _ _ R1) as HI. unfold creation_log in HI, R1, R2.
  pose proof (blocks_joined _ _ _ (tokens_log 0 (concat (map (map fst) g2))) (input_log 0 (map (map fst) g2) i2) HI) as HJ.
  assert (HO : forall l0 lg0, Repr l0 lg0 -> ordered lg0 -> query l0 t = Ok (query_spec (ll_tokens l0) t lg0)).
  { intros l0 lg0 HR0 HO. apply query_ordered; [exact HR0|]. now apply ordered_ranges. }
  assert (O1 : ordered (creation_log (map (map fst) g1) i1)) by (apply creation_log_ordered; now apply map_nonempty).
  assert (O2 : ordered (creation_log (map (map fst) g2) i2)) by (apply creation_log_ordered; now apply map_nonempty).
  assert (O3 : ordered (creation_log (map (map fst) (g1 ++ g2)) (i1 ++ i2))).
  { apply creation_log_ordered; apply map_nonempty. now apply Forall_app. }
  rewrite EL in O3. unfold creation_log in O1, O2.
  exists (query_spec (ll_tokens l) t (tokens_log 0 (concat (map (map fst) g1))
            ++ moved_log (length (ll_tokens l1)) (tokens_log 0 (concat (map (map fst) g2)))
            ++ input_log 0 (map (map fst) g1) i1
            ++ moved_log (length (ll_tokens l1)) (input_log 0 (map (map fst) g2) i2))), 
         (query_spec (ll_tokens l1) t (tokens_log 0 (concat (map (map fst) g1)) ++ input_log 0 (map (map fst) g1) i1)),
         (query_spec (ll_tokens l2) t (tokens_log 0 (concat (map (map fst) g2)) ++ input_log 0 (map (map fst) g2) i2)).
  split; [apply HO; assumption|]. split; [apply HO; assumption|]. split; [apply HO; assumption|].
  pose proof (joined_rows _ _ _ _ t (ll_tokens l1) (ll_tokens l2) (end_of l1) (2 ^ usize_bits tg) eq_refl HJ) as HX.
  cbv zeta in HX. rewrite <- ET in HX. destruct HX as [X1 X2]. rewrite <- X1, <- X2, <- map_app. split.
  - unfold query_spec at 1. apply Permutation_map. now apply joined_ranges.
  - intros Ht1 Ht2. unfold query_spec at 1. f_equal. unfold ranges_of.
    rewrite !LemStore.assigned_app, !assigned_moved, !assigned_tokens_none by assumption. cbn [map app].
    rewrite map_app, map_map. cbn [fst].
    rewrite <- (map_map fst (moved_range _)). rewrite firsts_app_disjoint, firsts_moved; [reflexivity|].
    intros r Hr1 Hr2. apply in_map_iff in Hr1. destruct Hr1 as ([r1 v] & <- & Hr1). apply assigned_In in Hr1.
    apply in_line_app in HI. destruct HI as [_ HI]. unfold in_line in HI. rewrite Forall_forall in HI.
    specialize (HI _ Hr1). apply in_map_iff in Hr2. destruct Hr2 as (r2 & E & _). cbn [fst snd] in *. subst r1.
    simpl in HI. lia.
Qed.

(** ... and it exists when its parts do, unless the positions overflow. *)
Lemma thm_C55_joins :
  forall tg sz i1 i2 l1 l2,
    Forall wf_input i1 -> Forall wf_input i2 ->
    create_line_from_input_tokens tg i1 sz = Ok l1 -> create_line_from_input_tokens tg i2 sz = Ok l2 ->
    ((exists l, create_line_from_input_tokens tg (i1 ++ i2) sz = Ok l) <->
     (overflow_checks tg = false \/ (end_of l1 + end_of l2 < 2 ^ usize_bits tg)%N)).
Proof.
  intros tg sz i1 i2 l1 l2 HW1 HW2 C1 C2.
  destruct (create_facts tg sz i1 l1 HW1 C1) as (g1 & F1 & N1 & HF1 & T1 & _).
  destruct (create_facts tg sz i2 l2 HW2 C2) as (g2 & F2 & N2 & HF2 & T2 & _).
  pose proof (usize_mod_pos tg) as HM.
  assert (HE : forall l g, ll_tokens l = layout_by (wadd tg) 0 0%N g -> fits tg 0 g -> overflow_checks tg = true ->
     end_of l = total g).
  { intros l g T HF HC. unfold end_of. rewrite T, layout_end.
    destruct HF as [HF|[->|HF]]; [congruence|reflexivity|].
    apply (wadd_fold_exact tg g 0 0%N). exact HF. }
  split.
  - intros (l & C). destruct (overflow_checks tg) eqn:HC; [right|now left].
    destruct (create_facts tg sz (i1 ++ i2) l (proj2 (Forall_app _ _ _) (conj HW1 HW2)) C)
      as (g & F & _ & HF & _).
    assert (g = g1 ++ g2) as -> by (eapply groups_fun; [exact F|apply Forall2_app; assumption]).
    rewrite (HE l1 _ T1 HF1 eq_refl), (HE l2 _ T2 HF2 eq_refl), <- total_app, <- concat_app.
    destruct HF as [HF|[->|HF]]; [congruence|exact HM|exact HF].
  - intros HX. destruct (create_ok tg sz (i1 ++ i2) (g1 ++ g2)) as (l & C & _); [| | | |now exists l].
    + now apply Forall_app.
    + now apply Forall2_app.
    + now apply Forall_app.
    + destruct (overflow_checks tg) eqn:HC; [|now left]. destruct HX as [HX|HX]; [discriminate|].
      right; right. rewrite concat_app, total_app, <- (HE l1 _ T1 HF1 eq_refl), <- (HE l2 _ T2 HF2 eq_refl). exact HX.
Qed.

(** ** C56 *)

Lemma later_tokens l0 l : later l0 l -> ll_tokens l = ll_tokens l0.
Proof.
  induction 1 as [|t id r l l' H IH HR]; [reflexivity|]. rewrite <- IH.
  unfold run in HR. destruct (ll_tokens l) eqn:E; [congruence|]. inv_bind HR.
  destruct (go_retained a); [discriminate|]. unfold store_assignments in HR. inv_bind HR.
  inversion HR. simpl. congruence.
Qed.

Lemma later_history l0 lg0 l : History l0 lg0 -> later l0 l -> exists lg, History l lg.
Proof.
  intros H0. induction 1 as [|t id r l l' H IH HR]; [now exists lg0|].
  destruct IH as (lg & IH). eapply history_run; eauto.
Qed.

Lemma source_layout (SL : SegmenterLaws) tg s l :
  (str_len s < 2 ^ usize_bits tg)%N -> create_line_from_string tg s = Ok l ->
  exists g : list (LToken * N), ll_tokens l = layout_by N.add 0 0%N g
    /\ Forall (fun p => snd p = str_len (ltext (fst p))) g
    /\ concat (map ltext (map fst g)) = s.
Proof.
  intros HS H. unfold create_line_from_string in H.
  destruct (create_facts tg str_len _ l (Forall_cons _ (Forall_nil _ : wf_input (InText s [])) (Forall_nil _)) H)
    as (groups & H1 & H2 & H3 & HT & _).
  pose proof (groups_cut SL _ _ _ H1 H2) as HC.
  inversion HC as [|? g ? gs [HC1 HC2] HC3]; subst. inversion HC3; subst. clear HC HC3.
  simpl in HT, HC1, HC2. rewrite app_nil_r in HT. destruct HC1 as (_ & HC1 & HC3).
  assert (ET : total g = str_len s).
  { rewrite <- HC3. clear -HC2. induction g as [|[t n] g IH]; simpl; auto.
    inversion HC2; subst. simpl in *. rewrite str_len_app. rewrite IH; auto. lia. }
  destruct (wadd_fold_exact tg g 0 0%N) as [E _].
  { simpl. rewrite ET. exact HS. }
  exists g. rewrite E in HT. auto.
Qed.

Lemma skipn_cons {A} (g : list A) i x : nth_error g i = Some x -> skipn i g = x :: skipn (S i) g.
Proof.
  revert i. induction g as [|y g IH]; intros [|i] H; simpl in *; try discriminate; [congruence|].
  rewrite (IH i H). reflexivity.
Qed.

Lemma firstn_last {A} (g : list A) i x : nth_error g i = Some x -> firstn (S i) g = firstn i g ++ [x].
Proof.
  revert i. induction g as [|y g IH]; intros [|i] H; simpl in *; try discriminate; [congruence|].
  f_equal. apply (IH i H).
Qed.

(** The texts of the first [i] tokens, and of those from the [i]th on. *)
Local Notation texts g := (concat (map ltext (map fst g))).

Lemma layout_nth_pos g : forall i p k tok,
  Forall (fun p => snd p = str_len (ltext (fst p))) g ->
  nth_error (layout_by N.add i p g) k = Some tok ->
  pos_starts_at tok = (p + str_len (texts (firstn k g)))%N
  /\ pos_ends_at tok = (p + str_len (texts (firstn (S k) g)))%N
  /\ exists n, nth_error g k = Some (token tok, n).
Proof.
  induction g as [|[t n] g IH]; intros i p k tok HF H; [destruct k; discriminate|].
  inversion HF as [|? ? E HF']; subst. cbn [fst snd] in E. destruct k as [|k]; cbn [layout_by nth_error] in H.
  - inversion H; subst. cbn. rewrite app_nil_r. split; [lia|]. split; [lia|eauto].
  - destruct (IH _ _ _ _ HF' H) as (A & B & C). split; [|split; [|exact C]].
    + rewrite A. cbn [firstn map fst concat]. rewrite str_len_app. lia.
    + rewrite B. cbn [firstn map fst concat]. rewrite !str_len_app. lia.
Qed.

Lemma token_str_ltext tok : token_str tok = ltext (token tok).
Proof. unfold token_str, ltext. destruct (token tok); reflexivity. Qed.

Lemma layout_text_between g p : forall n s, s + n <= length g ->
  flat_map (fun i => match nth_error (layout_by N.add 0 p g) i with Some tok => token_str tok | None => [] end) (seq s n)
  = texts (firstn n (skipn s g)).
Proof.
  induction n as [|n IH]; intros s H; [reflexivity|].
  assert (HL : s < length g) by lia.
  destruct (nth_error (layout_by N.add 0 p g) s) as [tok|] eqn:E.
  2:{ apply nth_error_None in E. rewrite layout_by_length in E. lia. }
  destruct (layout_by_nth _ _ _ _ _ _ E) as (_ & _ & _ & m & Hg & _).
  rewrite (skipn_cons g s _ Hg). cbn [seq flat_map firstn map fst concat]. rewrite E, token_str_ltext. f_equal.
  apply IH. lia.
Qed.

Lemma texts_app (g1 g2 : list (LToken * N)) : texts (g1 ++ g2) = texts g1 ++ texts g2.
Proof. now rewrite !map_app, concat_app. Qed.

(** From the first byte of token [i] to the last of token [j]. *)
Lemma source_slice (SL : SegmenterLaws) tg s l i j ti tj :
  (str_len s < 2 ^ usize_bits tg)%N -> create_line_from_string tg s = Ok l ->
  nth_error (ll_tokens l) i = Some ti -> nth_error (ll_tokens l) j = Some tj -> i <= S j ->
  slice_of s (pos_starts_at ti) (if i <=? j then pos_ends_at tj else pos_starts_at ti) (text_between (ll_tokens l) i j).
Proof.
  intros HS H Hi Hj Hij. destruct (source_layout SL tg s l HS H) as (g & HT & HF & HC).
  rewrite HT in *. destruct (layout_nth_pos g 0 0%N i ti HF Hi) as (A & _ & ni & Gi).
  destruct (layout_nth_pos g 0 0%N j tj HF Hj) as (_ & B & nj & Gj).
  assert (Lj : j < length g) by (apply nth_error_Some; congruence).
  assert (Li : i < length g) by (apply nth_error_Some; congruence).
  unfold text_between. rewrite layout_text_between by lia.
  exists (texts (firstn i g)), (texts (skipn (S j - i) (skipn i g))).
  rewrite <- !texts_app. rewrite firstn_skipn, firstn_skipn. split; [easy|].
  rewrite !utf8_len, !N2Nat.id. split; [rewrite A; lia|].
  destruct (i <=? j) eqn:E.
  - apply Nat.leb_le in E. rewrite B, N.add_0_l. f_equal.
    do 4 f_equal. rewrite <- (firstn_skipn i g) at 3.
    rewrite firstn_app, firstn_length, Nat.min_l by lia. rewrite firstn_firstn, Nat.min_r by lia. reflexivity.
  - apply Nat.leb_gt in E. replace (S j - i) with 0 by lia. cbn [firstn map concat]. rewrite app_nil_r, A. lia.
Qed.

(** C56: the text of a query row is the slice of the source between the positions of
    its first and last token (and empty for a range (i+1, i)). *)
Lemma thm_C56_query :
  forall (SL : SegmenterLaws) tg s l0 l t q r text vs,
    (str_len s < 2 ^ usize_bits tg)%N ->
    create_line_from_string tg s = Ok l0 -> later l0 l ->
    query l t = Ok q -> In (r, text, vs) q ->
    exists ti tj, nth_error (ll_tokens l) (fst r) = Some ti /\ nth_error (ll_tokens l) (snd r) = Some tj
      /\ (fst r <= snd r -> slice_of s (pos_starts_at ti) (pos_ends_at tj) text)
      /\ (snd r < fst r -> text = []).
Proof.
  intros SL tg s l0 l t q r text vs HS H HL HQ Hin.
  pose proof (later_tokens _ _ HL) as ET.
  assert (HH : exists lg, History l lg).
  { destruct (history_create tg str_len [InText s []] l0) as (lg0 & H0); auto.
    { repeat constructor. }
    eapply later_history; eauto. }
  destruct HH as (lg & HH). pose proof (history_repr _ _ HH) as HR.
  assert (HO : Forall range_ordered (ranges_of t lg)).
  { destruct (Forall_dec range_ordered (fun r => le_dec (fst r) (S (snd r))) (ranges_of t lg)) as [D|D]; [exact D|].
    pose proof (thm_C10_query_panics l lg t HH D) as X. congruence. }
  rewrite (query_ordered l lg t HR HO) in HQ. inversion HQ; subst q. unfold query_spec in Hin.
  apply in_map_iff in Hin. destruct Hin as (r' & E & Hr). inversion E; subst r' text vs.
  destruct (repr_range_in l lg t r HR Hr) as [L1 L2].
  destruct (nth_error (ll_tokens l) (fst r)) as [ti|] eqn:Ei; [|apply nth_error_None in Ei; lia].
  destruct (nth_error (ll_tokens l) (snd r)) as [tj|] eqn:Ej; [|apply nth_error_None in Ej; lia].
  exists ti, tj. split; [reflexivity|]. split; [reflexivity|]. split.
  - intros Hle. rewrite ET in *. pose proof (source_slice SL tg s l0 (fst r) (snd r) ti tj HS H Ei Ej ltac:(lia)) as X.
    apply Nat.leb_le in Hle. rewrite Hle in X. exact X.
  - intros Hlt. unfold text_between. replace (S (snd r) - fst r) with 0 by lia. reflexivity.
Qed.

(** C56 for [find]: the positions reported delimit, in the source, the text of the
    tokens of the match. *)
Lemma thm_C56_find :
  forall (SL : SegmenterLaws) tg s l0 l lg P has A (m : matcher A) fs x,
    (str_len s < 2 ^ usize_bits tg)%N ->
    create_line_from_string tg s = Ok l0 -> later l0 l -> History l lg -> proper lg -> lib_matcher P has A m ->
    find l m = Ok fs -> In x fs ->
    exists i j ms, i <= j < length (ll_tokens l) /\ m (Fwd i) l = Ok ms /\ In (found x, j) ms
      /\ slice_of s (start_pos_at x) (end_pos_at x) (text_between (ll_tokens l) i j).
Proof.
  intros SL tg s l0 l lg P has A m fs x HS H HL HH HP HM HF Hin.
  pose proof (later_tokens _ _ HL) as ET.
  pose proof (thm_C22_inside l lg P has A m HH HP HM) as HB.
  unfold find in HF. apply flat_mapM_In with (b := x) in HF; [|exact Hin].
  destruct HF as (i & ys & Hi & Hy & Hx). apply in_seq in Hi. inv_bind Hy. rename a into ms.
  apply mapM_Forall2 in Hy.
  assert (Hout : exists out j, In (out, j) ms /\ (s0 <- pos_start_at l i;; e0 <- pos_end_at l j;; Ok (mkFind s0 e0 out)) = Ok x).
  { clear - Hy Hx. induction Hy as [|[out j] y ms ys E Hy IH]; [easy|]. destruct Hx as [<-|Hx].
    - exists out, j. split; [now left|exact E].
    - destruct (IH Hx) as (out' & j' & A1 & A2). exists out', j'. split; [now right|exact A2]. }
  destruct Hout as (out & j & Hout & Ex).
  destruct (HB (Fwd i) ms out j) as [Hij Hj]; [simpl; lia|exact E|exact Hout|].
  simpl in Hij. unfold pos_start_at, pos_end_at in Ex.
  destruct (nth_error (ll_tokens l) i) as [ti|] eqn:Ei; [|apply nth_error_None in Ei; lia].
  destruct (nth_error (ll_tokens l) j) as [tj|] eqn:Ej; [|apply nth_error_None in Ej; lia].
  cbn in Ex. inversion Ex; subst x. cbn [start_pos_at end_pos_at found].
  exists i, j, ms. split; [lia|]. split; [exact E|]. split; [exact Hout|].
  rewrite ET in *. pose proof (source_slice SL tg s l0 i j ti tj HS H Ei Ej ltac:(lia)) as X.
  apply Nat.leb_le in Hij. rewrite Hij in X. exact X.
Qed.

(** ** C08 *)

Lemma cuts_text input groups : Forall2 cut_of input groups ->
  concat (map ltext (concat groups)) = source_text input.
Proof.
  induction 1 as [|it g input groups HC H IH]; [reflexivity|].
  unfold source_text. cbn [concat flat_map]. rewrite map_app, concat_app. fold (source_text input). rewrite IH. f_equal.
  destruct it; simpl in HC; [tauto|]. now rewrite HC.
Qed.

Lemma segment_cut_text w ps : segment_cut w ps -> concat (map fst ps) = w.
Proof.
  intros (c & w' & -> & [(_ & _ & _ & E) | (_ & tag & -> & _)]); [exact E|]. simpl. now rewrite app_nil_r.
Qed.

Lemma pieces_text (ps : list (str * TextTag)) :
  concat (map ltext (map (fun p => LText (fst p) (snd p)) ps)) = concat (map fst ps).
Proof. rewrite map_map. reflexivity. Qed.

(** C08: the tokens of a digit-led segment of some text of the input. *)
Lemma thm_C08_runs :
  forall (SL : SegmenterLaws) tg sz i1 text ats i2 l a d w b,
    Forall wf_input (i1 ++ InText text ats :: i2) ->
    create_line_from_input_tokens tg (i1 ++ InText text ats :: i2) sz = Ok l ->
    u_words text = a ++ (d :: w) :: b -> decimal_digit d = true ->
    exists before ps after,
      map token (ll_tokens l) = before ++ map (fun p => LText (fst p) (snd p)) ps ++ after
      /\ concat (map ltext before) = source_text i1 ++ concat a
      /\ concat (map ltext after) = concat b ++ source_text i2
      /\ Forall good_piece ps /\ maximal ps /\ concat (map fst ps) = d :: w.
Proof.
  intros SL tg sz i1 text ats i2 l a d w b HW H HU Hd.
  destruct (create_facts tg sz _ l HW H) as (groups & H1 & H2 & _ & HT & _).
  assert (E : map token (ll_tokens l) = concat (map (map fst) groups)).
  { rewrite HT, layout_by_tokens. apply concat_map. }
  pose proof (groups_cut SL _ _ _ H1 H2) as HC.
  apply Forall2_app_inv_l in H1. destruct H1 as (g1 & g2 & F1 & F2 & ->).
  inversion F2 as [|? g ? gs Hg F3]; subst.
  apply Forall2_app_inv_l in HC. destruct HC as (g1' & g2' & C1 & C2 & EG).
  assert (L1 : length g1' = length g1).
  { rewrite <- (Forall2_len _ _ _ C1). apply (Forall2_len _ _ _ F1). }
  assert (E1 : g1' = g1 /\ g2' = g :: gs).
  { symmetry in EG. clear - EG L1. revert g1 EG L1. induction g1' as [|x g1' IH]; intros [|y g1] EG L1; try discriminate L1.
    - auto.
    - simpl in EG. inversion EG; subst. simpl in L1. destruct (IH g1) as [-> ->]; auto. }
  destruct E1; subst g1' g2'. inversion C2 as [|? ? ? ? _ C3]; subst.
  simpl in Hg. apply thm_C05_tags in Hg. destruct Hg as (pss & Hp & Em).
  rewrite HU in Hp. apply Forall2_app_inv_l in Hp. destruct Hp as (pa & pb & Pa & Pb & ->).
  inversion Pb as [|? ps ? pb' Hps Pb']; subst.
  set (lt := fun p : str * TextTag => LText (fst p) (snd p)) in *.
  exists (concat (map (map fst) g1) ++ map lt (concat pa)), ps, (map lt (concat pb') ++ concat (map (map fst) gs)).
  assert (HS : forall ws qss, Forall2 segment_cut ws qss -> concat (map ltext (map lt (concat qss))) = concat ws).
  { intros ws qss X. unfold lt. rewrite pieces_text. induction X as [|w0 qs ws qss X1 X IH]; [reflexivity|].
    cbn [concat]. rewrite map_app, concat_app, IH. f_equal. now apply segment_cut_text. }
  assert (HG : forall inp gg, Forall2 (fun it g => cut_of it (map fst g) /\ sized_by sz it g) inp gg ->
     concat (map ltext (concat (map (map fst) gg))) = source_text inp).
  { intros inp gg X. apply cuts_text. induction X as [|? ? ? ? [X1 _] X IH]; constructor; auto. }
  split; [|split; [|split]].
  - rewrite E, map_app, concat_app. cbn [map concat]. rewrite Em, concat_app. cbn [concat].
    rewrite !map_app, <- !app_assoc. reflexivity.
  - rewrite map_app, concat_app, (HS a pa Pa), (HG i1 g1 C1). reflexivity.
  - rewrite map_app, concat_app, (HS b pb' Pb'), (HG i2 gs C3). reflexivity.
  - destruct Hps as (c & w' & Ew & [(_ & A1 & A2 & A3) | (Hf & _)]).
    + auto.
    + inversion Ew; subst. congruence.
Qed.

End ThmJoin.
