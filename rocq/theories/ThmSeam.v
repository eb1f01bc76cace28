(** C73: resolver runs on joined inputs. *)

From Verif Require Export SpecSeam ThmEnd ThmCross.
From Coq Require Import Permutation.

Section ThmSeam.
Context {UC : Unicode} {U : UserTypes}.

(** ** The whole and the parts *)

Record side_by_side (l : LLLine) lg (l1 : LLLine) lg1 (l2 : LLLine) lg2 : Prop := {
  sb_h : History l lg; sb_h1 : History l1 lg1; sb_h2 : History l2 lg2;
  sb_p : proper lg; sb_p1 : proper lg1; sb_p2 : proper lg2;
  sb_tokens : exists p M, ll_tokens l = ll_tokens l1 ++ map (moved_token (length (ll_tokens l1)) p M) (ll_tokens l2);
  sb_log : joined_log (length (ll_tokens l1)) lg lg1 lg2;
  sb_tags : plain TTextTag l lg;
  sb_chars : plain TChar l lg;
}.

Lemma joined_created tg sz i1 i2 l l1 l2 : Forall wf_input i1 -> Forall wf_input i2 ->
  none_of TTextTag (i1 ++ i2) -> none_of TChar (i1 ++ i2) ->
  create_line_from_input_tokens tg (i1 ++ i2) sz = Ok l ->
  create_line_from_input_tokens tg i1 sz = Ok l1 -> create_line_from_input_tokens tg i2 sz = Ok l2 ->
  exists lg lg1 lg2, side_by_side l lg l1 lg1 l2 lg2.
Proof.
  intros HW1 HW2 HN1 HN2 H C1 C2.
  assert (HW : Forall wf_input (i1 ++ i2)) by now apply Forall_app.
  destruct (thm_C55_join tg sz i1 i2 l HW1 HW2 H) as (x1 & x2 & E1 & E2 & ET & _).
  assert (x1 = l1) by congruence. assert (x2 = l2) by congruence. subst x1 x2. clear E1 E2.
  destruct (thm_C07_created_plain tg sz (i1 ++ i2) l HW H) as (lg0 & _ & HPL0). clear lg0 HPL0.
  destruct (create_facts tg sz (i1 ++ i2) l HW H) as (groups & H1 & H2 & _ & HT & HR).
  destruct (create_facts tg sz i1 l1 HW1 C1) as (g1 & F1 & N1 & _ & T1 & R1).
  destruct (create_facts tg sz i2 l2 HW2 C2) as (g2 & F2 & N2 & _ & T2 & R2).
  assert (groups = g1 ++ g2).
  { clear -H1 F1 F2. pose proof (Forall2_app F1 F2) as HF. revert HF. generalize (g1 ++ g2) as gs. clear -H1.
    induction H1 as [|it g input groups Hg HF IH]; intros gs HX; inversion HX; subst; [reflexivity|].
    f_equal; [|now apply IH]. congruence. }
  subst groups.
  assert (EN : length (ll_tokens l1) = length (concat g1)) by (rewrite T1; apply layout_by_length).
  assert (EL : creation_log (map (map fst) (g1 ++ g2)) (i1 ++ i2)
    = tokens_log 0 (concat (map (map fst) g1)) ++ moved_log (length (ll_tokens l1)) (tokens_log 0 (concat (map (map fst) g2)))
      ++ input_log 0 (map (map fst) g1) i1 ++ moved_log (length (ll_tokens l1)) (input_log 0 (map (map fst) g2) i2)).
  { unfold creation_log. rewrite map_app, concat_app, tokens_log_app, <- app_assoc.
    assert (EC : length (concat (map (map fst) g1)) = length (ll_tokens l1)).
    { rewrite EN, <- concat_map. apply map_length. }
    rewrite input_log_app by (rewrite map_length; symmetry; eapply Forall2_len; eauto).
    rewrite EC. rewrite <- (tokens_log_moved _ _ 0), <- (input_log_moved _ _ _ 0).
    2:{ now apply map_nonempty. }
    now rewrite Nat.add_0_r. }
  assert (HP : forall (gs : list (list (LToken * N))) inp, Forall (fun g => g <> []) gs -> proper (creation_log (map (map fst) gs) inp)).
  { intros gs inp HN. unfold creation_log, proper. apply Forall_app. split; [apply tokens_log_proper|].
    apply input_log_proper. now apply map_nonempty. }
  assert (HPL : forall t, none_of t (i1 ++ i2) -> plain t l (creation_log (map (map fst) (g1 ++ g2)) (i1 ++ i2))).
  { intros t HN. unfold plain, creation_log. rewrite LemStore.assigned_app.
    assert (E : forall gs inp k, (forall it, In it inp -> In it (i1 ++ i2)) -> assigned t (input_log k gs inp) = []).
    { induction gs as [|g gs IH]; intros [|it inp] k HI; simpl; auto. rewrite LemStore.assigned_app, IH by (intros; apply HI; now right).
      rewrite app_nil_r. unfold assigned. rewrite filter_map_map. apply filter_map_none. intros a Ha.
      rewrite (HN it a); auto. apply HI. now left. }
    rewrite E by auto. rewrite app_nil_r. do 2 f_equal. rewrite HT, layout_by_tokens. apply concat_map_map. }
  exists (creation_log (map (map fst) (g1 ++ g2)) (i1 ++ i2)), (creation_log (map (map fst) g1) i1), (creation_log (map (map fst) g2) i2).
  split; auto.
  - eapply H_create; eauto.
  - eapply H_create; eauto.
  - eapply H_create; eauto.
  - eauto.
  - rewrite EL. apply blocks_joined. exact (rp_in _ _ R1).
Qed.

(** ** Queries *)
Lemma proper_query l lg t : History l lg -> proper lg -> query l t = Ok (query_spec (ll_tokens l) t lg).
Proof.
  intros H HP. apply thm_C10_query_exact; auto. apply Forall_forall. intros r Hr. apply ranges_of_In in Hr. destruct Hr as (v & Hin).
  unfold proper in HP. rewrite Forall_forall in HP. specialize (HP _ Hin). unfold range_ordered. cbn [fst snd] in *. lia.
Qed.

Lemma side_answers l lg l1 lg1 l2 lg2 : side_by_side l lg l1 lg1 l2 lg2 -> answers_side_by_side l l1 l2.
Proof.
  intros [HH HH1 HH2 HP HP1 HP2 (p & M & ET) HJ _ _] t.
  exists (query_spec (ll_tokens l) t lg), (query_spec (ll_tokens l1) t lg1), (query_spec (ll_tokens l2) t lg2).
  do 3 (split; [now apply proper_query|]).
  pose proof (joined_rows _ _ _ _ t (ll_tokens l1) (ll_tokens l2) p M eq_refl HJ) as HX.
  cbv zeta in HX. rewrite <- ET in HX. destruct HX as [X1 X2]. rewrite <- X1, <- X2, <- map_app.
  unfold query_spec at 1. apply Permutation_map. now apply joined_ranges.
Qed.

(** ** One run *)
Lemma moved_log_app k a b : moved_log k (a ++ b) = moved_log k a ++ moved_log k b.
Proof. apply map_app. Qed.

Lemma joined_log_app n lg lg1 lg2 es1 es2 : joined_log n lg lg1 lg2 -> in_line n es1 ->
  joined_log n (lg ++ es1 ++ moved_log n es2) (lg1 ++ es1) (lg2 ++ es2).
Proof.
  intros [HI HV] HE. split; [now apply in_line_app|]. intros t r. rewrite moved_log_app, !values_on_app', HV.
  destruct (le_lt_dec n (fst r)) as [Hr|Hr].
  - assert (E : forall lg, in_line n lg -> values_on t r lg = []).
    { intros lg0 HI0. unfold values_on. apply filter_map_none. intros [r' v] Hin.
      apply assigned_In in Hin. unfold in_line in HI0. rewrite Forall_forall in HI0. specialize (HI0 _ Hin). simpl in HI0.
      assert (range_eqb r' r = false) as ->; auto. apply range_eqb_neq. intros ->. lia. }
    rewrite (E es1), (E lg1) by assumption. reflexivity.
  - rewrite !(values_on_low t n r) by assumption. now rewrite !app_nil_r.
Qed.

Lemma runs_side {t} (r : Resolver t) id l lg l1 lg1 l2 lg2 out out1 out2 :
  side_by_side l lg l1 lg1 l2 lg2 -> t <> TTextTag -> t <> TChar ->
  runs_to id l lg r out -> runs_to id l1 lg1 r out1 -> runs_to id l2 lg2 r out2 ->
  out = out1 ++ shifted (length (ll_tokens l1)) out2 -> right_way out1 -> right_way out2 ->
  exists l' l1' l2' lg' lg1' lg2', run id l r = Ok l' /\ run id l1 r = Ok l1' /\ run id l2 r = Ok l2'
    /\ ll_tokens l1' = ll_tokens l1 /\ ll_tokens l2' = ll_tokens l2 /\ side_by_side l' lg' l1' lg1' l2' lg2'.
Proof.
  intros [HH HH1 HH2 HP HP1 HP2 (p & M & ET) HJ PT PC] NT NC (l' & E & ET' & H') (l1' & E1 & ET1 & H1') (l2' & E2 & ET2 & H2') -> W1 W2.
  set (es := fun o : list (LRange * den t) => map (fun '(rg, v) => (rg, mkany t v)) o) in *.
  assert (HPR : forall o, right_way o -> proper (es o)).
  { intros o W. unfold proper, es. apply Forall_map. eapply Forall_impl; [|exact W]. intros [rg v]. auto. }
  assert (EM : es (out1 ++ shifted (length (ll_tokens l1)) out2) = es out1 ++ moved_log (length (ll_tokens l1)) (es out2)).
  { unfold es. rewrite map_app. f_equal. unfold shifted, moved_log. rewrite !map_map. apply map_ext. intros [rg v]. reflexivity. }
  exists l', l1', l2'. do 3 eexists. do 5 (split; [eassumption|]). split; try eassumption.
  - apply Forall_app. split; [exact HP|]. apply HPR. apply Forall_app. split; [exact W1|]. unfold right_way, shifted. apply Forall_map.
    eapply Forall_impl; [|exact W2]. intros [rg v]. unfold moved_range. cbn [fst snd]. intros. lia.
  - apply Forall_app. split; [exact HP1|]. now apply HPR.
  - apply Forall_app. split; [exact HP2|]. now apply HPR.
  - exists p, M. now rewrite ET', ET1, ET2.
  - rewrite ET1, EM. apply joined_log_app; auto. pose proof (rp_in _ _ (history_repr _ _ H1')) as RI. rewrite ET1 in RI.
    apply in_line_app in RI. apply RI.
  - unfold plain in *. rewrite ET', LemStore.assigned_app. unfold es. rewrite assigned_other, app_nil_r by congruence. exact PT.
  - unfold plain in *. rewrite ET', LemStore.assigned_app. unfold es. rewrite assigned_other, app_nil_r by congruence. exact PC.
Qed.

(** ** Token by token *)
Lemma text_tokens_app k p M toks1 toks2 : k = length toks1 ->
  text_tokens (toks1 ++ map (moved_token k p M) toks2) = text_tokens toks1 ++ map (fun '(i, s) => (k + i, s)) (text_tokens toks2).
Proof.
  intros ->. unfold text_tokens at 1. rewrite enumerate_from_app, filter_map_app, Nat.add_0_r. f_equal.
  rewrite text_tokens_from. f_equal. unfold text_tokens. generalize 0 as j. induction toks2 as [|tok toks IH]; intros j; [reflexivity|].
  cbn [map enumerate_from filter_map]. rewrite IH. reflexivity.
Qed.

Lemma on_tokens_side {A} (f f1 f2 : nat -> str -> list A) k p M toks1 toks2 : k = length toks1 ->
  (forall i s, i < k -> f i s = f1 i s) -> (forall i s, f (k + i) s = f2 i s) ->
  on_tokens f (toks1 ++ map (moved_token k p M) toks2) = on_tokens f1 toks1 ++ shifted k (on_tokens f2 toks2).
Proof.
  intros Hk F1 F2. unfold on_tokens. rewrite text_tokens_app by assumption. rewrite flat_map_app. f_equal.
  - apply flat_map_ext_in. intros [i s] Hin. rewrite F1; auto. rewrite text_tokens_In in Hin. destruct Hin as (tok & tag & Hn & _).
    apply nth_error_lt_rev in Hn. lia.
  - unfold shifted. rewrite flat_map_concat_map, map_map, (flat_map_concat_map _ (text_tokens toks2)), concat_map, map_map. f_equal. apply map_ext. intros [i s].
    rewrite F2, map_map. reflexivity.
Qed.

Lemma on_tokens_right {A} (f : nat -> str -> list A) toks : right_way (on_tokens f toks).
Proof. apply Forall_forall. intros [rg v] Hin. apply on_tokens_single in Hin. cbn [fst]. lia. Qed.

(** ** Values of the whole and of the parts *)
Section Parts.
Context (l : LLLine) (lg : list entry) (l1 : LLLine) (lg1 : list entry) (l2 : LLLine) (lg2 : list entry).
Context (HS : side_by_side l lg l1 lg1 l2 lg2).
Notation n := (length (ll_tokens l1)).

Lemma side_low t i : i < n -> values_on t (i, i) lg = values_on t (i, i) lg1.
Proof. intros Hi. destruct (sb_log _ _ _ _ _ _ HS) as [HI HV]. rewrite HV, values_on_low by assumption. apply app_nil_r. Qed.
Lemma side_high t i : values_on t (n + i, n + i) lg = values_on t (i, i) lg2.
Proof.
  destruct (sb_log _ _ _ _ _ _ HS) as [HI HV]. rewrite HV. change (n + i, n + i) with (moved_range n (i, i)).
  now rewrite values_on_high, values_on_moved.
Qed.
Lemma side_len : length (ll_tokens l) = n + length (ll_tokens l2).
Proof. destruct (sb_tokens _ _ _ _ _ _ HS) as (p & M & ->). now rewrite app_length, map_length. Qed.
Lemma side_token_low i : i < n -> nth_error (ll_tokens l) i = nth_error (ll_tokens l1) i.
Proof. intros Hi. destruct (sb_tokens _ _ _ _ _ _ HS) as (p & M & ->). now apply nth_error_app1. Qed.
Lemma side_token_high i : option_map token (nth_error (ll_tokens l) (n + i)) = option_map token (nth_error (ll_tokens l2) i).
Proof.
  destruct (sb_tokens _ _ _ _ _ _ HS) as (p & M & ->). rewrite nth_error_app2 by lia. replace (n + i - n) with i by lia.
  rewrite nth_error_map. now destruct (nth_error (ll_tokens l2) i).
Qed.

Lemma values_attributed i lg0 : attributed i lg0 <-> exists t, values_on t (i, i) lg0 <> [].
Proof.
  unfold attributed. rewrite in_map_iff. split.
  - intros ([r a] & E & Hin). cbn [fst] in E. subst r. destruct a as [t v]. exists t. intros E.
    assert (HX : In v (values_on t (i, i) lg0)) by (apply values_on_In; exact Hin). now rewrite E in HX.
  - intros (t & HN). destruct (values_on t (i, i) lg0) as [|v vs] eqn:E; [easy|]. 
    assert (HX : In v (values_on t (i, i) lg0)) by (rewrite E; now left). apply values_on_In in HX. now exists ((i, i), mkany t v).
Qed.

Lemma att_low i : i < n -> (attributed i lg1 <-> attributed i lg).
Proof. intros Hi. rewrite !values_attributed. split; intros (t & HN); exists t; [rewrite side_low|rewrite <- side_low]; auto. Qed.
Lemma att_high i : attributed i lg2 <-> attributed (n + i) lg.
Proof. rewrite !values_attributed. split; intros (t & HN); exists t; [rewrite side_high|rewrite <- side_high]; auto. Qed.

Lemma num_low i s : number l1 lg1 i s <-> i < n /\ number l lg i s.
Proof.
  split.
  - intros HN. pose proof (number_lt _ _ _ _ HN) as Hi. split; [exact Hi|]. destruct HN as (tok & tag & A & B & C). exists tok, tag.
    rewrite side_token_low, side_low by exact Hi. auto.
  - intros (Hi & tok & tag & A & B & C). exists tok, tag. rewrite side_token_low in A by exact Hi. rewrite side_low in C by exact Hi. auto.
Qed.
Lemma num_high i s : number l2 lg2 i s <-> number l lg (n + i) s.
Proof.
  unfold number. rewrite side_high. pose proof (side_token_high i) as ET. split.
  - intros (tok & tag & A & B & C). rewrite A in ET. destruct (nth_error (ll_tokens l) (n + i)) as [tok'|]; [|discriminate ET].
    cbn [option_map] in ET. exists tok', tag. split; [reflexivity|]. split; [congruence|exact C].
  - intros (tok & tag & A & B & C). rewrite A in ET. destruct (nth_error (ll_tokens l2) i) as [tok'|]; [|discriminate ET].
    cbn [option_map] in ET. exists tok', tag. split; [reflexivity|]. split; [congruence|exact C].
Qed.
Lemma isnum_low i : is_number l1 lg1 i <-> i < n /\ is_number l lg i.
Proof. split; [intros (s & H); apply num_low in H; destruct H; split; [|exists s]; auto|intros (Hi & s & H); exists s; now apply num_low]. Qed.
Lemma isnum_high i : is_number l2 lg2 i <-> is_number l lg (n + i).
Proof. split; intros (s & H); exists s; now apply num_high. Qed.
Lemma char_low cs i : has_char lg1 cs i <-> i < n /\ has_char lg cs i.
Proof.
  split.
  - intros HC. assert (Hi : i < n) by (eapply has_char_lt; [exact (sb_h1 _ _ _ _ _ _ HS)|exact HC]). split; [exact Hi|].
    unfold has_char. now rewrite side_low.
  - intros (Hi & HC). unfold has_char in *. now rewrite side_low in HC.
Qed.
Lemma char_high cs i : has_char lg2 cs i <-> has_char lg cs (n + i).
Proof. unfold has_char. now rewrite side_high. Qed.
Lemma read_low i : i < n -> (readable l1 lg1 i <-> readable l lg i).
Proof. intros Hi. unfold readable. rewrite side_len, att_low by exact Hi. split; intros H Hx; apply H; lia. Qed.
Lemma read_high i : readable l2 lg2 i <-> readable l lg (n + i).
Proof. unfold readable. rewrite side_len, att_high. split; intros H Hx; apply H; lia. Qed.

(** ** Amounts *)
Context (r : AmountResolver) (parse : str -> option Decimal).

Definition busy (i : nat) : Prop := is_number l lg i \/ has_char lg (delimiters r) i \/ has_char lg [decimal r] i.
Context (seam1 : forall i, i < n -> busy i -> busy (i + 1) -> i + 1 < n).
Context (seam2 : forall i, i + 1 = n -> busy i -> readable l lg (i + 1)).

Lemma num_busy i s : number l lg i s -> busy i. Proof. intros H. left. now exists s. Qed.

Lemma groups_left s e text : s < n -> groups_at l lg r s e text -> groups_at l1 lg1 r s e text /\ e < n.
Proof.
  intros Hs HG. induction HG as [text HN|e t1 t2 HG IH HC HN].
  - split; [constructor; now apply num_low|exact Hs].
  - destruct IH as [IH He]. pose proof (groups_last l lg r _ _ _ HG) as (_ & HL).
    assert (H1 : e + 1 < n) by (apply seam1; [exact He|now left|right; now left]).
    assert (H2 : e + 2 < n).
    { replace (e + 2) with (e + 1 + 1) in * by lia. apply seam1; [exact H1|right; now left|eapply num_busy; eauto]. }
    split; [|exact H2]. constructor; [exact IH|now apply char_low|now apply num_low].
Qed.
Lemma groups_left_back s e text : groups_at l1 lg1 r s e text -> groups_at l lg r s e text.
Proof.
  induction 1 as [text HN|e t1 t2 HG IH HC HN].
  - constructor. now apply num_low in HN.
  - constructor; [exact IH|now apply char_low in HC|now apply num_low in HN].
Qed.

Lemma amount_left s e u text : s < n -> amount_at l lg r s e u text -> amount_at l1 lg1 r s e u text /\ u < n.
Proof.
  intros Hs HA. destruct HA as [e' t HG HR HD HP HN|e' t HG HD HN|e' t1 t2 HG HD HP HN|e' t HG HD HP HN|e' t1 t2 HG HR HD HP HN];
    destruct (groups_left _ _ _ Hs HG) as [HG1 He]; pose proof (groups_last l lg r _ _ _ HG) as (_ & HL);
    unfold is_delimiter, is_decimal in *.
  - split; [|exact He]. apply A_groups; auto.
    + destruct (Nat.eq_dec (e' + 1) n) as [E|N]; [|apply read_low; [lia|exact HR]].
      intros Hx. lia.
    + intros X. apply char_low in X. tauto.
    + intros X. apply char_low in X. tauto.
    + intros X. apply isnum_low in X. tauto.
  - assert (H1 : e' + 1 < n) by (apply seam1; [exact He|now left|right; now left]).
    split; [|exact H1]. apply A_delimiter; auto; [now apply char_low|]. intros X. apply isnum_low in X. tauto.
  - assert (H1 : e' + 1 < n) by (apply seam1; [exact He|now left|right; now right]).
    assert (H2 : e' + 2 < n).
    { replace (e' + 2) with (e' + 1 + 1) in * by lia. apply seam1; [exact H1|right; now right|eapply num_busy; eauto]. }
    split; [|exact H2]. apply A_decimal; auto; [intros X; apply char_low in X; tauto|now apply char_low|now apply num_low].
  - assert (H1 : e' + 1 < n) by (apply seam1; [exact He|now left|right; now right]).
    split; [|exact H1]. apply A_point; auto; [intros X; apply char_low in X; tauto|now apply char_low|]. intros X. apply isnum_low in X. tauto.
  - assert (H1 : e' + 1 < n) by (apply seam1; [exact He|now left|eapply num_busy; eauto]).
    split; [|exact H1]. apply A_adjacent; auto; [now apply read_low|intros X; apply char_low in X; tauto|intros X; apply char_low in X; tauto|now apply num_low].
Qed.

Lemma amount_left_back s e u text : amount_at l1 lg1 r s e u text -> amount_at l lg r s e u text /\ u < n.
Proof.
  assert (HB : forall i, i < n -> busy i -> ~ (i + 1 < n) -> ~ busy (i + 1)) by (intros i Hi B N B'; apply N; now apply seam1).
  pose proof (sb_h1 _ _ _ _ _ _ HS) as HH1.
  intros HA. destruct HA as [e' t HG HR HD HP HN|e' t HG HD HN|e' t1 t2 HG HD HP HN|e' t HG HD HP HN|e' t1 t2 HG HR HD HP HN];
    pose proof (groups_left_back _ _ _ HG) as HG1; pose proof (groups_bounds l1 lg1 r _ _ _ HG) as ((_ & He) & _); 
    pose proof (groups_last l lg r _ _ _ HG1) as (_ & HL); unfold is_delimiter, is_decimal in *.
  - split; [|exact He]. assert (B : busy e') by now left.
    destruct (lt_dec (e' + 1) n) as [L|N].
    + apply A_groups; auto; [now apply read_low|intros X; apply HD; now apply char_low|intros X; apply HP; now apply char_low|intros X; apply HN; now apply isnum_low].
    + specialize (HB e' He B N). unfold busy in HB. apply A_groups; auto; unfold is_delimiter, is_decimal; try tauto. apply seam2; [lia|exact B].
  - apply char_low in HD. destruct HD as [H1 HD]. split; [|exact H1]. apply A_delimiter; auto. intros X.
    apply HN. apply isnum_low. split; [|exact X]. replace (e' + 2) with (e' + 1 + 1) in * by lia. apply seam1; [exact H1|right; now left|now left].
  - apply char_low in HP. destruct HP as [H1 HP]. apply num_low in HN. destruct HN as [H2 HN]. split; [|exact H2]. apply A_decimal; auto.
    intros X. apply HD. now apply char_low.
  - apply char_low in HP. destruct HP as [H1 HP]. split; [|exact H1]. apply A_point; auto.
    + intros X. apply HD. now apply char_low.
    + intros X. apply HN. apply isnum_low. split; [|exact X]. replace (e' + 2) with (e' + 1 + 1) in * by lia. apply seam1; [exact H1|right; now right|now left].
  - apply num_low in HN. destruct HN as [H2 HN]. split; [|exact H2]. apply A_adjacent; auto; [now apply read_low|intros X; apply HD; now apply char_low|intros X; apply HP; now apply char_low].
Qed.

Lemma groups_right s e text : groups_at l2 lg2 r s e text -> groups_at l lg r (n + s) (n + e) text.
Proof.
  induction 1 as [text HN|e t1 t2 HG IH HC HN].
  - constructor. now apply num_high.
  - replace (n + (e + 2)) with (n + e + 2) by lia. constructor; [exact IH| |].
    + apply char_high in HC. now rewrite <- Nat.add_assoc.
    + apply num_high in HN. now rewrite <- Nat.add_assoc.
Qed.
Lemma groups_right_back s e text : groups_at l lg r (n + s) e text -> exists e2, e = n + e2 /\ groups_at l2 lg2 r s e2 text.
Proof.
  induction 1 as [text HN|e t1 t2 HG IH HC HN].
  - exists s. split; [reflexivity|]. constructor. now apply num_high.
  - destruct IH as (e2 & -> & IH). exists (e2 + 2). split; [lia|]. rewrite <- Nat.add_assoc in HC, HN. constructor; [exact IH|now apply char_high|now apply num_high].
Qed.

Lemma amount_right s e u text : amount_at l2 lg2 r s e u text -> amount_at l lg r (n + s) (n + e) (n + u) text.
Proof.
  intros HA. destruct HA as [e' t HG HR HD HP HN|e' t HG HD HN|e' t1 t2 HG HD HP HN|e' t HG HD HP HN|e' t1 t2 HG HR HD HP HN];
    apply groups_right in HG; unfold is_delimiter, is_decimal in *;
    rewrite ?char_high in *; rewrite ?read_high, ?isnum_high, ?num_high in *; rewrite ?Nat.add_assoc in *.
  - now apply A_groups.
  - now apply A_delimiter.
  - now apply A_decimal.
  - now apply A_point.
  - now apply A_adjacent.
Qed.
Lemma amount_right_back s e u text : amount_at l lg r (n + s) e u text ->
  exists e2 u2, e = n + e2 /\ u = n + u2 /\ amount_at l2 lg2 r s e2 u2 text.
Proof.
  intros HA. destruct HA as [e' t HG HR HD HP HN|e' t HG HD HN|e' t1 t2 HG HD HP HN|e' t HG HD HP HN|e' t1 t2 HG HR HD HP HN];
    apply groups_right_back in HG; destruct HG as (e2 & -> & HG); unfold is_delimiter, is_decimal in *;
    rewrite <- ?Nat.add_assoc in *; rewrite <- ?char_high in *; rewrite <- ?read_high, <- ?isnum_high, <- ?num_high in *.
  - exists e2, e2. repeat split; auto. now apply A_groups.
  - exists e2, (e2 + 1). repeat split; auto. now apply A_delimiter.
  - exists (e2 + 2), (e2 + 2). repeat split; auto. now apply A_decimal.
  - exists e2, (e2 + 1). repeat split; auto. now apply A_point.
  - exists (e2 + 1), (e2 + 1). repeat split; auto. now apply A_adjacent.
Qed.

Lemma amounts_right k out2 : amounts l2 lg2 r parse k out2 -> amounts l lg r parse (n + k) (shifted n out2).
Proof.
  induction 1 as [k HN | k s e u t d out (HF1 & HF2 & HF3) HA HP HO IH].
  - apply AS_none. intros i Hi X. apply (HN (i - n)); [lia|]. apply isnum_high. now replace (n + (i - n)) with i by lia.
  - cbn [shifted map fst snd moved_range]. apply (AS_some l lg r parse (n + k) (n + s) (n + e) (n + u) t d); auto.
    + split; [lia|]. split; [now apply isnum_high|]. intros i Hi X. apply (HF3 (i - n)); [lia|]. apply isnum_high. now replace (n + (i - n)) with i by lia.
    + now apply amount_right.
    + rewrite <- Nat.add_assoc. exact IH.
Qed.
Lemma amounts_right_back k0 out : amounts l lg r parse k0 out -> forall k, k0 = n + k -> exists out2, out = shifted n out2 /\ amounts l2 lg2 r parse k out2.
Proof.
  induction 1 as [k HN | k s e u t d out (HF1 & HF2 & HF3) HA HP HO IH]; intros k2 ->.
  - exists []. split; [reflexivity|]. apply AS_none. intros i Hi X. apply (HN (n + i)); [lia|]. now apply isnum_high.
  - assert (Es : s = n + (s - n)) by lia. rewrite Es in HA. destruct (amount_right_back _ _ _ _ HA) as (e2 & u2 & -> & -> & HA2).
    destruct (IH (u2 + 1)) as (out2 & -> & HO2); [lia|]. exists (((s - n, e2), d) :: out2). split.
    + cbn [shifted map fst snd]. unfold moved_range at 1. cbn [fst snd]. now rewrite <- Es.
    + apply (AS_some l2 lg2 r parse k2 (s - n) e2 u2 t d); auto. split; [lia|]. split; [apply isnum_high; now rewrite <- Es|].
      intros i Hi X. apply (HF3 (n + i)); [lia|]. now apply isnum_high.
Qed.

Lemma amounts_skip k out : k <= n -> (forall i, k <= i < n -> ~ is_number l lg i) -> amounts l lg r parse n out -> amounts l lg r parse k out.
Proof.
  intros Hk HN HA. inversion HA as [k' HX|k' s e u t d out' (HF1 & HF2 & HF3) HA' HP HO]; subst.
  - apply AS_none. intros i Hi. destruct (lt_dec i n); [apply HN; lia|apply HX; lia].
  - apply (AS_some l lg r parse k s e u t d); auto. split; [lia|]. split; [exact HF2|].
    intros i Hi. destruct (lt_dec i n); [apply HN; lia|apply HF3; lia].
Qed.
Lemma amounts_unskip k out : k <= n -> (forall i, k <= i < n -> ~ is_number l lg i) -> amounts l lg r parse k out -> amounts l lg r parse n out.
Proof.
  intros Hk HN HA. inversion HA as [k' HX|k' s e u t d out' (HF1 & HF2 & HF3) HA' HP HO]; subst.
  - apply AS_none. intros i Hi. apply HX; lia.
  - assert (n <= s) by (destruct (lt_dec s n); [exfalso; apply (HN s); auto|]; lia).
    apply (AS_some l lg r parse n s e u t d); auto. split; [lia|]. split; [exact HF2|]. intros i Hi. apply HF3; lia.
Qed.

Lemma amounts_both k out1 out2 : amounts l1 lg1 r parse k out1 -> k <= n -> amounts l2 lg2 r parse 0 out2 ->
  amounts l lg r parse k (out1 ++ shifted n out2).
Proof.
  intros HA. induction HA as [k HN | k s e u t d out (HF1 & HF2 & HF3) HA HP HO IH]; intros Hk H2.
  - cbn [app]. apply amounts_right in H2. rewrite Nat.add_0_r in H2. apply amounts_skip; auto. intros i Hi X. apply (HN i); [lia|]. apply isnum_low. split; [lia|exact X].
  - destruct (amount_left_back _ _ _ _ HA) as [HA1 Hu]. cbn [app]. apply (AS_some l lg r parse k s e u t d); auto.
    + apply isnum_low in HF2. split; [exact HF1|]. split; [apply HF2|]. intros i Hi X. apply (HF3 i Hi). apply isnum_low. split; [lia|exact X].
    + apply IH; [lia|exact H2].
Qed.
Lemma amounts_split k out : amounts l lg r parse k out -> k <= n ->
  exists out1 out2, out = out1 ++ shifted n out2 /\ amounts l1 lg1 r parse k out1 /\ amounts l2 lg2 r parse 0 out2.
Proof.
  intros HA. induction HA as [k HN | k s e u t d out HF HA HP HO IH]; intros Hk.
  - exists [], []. split; [reflexivity|]. split; apply AS_none.
    + intros i Hi X. apply isnum_low in X. now apply (HN i).
    + intros i Hi X. apply isnum_high in X. apply (HN (n + i)); [lia|exact X].
  - destruct (lt_dec s n) as [L|N].
    + destruct (amount_left _ _ _ _ L HA) as [HA1 Hu]. destruct IH as (out1 & out2 & -> & H1 & H2); [lia|].
      exists (((s, e), d) :: out1), out2. split; [reflexivity|]. split; [|exact H2]. apply (AS_some l1 lg1 r parse k s e u t d); auto.
      destruct HF as (HF1 & HF2 & HF3). split; [exact HF1|]. split; [now apply isnum_low|]. intros i Hi X. apply isnum_low in X. now apply (HF3 i Hi).
    + assert (HX : forall i, k <= i < n -> ~ is_number l lg i) by (intros i Hi; apply HF; lia).
      assert (HA' : amounts l lg r parse n (((s, e), d) :: out)) by (apply (amounts_unskip k); auto; econstructor; eauto).
      destruct (amounts_right_back _ _ HA' 0) as (out2 & E & H2); [lia|]. exists [], out2. split; [exact E|]. split; [|exact H2].
      apply AS_none. intros i Hi X. apply isnum_low in X. apply (HX i); tauto.
Qed.
End Parts.

(** ** The seam *)
Lemma quiet_not_busy l lg r i tok : plain TTextTag l lg -> plain TChar l lg -> nth_error (ll_tokens l) i = Some tok -> quiet r tok -> ~ busy l lg r i.
Proof.
  intros PT PC Hn (text & tag & Et & HT & HC).
  assert (HX : forall cs, incl cs (signs r) -> ~ has_char lg cs i).
  { intros cs HI HX. apply (has_char_plain l lg cs i PC) in HX. destruct HX as (c & (tok' & tag' & Hn' & Et') & Hc).
    assert (tok' = tok) by congruence. subst tok'. assert (text = [c]) by congruence. apply (HC c); auto. }
  intros [HN|[HN|HN]].
  - apply (is_number_plain l lg i PT) in HN. destruct HN as (tok' & text' & Hn' & Et'). assert (tok' = tok) by congruence. subst tok'. congruence.
  - revert HN. apply HX. intros c Hc. now right.
  - revert HN. apply HX. intros c [<-|[]]. now left.
Qed.

Lemma seam_facts l lg l1 lg1 l2 lg2 r : side_by_side l lg l1 lg1 l2 lg2 -> quiet_seam r (ll_tokens l1) (ll_tokens l2) ->
  (forall i, i < length (ll_tokens l1) -> busy l lg r i -> busy l lg r (i + 1) -> i + 1 < length (ll_tokens l1))
  /\ (forall i, i + 1 = length (ll_tokens l1) -> busy l lg r i -> readable l lg (i + 1)).
Proof.
  intros HS HQ. pose proof (quiet_not_busy l lg r) as NB. specialize (fun i tok => NB i tok (sb_tags _ _ _ _ _ _ HS) (sb_chars _ _ _ _ _ _ HS)).
  destruct HQ as [(before & tok & E & HQ)|(tok & after & E & HQ)].
  - assert (HX : forall i, i + 1 = length (ll_tokens l1) -> ~ busy l lg r i).
    { intros i Hi. apply (NB i tok); [|exact HQ]. rewrite (side_token_low _ _ _ _ _ _ HS) by lia. rewrite E in *.
      rewrite app_length in Hi. cbn [length] in Hi. rewrite nth_error_app2 by lia. now replace (i - length before) with 0 by lia. }
    split.
    + intros i Hi B _. destruct (Nat.eq_dec (i + 1) (length (ll_tokens l1))) as [Ei|N]; [|lia]. exfalso. now apply (HX i).
    + intros i Hi B. exfalso. now apply (HX i).
  - destruct (sb_tokens _ _ _ _ _ _ HS) as (p & M & ET).
    assert (Hn : nth_error (ll_tokens l) (length (ll_tokens l1)) = Some (moved_token (length (ll_tokens l1)) p M tok)).
    { rewrite ET, nth_error_app2, Nat.sub_diag, E by lia. reflexivity. }
    assert (HX : ~ busy l lg r (length (ll_tokens l1))).
    { eapply NB; [exact Hn|]. exact HQ. }
    split.
    + intros i Hi _ B. destruct (Nat.eq_dec (i + 1) (length (ll_tokens l1))) as [Ei|N]; [|lia]. exfalso. apply HX. now rewrite <- Ei.
    + intros i Hi _ Hl. rewrite Hi in *. destruct (attributed_dec (length (ll_tokens l1)) lg) as [|N]; [assumption|]. exfalso.
      apply (thm_C18_unattributed l lg _ (sb_h _ _ _ _ _ _ HS) Hl) in N. destruct N as (tok' & Hn' & Et' & _).
      destruct HQ as (text & tag & Et & _). rewrite Hn in Hn'. injection Hn' as <-. cbn [moved_token token] in Et'. congruence.
Qed.

(** ** One step *)
Lemma sorted_right l lg r parse k out : History l lg -> amounts l lg r parse k out -> right_way out.
Proof. intros H HA. eapply Forall_impl; [|eapply amounts_inside; eauto]. cbn beta. intros. lia. Qed.

Lemma step_side id s l lg l1 lg1 l2 lg2 : side_by_side l lg l1 lg1 l2 lg2 -> keeps_apart l1 l2 (id, s) ->
  (exists l' l1' l2' lg' lg1' lg2', run_step id l s = Ok l' /\ run_step id l1 s = Ok l1' /\ run_step id l2 s = Ok l2'
    /\ ll_tokens l1' = ll_tokens l1 /\ ll_tokens l2' = ll_tokens l2 /\ side_by_side l' lg' l1' lg1' l2' lg2')
  \/ ((forall l', run_step id l s <> Ok l') /\ ((forall l', run_step id l1 s <> Ok l') \/ forall l', run_step id l2 s <> Ok l')).
Proof.
  intros HS HK. pose proof (sb_h _ _ _ _ _ _ HS) as HH. pose proof (sb_h1 _ _ _ _ _ _ HS) as HH1. pose proof (sb_h2 _ _ _ _ _ _ HS) as HH2.
  destruct (sb_tokens _ _ _ _ _ _ HS) as (p & M & ET).
  destruct s as [t m|r| |dict noun|parse r]; cbn [keeps_apart snd run_step] in *; [left|left|easy|left|].
  - eapply runs_side; [exact HS|apply HK|apply HK|apply (text_match_run id l lg m HH)|apply (text_match_run id l1 lg1 m HH1)|apply (text_match_run id l2 lg2 m HH2)| | |];
      try apply on_tokens_right. rewrite ET. apply on_tokens_side; auto.
  - eapply runs_side; [exact HS|discriminate|discriminate|apply (clause_keyword_run id l lg r HH)|apply (clause_keyword_run id l1 lg1 r HH1)|apply (clause_keyword_run id l2 lg2 r HH2)| | |];
      try apply on_tokens_right. rewrite ET. apply on_tokens_side; auto.
  - eapply runs_side; [exact HS|discriminate|discriminate|apply (thm_C50_tags id l lg dict noun HH)|apply (thm_C50_tags id l1 lg1 dict noun HH1)|apply (thm_C50_tags id l2 lg2 dict noun HH2)| | |];
      try apply on_tokens_right. rewrite ET. apply on_tokens_side; auto.
    + intros i s Hi. unfold tagged. now rewrite (side_low _ _ _ _ _ _ HS).
    + intros i s. unfold tagged. now rewrite (side_high _ _ _ _ _ _ HS).
  - destruct (seam_facts l lg l1 lg1 l2 lg2 r HS HK) as [S1 S2].
    destruct (thm_C44_run parse r id l lg HH) as [(out & HA & HR & _)|(HF & HN & pn & HP)].
    + left. destruct (amounts_split l lg l1 lg1 l2 lg2 HS r parse S1 0 out HA (Nat.le_0_l _)) as (out1 & out2 & E & A1 & A2).
      apply (runs_side (t := TAmount) (amount_go parse r) id l lg l1 lg1 l2 lg2 out out1 out2); auto; try discriminate.
      * now apply amounts_run.
      * now apply amounts_run.
      * exact (sorted_right l1 lg1 r parse 0 out1 HH1 A1).
      * exact (sorted_right l2 lg2 r parse 0 out2 HH2 A2).
    + right. split; [intros l' E; congruence|].
      destruct (thm_C44_run parse r id l1 lg1 HH1) as [(out1 & A1 & _)|(_ & _ & p1 & P1)]; [|left; intros l' E; congruence].
      destruct (thm_C44_run parse r id l2 lg2 HH2) as [(out2 & A2 & _)|(_ & _ & p2 & P2)]; [|right; intros l' E; congruence].
      exfalso. apply (HN (out1 ++ shifted (length (ll_tokens l1)) out2)).
      apply (amounts_both l lg l1 lg1 l2 lg2 HS r parse S1 S2); auto. lia.
Qed.

Lemma after_cons l id s ss x : after_steps l ((id, s) :: ss) x -> exists l', run_step id l s = Ok l' /\ after_steps l' ss x.
Proof. intros A. inversion A; subst. eauto. Qed.

Lemma steps_side ss : forall l lg l1 lg1 l2 lg2, side_by_side l lg l1 lg1 l2 lg2 -> Forall (keeps_apart l1 l2) ss ->
  (exists l' l1' l2', after_steps l ss l' /\ after_steps l1 ss l1' /\ after_steps l2 ss l2'
     /\ ll_tokens l1' = ll_tokens l1 /\ answers_side_by_side l' l1' l2')
  \/ ((forall l', ~ after_steps l ss l') /\ ((forall l', ~ after_steps l1 ss l') \/ forall l', ~ after_steps l2 ss l')).
Proof.
  induction ss as [|[id s] ss IH]; intros l lg l1 lg1 l2 lg2 HS HF.
  - left. exists l, l1, l2. do 3 (split; [constructor|]). split; [reflexivity|]. eapply side_answers; eauto.
  - inversion HF as [|? ? HK HF']; subst.
    destruct (step_side id s l lg l1 lg1 l2 lg2 HS HK) as [(l' & l1' & l2' & lg' & lg1' & lg2' & E & E1 & E2 & ET1 & ET2 & HS')|(N & N12)].
    + assert (HF2 : Forall (keeps_apart l1' l2') ss).
      { eapply Forall_impl; [|exact HF']. intros [id' s']. unfold keeps_apart. cbn [snd]. now rewrite ET1, ET2. }
      destruct (IH l' lg' l1' lg1' l2' lg2' HS' HF2) as [(x & x1 & x2 & A & A1 & A2 & EX & Q)|(N & N12)].
      * left. exists x, x1, x2. do 3 (split; [econstructor; eauto|]). split; [congruence|exact Q].
      * right. split.
        -- intros x A. apply after_cons in A. destruct A as (y & Ey & A). apply (N x). congruence.
        -- destruct N12 as [N1|N2]; [left|right]; intros x A; apply after_cons in A; destruct A as (y & Ey & A); [apply (N1 x)|apply (N2 x)]; congruence.
    + right. split; [|destruct N12 as [N1|N2]; [left|right]]; intros x A; apply after_cons in A; destruct A as (y & Ey & A); [apply (N y)|apply (N1 y)|apply (N2 y)]; exact Ey.
Qed.

Lemma after_steps_fun ss : forall l a b, after_steps l ss a -> after_steps l ss b -> a = b.
Proof.
  induction ss as [|[id s] ss IH]; intros l a b H1 H2; inversion H1; inversion H2; subst; [congruence|].
  eapply IH; [eassumption|]. congruence.
Qed.

(** C73: resolvers that do not look across the seam do to the whole what they do to the parts. *)
Lemma thm_C73_pipelines :
  forall tg sz i1 i2 l l1 l2 ss,
    Forall wf_input i1 -> Forall wf_input i2 -> none_of TTextTag (i1 ++ i2) -> none_of TChar (i1 ++ i2) ->
    create_line_from_input_tokens tg (i1 ++ i2) sz = Ok l ->
    create_line_from_input_tokens tg i1 sz = Ok l1 -> create_line_from_input_tokens tg i2 sz = Ok l2 ->
    Forall (keeps_apart l1 l2) ss ->
    ((exists l', after_steps l ss l') <-> (exists l1', after_steps l1 ss l1') /\ (exists l2', after_steps l2 ss l2'))
    /\ forall l' l1' l2', after_steps l ss l' -> after_steps l1 ss l1' -> after_steps l2 ss l2' -> answers_side_by_side l' l1' l2'.
Proof.
  intros tg sz i1 i2 l l1 l2 ss HW1 HW2 HN1 HN2 H C1 C2 HF.
  destruct (joined_created tg sz i1 i2 l l1 l2 HW1 HW2 HN1 HN2 H C1 C2) as (lg & lg1 & lg2 & HS).
  destruct (steps_side ss l lg l1 lg1 l2 lg2 HS HF) as [(x & x1 & x2 & A & A1 & A2 & _ & Q)|(N & N12)].
  - split; [split; eauto|]. intros l' l1' l2' B B1 B2.
    now rewrite (after_steps_fun _ _ _ _ B A), (after_steps_fun _ _ _ _ B1 A1), (after_steps_fun _ _ _ _ B2 A2).
  - split; [|intros l' ? ? B; exfalso; now apply (N l')]. split.
    + intros (l' & B). exfalso. now apply (N l').
    + intros ((x1 & B1) & (x2 & B2)). exfalso. destruct N12 as [N1|N2]; [now apply (N1 x1)|now apply (N2 x2)].
Qed.

(** ** Clauses *)
Section ClauseSeam.
Context (toks1 toks2 : list LLToken) (p M : N) (r : ClauseKeywordResolver).
Notation n := (length toks1).
Notation toks := (toks1 ++ map (moved_token n p M) toks2).

Lemma text_low i s : i < n -> (text_at toks i s <-> text_at toks1 i s).
Proof. intros Hi. unfold text_at. now rewrite nth_error_app1. Qed.
Lemma text_high i s : text_at toks (n + i) s <-> text_at toks2 i s.
Proof.
  unfold text_at. rewrite nth_error_app2 by lia. replace (n + i - n) with i by lia. rewrite nth_error_map.
  destruct (nth_error toks2 i) as [tok|]; cbn [option_map].
  - split; intros (t & g & E & X); injection E as <-; do 2 eexists; (split; [reflexivity|exact X]).
  - split; intros (t & g & E & X); discriminate E.
Qed.
Lemma tag_low i s : i < n -> (tag_at toks i s <-> tag_at toks1 i s).
Proof. intros Hi. unfold tag_at. now rewrite nth_error_app1. Qed.
Lemma tag_high i s : tag_at toks (n + i) s <-> tag_at toks2 i s.
Proof.
  unfold tag_at. rewrite nth_error_app2 by lia. replace (n + i - n) with i by lia. rewrite nth_error_map.
  destruct (nth_error toks2 i) as [tok|]; cbn [option_map].
  - split; intros (t & g & E & X); injection E as <-; do 2 eexists; (split; [reflexivity|exact X]).
  - split; intros (t & g & E & X); discriminate E.
Qed.
Lemma kw_low i k : i < n -> (keyword_at toks r i k <-> keyword_at toks1 r i k).
Proof. intros Hi. unfold keyword_at. split; intros (s & A & B); exists s; (split; [now apply (text_low i s Hi)|exact B]). Qed.
Lemma kw_high i k : keyword_at toks r (n + i) k <-> keyword_at toks2 r i k.
Proof. unfold keyword_at. split; intros (s & A & B); exists s; (split; [now apply (text_high i s)|exact B]). Qed.
Lemma sep_low i : i < n -> (separates toks r i <-> separates toks1 r i).
Proof. intros Hi. unfold separates. rewrite (tag_low i _ Hi). split; (intros [(k & H)|H]; [left; exists k; now apply (kw_low i k Hi)|now right]). Qed.
Lemma sep_high i : separates toks r (n + i) <-> separates toks2 r i.
Proof. unfold separates. rewrite tag_high. split; (intros [(k & H)|H]; [left; exists k; now apply (kw_high i k)|now right]). Qed.
Lemma sep_first : separates toks r n <-> separates toks2 r 0.
Proof. pose proof (sep_high 0) as H. now rewrite Nat.add_0_r in H. Qed.
Lemma len_all : length toks = n + length toks2.
Proof. now rewrite app_length, map_length. Qed.

Context (HQ : separated_seam r toks1 toks2).

Lemma seam_sep : (0 < n /\ separates toks r (n - 1)) \/ separates toks r n.
Proof.
  destruct HQ as [[HN HS]|HS]; [left|right].
  - assert (0 < n) by (destruct toks1; [easy|simpl; lia]). split; [assumption|]. apply sep_low; [lia|exact HS].
  - now apply sep_first.
Qed.

Lemma stretch_low lo hi : stretch toks1 r lo hi <-> stretch toks r lo hi /\ hi < n.
Proof.
  unfold stretch. rewrite len_all. split.
  - intros ((A & B) & C & D & E). split; [|exact B]. split; [lia|]. split; [intros i Hi; rewrite sep_low by lia; now apply C|].
    split; [destruct D as [->|D]; [now left|right; apply sep_low; [lia|exact D]]|].
    destruct E as [E|E].
    + right. destruct seam_sep as [[Hn HS]|HS]; [exfalso|now rewrite E]. apply (C hi); [lia|]. apply sep_low; [lia|].
      now replace hi with (n - 1) by lia.
    + right. destruct (lt_dec (hi + 1) n) as [L|N]; [now apply sep_low|]. exfalso.
      assert (HX : hi + 1 < n); [|lia]. destruct E as [(k & s & (t & g & X & _) & _)|(t & g & X & _)]; eapply nth_error_lt_rev; eauto.
  - intros (((A & B) & C & D & E) & L). split; [lia|]. split; [intros i Hi; rewrite <- sep_low by lia; now apply C|].
    split; [destruct D as [->|D]; [now left|right; apply sep_low in D; [exact D|lia]]|].
    destruct (Nat.eq_dec (hi + 1) n) as [E'|N]; [now left|right]. destruct E as [E|E]; [lia|]. apply sep_low in E; [exact E|lia].
Qed.
Lemma stretch_high lo hi : stretch toks2 r lo hi <-> stretch toks r (n + lo) (n + hi).
Proof.
  unfold stretch. rewrite len_all. split.
  - intros ((A & B) & C & D & E). split; [lia|]. split.
    { intros i Hi. replace i with (n + (i - n)) by lia. rewrite sep_high. apply C. lia. }
    split.
    + destruct D as [->|D].
      * destruct seam_sep as [[Hn HS]|HS]; [right; now rewrite Nat.add_0_r|]. exfalso. apply sep_first in HS. apply (C 0); [lia|exact HS].
      * destruct (Nat.eq_dec lo 0) as [->|N0].
        -- cbn [Nat.sub] in D. exfalso. apply (C 0); [lia|exact D].
        -- right. replace (n + lo - 1) with (n + (lo - 1)) by lia. now apply sep_high.
    + destruct E as [E|E]; [left; lia|right]. rewrite <- Nat.add_assoc. now apply sep_high.
  - intros ((A & B) & C & D & E). split; [lia|]. split.
    { intros i Hi. rewrite <- sep_high. apply C. lia. }
    split.
    + destruct (Nat.eq_dec lo 0) as [->|N0]; [now left|right]. destruct D as [D|D]; [lia|]. replace (n + lo - 1) with (n + (lo - 1)) in D by lia. now apply sep_high in D.
    + destruct E as [E|E]; [left; lia|right]. rewrite <- Nat.add_assoc in E. now apply sep_high in E.
Qed.
Lemma stretch_side lo hi : stretch toks r lo hi -> hi < n \/ n <= lo.
Proof.
  intros ((A & B) & C & _). destruct (lt_dec hi n) as [|N1]; [now left|]. destruct (le_dec n lo) as [|N2]; [now right|]. exfalso.
  destruct seam_sep as [[Hn HS]|HS]; [apply (C (n - 1))|apply (C n)]; auto; lia.
Qed.

Lemma spaces_low lo hi a b : lo < n -> hi < n -> (without_end_spaces toks lo hi a b <-> without_end_spaces toks1 lo hi a b).
Proof. intros Hl Hh. unfold without_end_spaces. now rewrite (tag_low lo _ Hl), (tag_low hi _ Hh). Qed.
Lemma spaces_high lo hi a b : without_end_spaces toks (n + lo) (n + hi) (n + a) (n + b) <-> without_end_spaces toks2 lo hi a b.
Proof.
  unfold without_end_spaces. rewrite !tag_high.
  split; intros (A & B & C); (split; [lia|]); (split; [destruct B as [[B B']|[B B']]; [left|right]; split; auto; lia|destruct C as [[C C']|[C C']]; [left|right]; split; auto; lia]).
Qed.
End ClauseSeam.

(** Strictly ordered lists with the same members are equal. *)
Lemma ordered_same (xs : list (LRange * str)) : forall ys,
  StronglySorted (fun x y => snd (fst x) < fst (fst y)) xs -> StronglySorted (fun x y => snd (fst x) < fst (fst y)) ys ->
  (forall x, In x xs -> fst (fst x) <= snd (fst x)) -> (forall x, In x xs <-> In x ys) -> xs = ys.
Proof.
  induction xs as [|x xs IH]; intros [|y ys] S1 S2 HR HI; auto.
  - exfalso. apply (proj2 (HI y)). now left.
  - exfalso. apply (proj1 (HI x)). now left.
  - apply StronglySorted_inv in S1. destruct S1 as [S1 F1]. apply StronglySorted_inv in S2. destruct S2 as [S2 F2].
    rewrite Forall_forall in F1, F2.
    assert (RX : forall z, In z (x :: xs) -> fst (fst z) <= snd (fst z)) by exact HR.
    assert (E : x = y).
    { destruct (proj1 (HI x) (or_introl eq_refl)) as [E|Hx]; [now symmetry|]. destruct (proj2 (HI y) (or_introl eq_refl)) as [E|Hy]; [assumption|].
      exfalso. specialize (F1 y Hy). specialize (F2 x Hx). pose proof (RX x (or_introl eq_refl)) as A. pose proof (RX y (or_intror Hy)) as B. clear -F1 F2 A B.
      destruct x as [[x1 x2] tx], y as [[y1 y2] ty]. cbn [fst snd] in *. lia. }
    subst y. f_equal. apply IH; auto.
    + intros z Hz. apply HR. now right.
    + intros z. split; intros Hz.
      * destruct (proj1 (HI z) (or_intror Hz)) as [<-|]; [|assumption]. exfalso. specialize (F1 x Hz). specialize (RX x (or_introl eq_refl)). destruct x as [[x1 x2] tx]. cbn [fst snd] in *. lia.
      * destruct (proj2 (HI z) (or_intror Hz)) as [<-|]; [|assumption]. exfalso. specialize (F2 x Hz). specialize (RX x (or_introl eq_refl)). destruct x as [[x1 x2] tx]. cbn [fst snd] in *. lia.
Qed.

Lemma none_of_app t i1 i2 : none_of t (i1 ++ i2) <-> none_of t i1 /\ none_of t i2.
Proof.
  unfold none_of. split.
  - intros H. split; intros it a Hi; apply H; apply in_or_app; auto.
  - intros [H1 H2] it a Hi. apply in_app_iff in Hi. destruct Hi; eauto.
Qed.

Lemma in_order_ranges {V} (rows : list (LRange * str * list V)) : in_order rows -> StronglySorted (fun x y => snd (fst x) < fst (fst y)) (map fst rows).
Proof.
  unfold in_order. induction 1 as [|x rows HS IH HF]; cbn [map]; constructor; [exact IH|]. apply Forall_map. exact HF.
Qed.

(** C74: with a separator at the seam the clauses of the whole are those of the parts. *)
Lemma thm_C74_ranges :
  forall tg sz i1 i2 l l1 l2 r id id',
    Forall wf_input i1 -> Forall wf_input i2 ->
    none_of TKeyword (i1 ++ i2) -> none_of TTextTag (i1 ++ i2) -> none_of TClause (i1 ++ i2) ->
    create_line_from_input_tokens tg (i1 ++ i2) sz = Ok l ->
    create_line_from_input_tokens tg i1 sz = Ok l1 -> create_line_from_input_tokens tg i2 sz = Ok l2 ->
    separated_seam r (ll_tokens l1) (ll_tokens l2) ->
    exists rows rows1 rows2,
      clauses_reported id id' r l rows /\ clauses_reported id id' r l1 rows1 /\ clauses_reported id id' r l2 rows2
      /\ map fst rows = map fst rows1 ++ map (fun x => (moved_range (length (ll_tokens l1)) (fst x), snd x)) (map fst rows2).
Proof.
  intros tg sz i1 i2 l l1 l2 r id id' HW1 HW2 NK NT NC H C1 C2 HQ.
  assert (HW : Forall wf_input (i1 ++ i2)) by now apply Forall_app.
  destruct (thm_C55_join tg sz i1 i2 l HW1 HW2 H) as (x1 & x2 & E1 & E2 & ET & _).
  assert (x1 = l1) by congruence. assert (x2 = l2) by congruence. subst x1 x2. clear E1 E2.
  assert (IN : forall (rs : list (LRange * str * list Clause)) a b text, In ((a, b), text) (map fst rs) <-> exists cs, In ((a, b), text, cs) rs).
  { intros rs a b text. rewrite in_map_iff. split.
    - intros ([[rg t] cs] & E & Hin). cbn [fst] in E. injection E as -> ->. now exists cs.
    - intros (cs & Hin). exists ((a, b), text, cs). auto. }
  assert (HG : forall input m, Forall wf_input input -> none_of TKeyword input -> none_of TTextTag input -> none_of TClause input ->
    create_line_from_input_tokens tg input sz = Ok m -> exists rows, clauses_reported id id' r m rows /\ in_order rows
      /\ forall a b text, In ((a, b), text) (map fst rows) <->
           text = text_between (ll_tokens m) a b
           /\ exists lo hi, stretch (ll_tokens m) r lo hi /\ without_end_spaces (ll_tokens m) lo hi a b).
  { intros input m W K T C HC. destruct (thm_C52_created_single tg sz input m W K T HC) as (lg & HH & SK & ST).
    destruct (step_ok id (RunClauseKeyword r) m lg I HH SK ST) as (m1 & lg1 & R1 & _ & HH1 & SK1 & ST1).
    destruct (step_ok id' RunClause m1 lg1 I HH1 SK1 ST1) as (m2 & lg2 & R2 & _). cbn [run_step] in R1, R2.
    destruct (thm_C49_exact tg sz input m r id id' m1 m2 W K T C HC R1 R2) as (rows & EQ & HO & HX).
    exists rows. split; [exists m1, m2; auto|]. split; [assumption|]. intros a b text. rewrite <- HX. apply IN. }
  apply none_of_app in NK as NK'. apply none_of_app in NT as NT'. apply none_of_app in NC as NC'.
  destruct (HG (i1 ++ i2) l HW NK NT NC H) as (rows & Q & O & X).
  destruct (HG i1 l1 HW1 (proj1 NK') (proj1 NT') (proj1 NC') C1) as (rows1 & Q1 & O1 & X1).
  destruct (HG i2 l2 HW2 (proj2 NK') (proj2 NT') (proj2 NC') C2) as (rows2 & Q2 & O2 & X2).
  exists rows, rows1, rows2. do 3 (split; [assumption|]).
  set (n := length (ll_tokens l1)) in *.
  assert (B1 : forall x, In x (map fst rows1) -> fst (fst x) <= snd (fst x) < n).
  { intros [[a b] text] Hx. cbn [fst snd] in *. apply X1 in Hx. destruct Hx as (_ & lo & hi & ((_ & HL) & _) & Hab & _ & Hb).
    fold n in HL. destruct Hb as [[_ Hb]|[_ Hb]]; lia. }
  apply ordered_same.
  - now apply in_order_ranges.
  - apply in_order_ranges in O1. apply in_order_ranges in O2. clear -O1 O2 B1. revert B1. induction O1 as [|x xs HS IH HF]; intros B1; cbn [app].
    + induction O2 as [|y ys HS IH HF]; cbn [map]; constructor; [exact IH|]. apply Forall_map. eapply Forall_impl; [|exact HF].
      destruct y as [[y1 y2] ty]. intros [[a b] text]. unfold moved_range. cbn [fst snd]. lia.
    + constructor; [apply IH; intros z Hz; apply B1; now right|]. apply Forall_app. split; [exact HF|]. apply Forall_map. apply Forall_forall.
      intros [[a b] text] _. specialize (B1 x (or_introl eq_refl)). destruct x as [[x1 x2] tx]. unfold moved_range. cbn [fst snd] in *. lia.
  - intros [[a b] text] Hx. apply X in Hx. destruct Hx as (_ & lo & hi & _ & Hab & _). exact Hab.
  - intros [[a b] text]. rewrite in_app_iff, X, X1, in_map_iff, ET. split.
    + intros (Et & lo & hi & HS & HE). destruct (stretch_side (ll_tokens l1) (ll_tokens l2) (end_of l1) (2 ^ usize_bits tg) r HQ lo hi HS) as [L|L].
      * left. assert (HS1 : stretch (ll_tokens l1) r lo hi) by (apply (stretch_low (ll_tokens l1) (ll_tokens l2) (end_of l1) (2 ^ usize_bits tg) r HQ); split; [exact HS|exact L]).
        assert (Hlo : lo < n) by (destruct HS1 as ((? & ?) & _); subst n; lia).
        apply (spaces_low (ll_tokens l1) (ll_tokens l2) (end_of l1) (2 ^ usize_bits tg) lo hi a b Hlo L) in HE. split.
        -- rewrite Et. destruct HE as (Hab & _ & Hb). apply text_between_left; fold n; destruct Hb as [[_ Hb]|[_ Hb]]; lia.
        -- exists lo, hi. auto.
      * right. assert (HH : lo <= hi) by (destruct HS as ((? & ?) & _); lia).
        assert (Ha : n <= a) by (destruct HE as (_ & [[_ Ha]|[_ Ha]] & _); fold n in L; lia).
        assert (Hb : n <= b) by (destruct HE as (Hab & _); lia).
        exists ((a - n, b - n), text). split; [unfold moved_range; cbn [fst snd]; do 2 f_equal; lia|].
        apply X2. fold n in L.
        replace lo with (n + (lo - n)) in * by lia. replace hi with (n + (hi - n)) in * by lia.
        replace a with (n + (a - n)) in * by lia. replace b with (n + (b - n)) in * by lia.
        apply (stretch_high (ll_tokens l1) (ll_tokens l2) (end_of l1) (2 ^ usize_bits tg) r HQ) in HS. apply (spaces_high (ll_tokens l1) (ll_tokens l2) (end_of l1) (2 ^ usize_bits tg)) in HE. split.
        -- rewrite Et. pose proof (text_between_right (ll_tokens l1) (ll_tokens l2) (end_of l1) (2 ^ usize_bits tg) (a - n, b - n)) as TR.
           unfold moved_range in TR. cbn [fst snd] in TR. fold n in TR. rewrite TR. f_equal; lia.
        -- replace (n + (a - n) - n) with (a - n) by lia. replace (n + (b - n) - n) with (b - n) by lia. eauto.
    + intros [(Et & lo & hi & HS & HE)|([[a2 b2] text2] & E & HX)].
      * assert (Hlo : lo <= hi < n) by (destruct HS as ((? & ?) & _); subst n; lia). split.
        -- rewrite Et. symmetry. destruct HE as (Hab & _ & Hb). apply text_between_left; fold n; destruct Hb as [[_ Hb]|[_ Hb]]; lia.
        -- exists lo, hi. split; [now apply (stretch_low (ll_tokens l1) (ll_tokens l2) (end_of l1) (2 ^ usize_bits tg) r HQ)|]. apply (spaces_low (ll_tokens l1) (ll_tokens l2) (end_of l1) (2 ^ usize_bits tg)); [subst n; lia|subst n; lia|exact HE].
      * unfold moved_range in E. cbn [fst snd] in E. injection E as <- <- ->. apply X2 in HX.
        destruct HX as (Et & lo & hi & HS & HE). split.
        -- rewrite Et. symmetry. exact (text_between_right (ll_tokens l1) (ll_tokens l2) (end_of l1) (2 ^ usize_bits tg) (a2, b2)).
        -- exists (n + lo), (n + hi). split; [now apply (stretch_high (ll_tokens l1) (ll_tokens l2) (end_of l1) (2 ^ usize_bits tg) r HQ)|]. now apply (spaces_high (ll_tokens l1) (ll_tokens l2) (end_of l1) (2 ^ usize_bits tg)).
Qed.

(** The kind of every clause reported, with the stretch it comes from. *)
Lemma reported_kinds tg sz input l r id id' rows :
  Forall wf_input input -> none_of TKeyword input -> none_of TTextTag input -> none_of TClause input ->
  create_line_from_input_tokens tg input sz = Ok l -> clauses_reported id id' r l rows ->
  forall a b text cs, In ((a, b), text, cs) rows ->
    exists c lo hi, cs = [c] /\ a <= b /\ lo <= a /\ a <= hi /\ b <= hi /\ stretch (ll_tokens l) r lo hi
      /\ (c = Condition <-> follows (ll_tokens l) r lo KConditionStart)
      /\ (c = Independent <-> ~ follows (ll_tokens l) r lo KConditionStart /\ only_stretch (ll_tokens l) r lo hi)
      /\ (c = TrailingEffect <-> ~ follows (ll_tokens l) r lo KConditionStart /\ ~ only_stretch (ll_tokens l) r lo hi
                                 /\ (follows (ll_tokens l) r lo KThen \/ condition_before rows a))
      /\ (c = LeadingEffect <-> ~ follows (ll_tokens l) r lo KConditionStart /\ ~ only_stretch (ll_tokens l) r lo hi
                                /\ ~ follows (ll_tokens l) r lo KThen /\ ~ condition_before rows a).
Proof.
  intros HW HK HT HC H (l' & l'' & R1 & R2 & Q) a b text cs Hin.
  destruct (thm_C47_created tg sz input l r id id' l' l'' HW HK HT HC H R1 R2) as (rows1 & Q1 & _ & X1).
  destruct (thm_C48_created tg sz input l r id id' l' l'' HW HK HT HC H R1 R2) as (rows2 & Q2 & X2).
  assert (rows1 = rows) by congruence. assert (rows2 = rows) by congruence. subst rows1 rows2.
  destruct (X1 a b text cs Hin) as (Hab & _ & _ & lo & hi & HS & Ha & Hb & _).
  destruct (X2 a b text cs lo hi Hin HS ltac:(lia)) as (c & E & K). exists c, lo, hi.
  split; [exact E|]. split; [exact Hab|]. split; [exact Ha|]. split; [lia|]. split; [exact Hb|]. split; [exact HS|exact K].
Qed.

Lemma same_stretch toks r lo hi lo' hi' i : stretch toks r lo hi -> stretch toks r lo' hi' -> lo <= i <= hi -> lo' <= i <= hi' -> lo = lo' /\ hi = hi'.
Proof.
  intros ((A & B) & C & D & E) ((A' & B') & C' & D' & E') H H'. split.
  - destruct (Nat.lt_trichotomy lo lo') as [L|[L|L]]; [exfalso|exact L|exfalso].
    + destruct D' as [D'|D']; [lia|]. apply (C (lo' - 1)); [lia|exact D'].
    + destruct D as [D|D]; [lia|]. apply (C' (lo - 1)); [lia|exact D].
  - destruct (Nat.lt_trichotomy hi hi') as [L|[L|L]]; [exfalso|exact L|exfalso].
    + destruct E as [E|E]; [lia|]. apply (C' (hi + 1)); [lia|exact E].
    + destruct E' as [E'|E']; [lia|]. apply (C (hi' + 1)); [lia|exact E'].
Qed.

Lemma kind_cases (c : Clause) : c = Condition \/ c = Independent \/ c = TrailingEffect \/ c = LeadingEffect.
Proof. destruct c; auto. Qed.

(** C74: and how the kinds of the clauses of the parts change. *)
Lemma thm_C74_kinds :
  forall tg sz i1 i2 l l1 l2 r id id' rows rows1 rows2,
    Forall wf_input i1 -> Forall wf_input i2 ->
    none_of TKeyword (i1 ++ i2) -> none_of TTextTag (i1 ++ i2) -> none_of TClause (i1 ++ i2) ->
    create_line_from_input_tokens tg (i1 ++ i2) sz = Ok l ->
    create_line_from_input_tokens tg i1 sz = Ok l1 -> create_line_from_input_tokens tg i2 sz = Ok l2 ->
    separated_seam r (ll_tokens l1) (ll_tokens l2) ->
    clauses_reported id id' r l rows -> clauses_reported id id' r l1 rows1 -> clauses_reported id id' r l2 rows2 ->
    (forall rg text c1 c, In (rg, text, [c1]) rows1 -> In (rg, text, [c]) rows ->
       c = c1 \/ (c1 = Independent /\ c <> Condition))
    /\ ((forall k, ~ keyword_at (ll_tokens l1) r (length (ll_tokens l1) - 1) k) ->
        forall rg text c2 c, In (rg, text, [c2]) rows2 -> In (moved_range (length (ll_tokens l1)) rg, text, [c]) rows ->
          c = c2 \/ (c2 = Independent /\ c <> Condition) \/ (c2 = LeadingEffect /\ c = TrailingEffect)).
Proof.
  intros tg sz i1 i2 l l1 l2 r id id' rows rows1 rows2 HW1 HW2 NK NT NC H C1 C2 HQ Q Q1 Q2.
  assert (HW : Forall wf_input (i1 ++ i2)) by now apply Forall_app.
  destruct (thm_C74_ranges tg sz i1 i2 l l1 l2 r id id' HW1 HW2 NK NT NC H C1 C2 HQ) as (w & w1 & w2 & P & P1 & P2 & ER).
  assert (HU : forall m a b, clauses_reported id id' r m a -> clauses_reported id id' r m b -> a = b).
  { intros m a b (x & y & A1 & A2 & A3) (x' & y' & B1 & B2 & B3). congruence. }
  rewrite (HU _ _ _ P Q), (HU _ _ _ P1 Q1), (HU _ _ _ P2 Q2) in ER. clear P P1 P2 w w1 w2 HU.
  destruct (thm_C55_join tg sz i1 i2 l HW1 HW2 H) as (x1 & x2 & E1 & E2 & ET & _).
  assert (x1 = l1) by congruence. assert (x2 = l2) by congruence. subst x1 x2. clear E1 E2.
  apply none_of_app in NK as NK'. apply none_of_app in NT as NT'. apply none_of_app in NC as NC'.
  pose proof (reported_kinds tg sz (i1 ++ i2) l r id id' rows HW NK NT NC H Q) as K.
  pose proof (reported_kinds tg sz i1 l1 r id id' rows1 HW1 (proj1 NK') (proj1 NT') (proj1 NC') C1 Q1) as K1.
  pose proof (reported_kinds tg sz i2 l2 r id id' rows2 HW2 (proj2 NK') (proj2 NT') (proj2 NC') C2 Q2) as K2.
  clear H C1 C2 Q Q1 Q2 NK NT NC NK' NT' NC' HW HW1 HW2.
  set (T1 := ll_tokens l1) in *. set (T2 := ll_tokens l2) in *. set (p := end_of l1) in *. set (M := (2 ^ usize_bits tg)%N) in *. rewrite ET in *. clear ET.
  clearbody p M T1 T2. clear l l1 l2 tg sz i1 i2 id id'.
  (* corresponding rows *)
  assert (UP1 : forall rg text cs, In (rg, text, cs) rows1 -> exists cs', In (rg, text, cs') rows).
  { intros rg text cs Hin. apply (in_map fst) in Hin. cbn [fst] in Hin.
    assert (HX : In (rg, text) (map fst rows)) by (rewrite ER; apply in_or_app; now left).
    apply in_map_iff in HX. destruct HX as ([rt cs'] & E & HX). cbn [fst] in E. subst rt. now exists cs'. }
  assert (UP2 : forall rg text cs, In (rg, text, cs) rows2 -> exists cs', In (moved_range (length T1) rg, text, cs') rows).
  { intros rg text cs Hin. apply (in_map fst) in Hin. apply (in_map (fun x => (moved_range (length T1) (fst x), snd x))) in Hin. cbn [fst snd] in Hin.
    assert (HX : In (moved_range (length T1) rg, text) (map fst rows)) by (rewrite ER; apply in_or_app; now right).
    apply in_map_iff in HX. destruct HX as ([rt cs'] & E & HX). cbn [fst] in E. subst rt. now exists cs'. }
  assert (DOWN1 : forall rg text cs, In (rg, text, cs) rows -> snd rg < length T1 -> exists cs', In (rg, text, cs') rows1).
  { intros rg text cs Hin Hrg. apply (in_map fst) in Hin. cbn [fst] in Hin. rewrite ER in Hin. apply in_app_iff in Hin. destruct Hin as [Hin|Hin].
    - apply in_map_iff in Hin. destruct Hin as ([rt cs'] & E & HX). cbn [fst] in E. subst rt. now exists cs'.
    - exfalso. apply in_map_iff in Hin. destruct Hin as ([rg' t'] & E & _). injection E as <- <-. unfold moved_range in Hrg. cbn [fst snd] in Hrg. lia. }
  (* corresponding stretches *)
  assert (F1 : forall lo k, lo < length T1 -> (follows (T1 ++ map (moved_token (length T1) p M) T2) r lo k <-> follows T1 r lo k)).
  { intros lo k Hlo. unfold follows. split; intros (A & B); (split; [exact A|]); apply (kw_low T1 T2 p M r (lo - 1) k ltac:(lia)); exact B. }
  assert (S1 : forall a b text cs, In ((a, b), text, cs) rows1 -> exists c1 c lo hi, cs = [c1] /\ In ((a, b), text, [c]) rows /\ (c = Condition <-> c1 = Condition)
      /\ stretch T1 r lo hi /\ lo <= a <= hi /\ lo < length T1).
  { intros a b text cs Hin. destruct (K1 _ _ _ _ Hin) as (c1 & lo & hi & -> & Hab & Ha & Ha' & Hb & HS & KC & _).
    destruct (UP1 _ _ _ Hin) as (cs' & Hin'). destruct (K _ _ _ _ Hin') as (c & lo' & hi' & -> & _ & A & A' & _ & HS' & KC' & _).
    assert (HS2 := HS). apply (stretch_low T1 T2 p M r HQ) in HS2. destruct HS2 as [HS2 Hn].
    destruct (same_stretch _ _ _ _ _ _ a HS2 HS' ltac:(lia) ltac:(lia)) as [<- <-].
    exists c1, c, lo, hi. assert (lo < length T1) by lia. rewrite KC, KC', F1 by assumption. split; [reflexivity|]. split; [exact Hin'|]. split; [reflexivity|]. split; [exact HS|]. split; [lia|assumption]. }
  split.
  - assert (CB : forall a, a < length T1 -> (condition_before rows a <-> condition_before rows1 a)).
    { intros a Ha. unfold condition_before. split.
      - intros ([[[a' b'] t'] cs'] & Hin & Hl & HC). cbn [fst snd] in *. destruct (DOWN1 _ _ _ Hin ltac:(cbn [snd]; lia)) as (cs1 & Hin1).
        destruct (S1 _ _ _ _ Hin1) as (c1 & c & _ & _ & -> & Hin2 & HE & _). exists ((a', b'), t', [c1]). split; [exact Hin1|]. split; [exact Hl|].
        destruct (K _ _ _ _ Hin) as (c' & lo & hi & -> & Hab & A1 & A2 & _ & HS & KC & _).
        destruct (K _ _ _ _ Hin2) as (c'' & lo' & hi' & E & _ & B1 & B2 & _ & HS' & KC' & _). injection E as <-.
        destruct (same_stretch _ _ _ _ _ _ a' HS HS' ltac:(lia) ltac:(lia)) as [<- <-]. destruct HC as [->|[]].
        cbn [snd]. left. apply HE, KC', KC. reflexivity.
      - intros ([[[a' b'] t'] cs'] & Hin & Hl & HC). cbn [fst snd] in *. destruct (S1 _ _ _ _ Hin) as (c1 & c & _ & _ & -> & Hin2 & HE & _).
        exists ((a', b'), t', [c]). split; [exact Hin2|]. split; [exact Hl|]. destruct HC as [->|[]]. cbn [snd]. left. now apply HE. }
    intros [a b] text c1 c Hin1 Hin.
    destruct (K1 _ _ _ _ Hin1) as (c1' & lo & hi & E1 & Hab & Ha & Ha' & Hb & HS & KC1 & KI1 & KT1 & KL1). injection E1 as <-.
    destruct (K _ _ _ _ Hin) as (c' & lo' & hi' & E & _ & A & A' & _ & HS' & KC & KI & KT & KL). injection E as <-.
    assert (HS2 := HS). apply (stretch_low T1 T2 p M r HQ) in HS2. destruct HS2 as [HS2 Hn].
    destruct (same_stretch _ _ _ _ _ _ a HS2 HS' ltac:(lia) ltac:(lia)) as [<- <-].
    assert (HO : only_stretch (T1 ++ map (moved_token (length T1) p M) T2) r lo hi -> only_stretch T1 r lo hi).
    { intros (_ & HO). split; [exact HS|]. intros i Hi Hs. apply HO; [rewrite app_length; lia|]. now rewrite (sep_low T1 T2 p M r i Hi). }
    rewrite (F1 lo KConditionStart ltac:(lia)), ?(F1 lo KThen ltac:(lia)), ?(CB a ltac:(lia)) in *.
    destruct (kind_cases c1) as [E|[E|[E|E]]].
    + left. rewrite E. apply KC, KC1, E.
    + right. split; [exact E|]. intros X. apply KI1 in E. apply KC in X. now apply (proj1 E).
    + left. rewrite E. apply KT. apply KT1 in E. destruct E as (X & Y & Z). split; [exact X|]. split; [intros V; apply Y, HO, V|exact Z].
    + left. rewrite E. apply KL. apply KL1 in E. destruct E as (X & Y & Z). split; [exact X|]. split; [intros V; apply Y, HO, V|exact Z].
  - intros NKW [a b] text c2 c Hin2 Hin.
    destruct (K2 _ _ _ _ Hin2) as (c2' & lo & hi & E2 & Hab & Ha & Ha' & Hb & HS & KC2 & KI2 & KT2 & KL2). injection E2 as <-.
    unfold moved_range in Hin. cbn [fst snd] in Hin.
    destruct (K _ _ _ _ Hin) as (c' & lo' & hi' & E & _ & A & A' & _ & HS' & KC & KI & KT & KL). injection E as <-.
    assert (F2 : forall lo k, follows (T1 ++ map (moved_token (length T1) p M) T2) r (length T1 + lo) k <-> follows T2 r lo k).
    { intros lo0 k. unfold follows. destruct (Nat.eq_dec lo0 0) as [->|N0].
      - split; [|lia]. intros (A0 & B). exfalso. rewrite Nat.add_0_r in *. apply (kw_low T1 T2 p M r (length T1 - 1) k ltac:(lia)) in B. now apply (NKW k).
      - replace (length T1 + lo0 - 1) with (length T1 + (lo0 - 1)) by lia. rewrite kw_high. split; intros (X & Y); split; auto; lia. }
    assert (HS2 := HS). apply (stretch_high T1 T2 p M r HQ) in HS2.
    destruct (same_stretch _ _ _ _ _ _ (length T1 + a) HS2 HS' ltac:(lia) ltac:(lia)) as [<- <-].
    assert (HO : only_stretch (T1 ++ map (moved_token (length T1) p M) T2) r (length T1 + lo) (length T1 + hi) -> only_stretch T2 r lo hi).
    { intros (_ & HO). split; [exact HS|]. intros i Hi Hs. enough (length T1 + lo <= length T1 + i <= length T1 + hi) by lia.
      apply HO; [rewrite app_length, map_length; lia|]. now rewrite sep_high. }
    assert (CB : condition_before rows2 a -> condition_before rows (length T1 + a)).
    { intros ([[[a' b'] t'] cs'] & Hx & Hl & HC). cbn [fst snd] in *. destruct (UP2 _ _ _ Hx) as (cs & Hx').
      unfold moved_range in Hx'. cbn [fst snd] in Hx'. eexists. split; [exact Hx'|]. cbn [fst snd]. split; [lia|].
      destruct (K2 _ _ _ _ Hx) as (d2 & lo2 & hi2 & -> & _ & X1 & X2 & _ & HX & KX & _).
      destruct (K _ _ _ _ Hx') as (d & lo3 & hi3 & -> & _ & Y1 & Y2 & _ & HY & KY & _).
      apply (stretch_high T1 T2 p M r HQ) in HX. destruct (same_stretch _ _ _ _ _ _ (length T1 + a') HX HY ltac:(lia) ltac:(lia)) as [<- <-].
      left. apply KY, F2, KX. now destruct HC as [->|[]]. }
    rewrite !F2 in *.
    destruct (kind_cases c2) as [E|[E|[E|E]]].
    + left. rewrite E. apply KC, KC2, E.
    + right. left. split; [exact E|]. intros X. apply KI2 in E. apply KC in X. now apply (proj1 E).
    + left. rewrite E. apply KT. apply KT2 in E. destruct E as (X & Y & Z). split; [exact X|]. split; [intros V; apply Y, HO, V|].
      destruct Z as [Z|Z]; [now left|right; now apply CB].
    + apply KL2 in E as E'. destruct (kind_cases c) as [X|[X|[X|X]]].
      * exfalso. apply KC in X. now apply (proj1 E').
      * exfalso. apply KI in X. apply (proj1 (proj2 E')), HO, (proj2 X).
      * right. right. auto.
      * left. congruence.
Qed.
End ThmSeam.
