(** C47-C49: clauses. *)

From Verif Require Export SpecClause ThmText.

Section ThmClause.
Context {UC : Unicode} {U : UserTypes}.

Lemma StronglySorted_nth {A} (R : A -> A -> Prop) xs : StronglySorted R xs ->
  forall i j x y, i < j -> nth_error xs i = Some x -> nth_error xs j = Some y -> R x y.
Proof.
  intros HS. induction HS as [|a xs HS IH HF]; intros i j x y L Hi Hj; [destruct i; discriminate|].
  destruct j as [|j]; [lia|]. destruct i as [|i]; simpl in *.
  - inversion Hi; subst. rewrite Forall_forall in HF. apply HF. eapply nth_error_In; eauto.
  - apply (IH i j); auto. lia.
Qed.

Lemma nth_StronglySorted {A} (R : A -> A -> Prop) xs :
  (forall i j x y, i < j -> nth_error xs i = Some x -> nth_error xs j = Some y -> R x y) -> StronglySorted R xs.
Proof.
  induction xs as [|a xs IH]; intros HN; constructor.
  - apply IH. intros i j x y L Hi Hj. apply (HN (S i) (S j)); auto. lia.
  - apply Forall_forall. intros x Hx. apply In_nth_error in Hx. destruct Hx as (j & Hj).
    apply (HN 0 (S j)); auto. lia.
Qed.

Lemma length_filter_map_le {A B} (f : A -> option B) xs : length (filter_map f xs) <= length xs.
Proof. induction xs as [|x xs IH]; simpl; auto. destruct (f x); simpl; lia. Qed.

Definition TextTag_eq_dec (a b : TextTag) : {a = b} + {a <> b}.
Proof. decide equality. Defined.

(** ** Reading values that are on single tokens *)

Lemma values_on_assigned t rg v lg : In v (values_on t rg lg) <-> In (rg, v) (assigned t lg).
Proof.
  unfold values_on. rewrite in_filter_map. split.
  - intros ([rg' v'] & Hin & E). destruct (range_eqb rg' rg) eqn:Er; [|discriminate]. apply range_eqb_spec in Er.
    inversion E; subst. auto.
  - intros Hin. exists (rg, v). split; auto. now rewrite range_eqb_refl.
Qed.

Lemma scan_single {B} t lg i (p : LRange -> bool) (f : LRange -> den t -> option B) :
  single lg t -> (forall a, p (a, a) = Nat.eqb a i) ->
  scan t lg p f = filter_map (f (i, i)) (values_on t (i, i) lg).
Proof.
  intros HS Hp. unfold scan.
  assert (EF : filter p (ranges_of t lg) = filter (fun x => range_eqb x (i, i)) (ranges_of t lg)).
  { apply LemBase.filter_ext_in_iff. intros [a b] Hin. apply ranges_of_In in Hin. destruct Hin as (v & Hin).
    assert (E : a = b). { apply (HS (a, b) v). unfold assigned. apply in_filter_map. exists ((a, b), mkany t v). split; auto.
      now rewrite downcast_same. }
    subst b. rewrite Hp. unfold range_eqb. simpl. now destruct (Nat.eqb a i). }
  rewrite EF, filter_eq_NoDup by (unfold ranges_of; apply firsts_NoDup).
  destruct (existsb (range_eqb (i, i)) (ranges_of t lg)) eqn:EX.
  - simpl. now rewrite app_nil_r.
  - replace (values_on t (i, i) lg) with (@nil (den t)); [reflexivity|].
    symmetry. destruct (values_on t (i, i) lg) as [|v vs] eqn:EV; auto. exfalso.
    assert (HI : In v (values_on t (i, i) lg)) by (rewrite EV; now left). apply values_on_assigned in HI.
    assert (HR : In (i, i) (ranges_of t lg)).
    { apply ranges_of_In. exists v. unfold assigned in HI. apply in_filter_map in HI. destruct HI as ([rg a] & Hin & E).
      destruct (downcast t a) eqn:Ed; inversion E; subst. apply downcast_spec in Ed. now subst. }
    apply existsb_range_In in HR. congruence.
Qed.

Lemma attr_single l lg t d : History l lg -> single lg t -> dir_idx d < length (ll_tokens l) ->
  x_attr t d l = Ok (map (fun v => (v, dir_idx d)) (values_on t (dir_idx d, dir_idx d) lg)).
Proof.
  intros H HS Hd. unfold x_attr. rewrite (dir_attr_run l lg) by now apply history_repr.
  rewrite (proj2 (Nat.ltb_lt _ _) Hd). f_equal. rewrite (scan_single t lg (dir_idx d)).
  - destruct d; simpl; apply filter_map_some.
  - auto.
  - intros a. destruct d; reflexivity.
Qed.

Lemma attr_eq_single l lg tag d : History l lg -> single lg TTextTag -> dir_idx d < length (ll_tokens l) ->
  x_attr_eq TTextTag TextTag_eqb tag d l = Ok (map (fun _ => (tt, dir_idx d)) (tagged tag (dir_idx d) lg)).
Proof.
  intros H HS Hd. unfold x_attr_eq. rewrite (dir_attr_eq_run l lg) by now apply history_repr.
  rewrite (proj2 (Nat.ltb_lt _ _) Hd). f_equal. rewrite (scan_single TTextTag lg (dir_idx d)).
  - unfold tagged. symmetry. etransitivity; [apply filter_map_if|]. destruct d; reflexivity.
  - auto.
  - intros a. destruct d; reflexivity.
Qed.

Lemma tagged_spec lg tag i : In tag (values_on TTextTag (i, i) lg) <-> exists w, In w (tagged tag i lg).
Proof.
  unfold tagged. split.
  - intros Hin. exists tag. apply filter_In. split; auto. destruct tag; reflexivity.
  - intros (w & Hw). apply filter_In in Hw. destruct Hw as [Hw E].
    assert (w = tag) by (destruct w, tag; simpl in E; congruence). now subst.
Qed.

Section OneLine.
Context (id : N) (l : LLLine) (lg : list entry).
Context (H : History l lg) (HK : single lg TKeyword) (HT : single lg TTextTag).

Lemma separator_at i : i < length (ll_tokens l) ->
  exists ms, x_separator (Fwd i) l = Ok ms /\ (forall a j, In (a, j) ms -> j = i)
    /\ ((exists a, In (a, i) ms) <-> separator lg i).
Proof.
  intros Hi. unfold x_separator, x_any_of2.
  rewrite (attr_single l lg TKeyword (Fwd i)), (attr_eq_single l lg PUNC (Fwd i)) by auto. cbn [bind dir_idx].
  unfold separator. destruct (values_on TKeyword (i, i) lg) as [|k ks] eqn:EK; cbn [map].
  - cbn [bind]. eexists. split; [reflexivity|]. rewrite map_map. split.
    + intros a j Hin. apply in_map_iff in Hin. destruct Hin as (w & E & _). congruence.
    + rewrite tagged_spec. split.
      * intros (a & Hin). right. apply in_map_iff in Hin. destruct Hin as (w & _ & Hw). eauto.
      * intros [(k & [])|(w & Hw)]. exists (A2_B tt). apply in_map_iff. exists w. auto.
  - eexists. split; [reflexivity|]. split.
    + intros a j Hin. destruct Hin as [E|Hin]; [congruence|]. rewrite map_map in Hin.
      apply in_map_iff in Hin. destruct Hin as (k2 & E2 & _). congruence.
    + split.
      * intros _. left. exists k. now left.
      * intros _. exists (A2_A k). now left.
Qed.

Lemma whole_ok : ll_tokens l <> [] -> sel_ok (whole id l).
Proof. intros HN. unfold sel_ok, whole, line_len, line_of. simpl. destruct (ll_tokens l); [easy|simpl; lia]. Qed.

Lemma separator_lt i : separator lg i -> i < length (ll_tokens l).
Proof.
  intros HS. assert (exists t v, In v (values_on t (i, i) lg)) as (t & v & Hv) by (destruct HS as [(k & Hk)|Hp]; [exists TKeyword, k|exists TTextTag, PUNC]; assumption).
  apply values_on_assigned in Hv. unfold assigned in Hv. apply in_filter_map in Hv. destruct Hv as ([rg a] & Hin & E).
  destruct (downcast t a); inversion E; subst.
  destruct (in_line_entry _ _ _ (rp_in l lg (history_repr _ _ H)) Hin) as [H1 _]. exact H1.
Qed.

Lemma maximal_runs_iff s (P Q : nat -> Prop) ps : (forall k, P k <-> Q k) -> maximal_runs s P ps -> maximal_runs s Q ps.
Proof.
  intros E [R1 R2 R3 R4 R5 R6]. constructor; auto.
  - intros p k Hp Hc C. apply E in C. eapply R2; eauto.
  - intros p Hp. destruct (R3 p Hp); auto. right. now apply E.
  - intros p Hp. destruct (R4 p Hp); auto. right. now apply E.
  - intros k Hk HQ. apply R5; auto. now rewrite E.
Qed.

Lemma split_separator : ll_tokens l <> [] ->
  exists runs, split_by (whole id l) x_separator = Ok runs /\ maximal_runs (whole id l) (separator lg) runs.
Proof.
  intros HN. assert (HW : forall i, covers (whole id l) i <-> i < length (ll_tokens l)).
  { intros i. unfold covers, whole. simpl. destruct (ll_tokens l); [easy|simpl; lia]. }
  destruct (proj2 (thm_C25_ok_iff _ (whole id l) x_separator)) as (found & EF).
  { intros i Hi. apply HW in Hi. destruct (separator_at i Hi) as (ms & E & _). exists ms. exact E. }
  destruct (thm_C27_single_tokens _ _ _ _ (whole_ok HN) EF) as (runs & ER & HR).
  - intros s' a Hin. apply (find_by_In _ _ _ _ _ EF) in Hin. destruct Hin as (_ & Hc & ms & Em & Hin).
    apply HW in Hc. destruct (separator_at _ Hc) as (ms' & Em' & H1 & _). unfold line_of, whole in Em. simpl in Em.
    rewrite Em in Em'. apply Ok_inj in Em'. subst ms'. symmetry. eauto.
  - exists runs. split; auto. eapply maximal_runs_iff; [|exact HR]. intros k. unfold touched. split.
    + intros (s' & a & Hin & Hc). apply (find_by_In _ _ _ _ _ EF) in Hin. destruct Hin as (_ & Hc' & ms & Em & Hin).
      apply HW in Hc'. destruct (separator_at _ Hc') as (ms' & Em' & H1 & H2). unfold line_of, whole in Em. simpl in Em.
      rewrite Em in Em'. apply Ok_inj in Em'. subst ms'. pose proof (H1 _ _ Hin) as Ej. rewrite Ej in Hin.
      unfold covers in Hc. replace k with (start_idx s') by lia. apply H2. eauto.
    + intros HSep. pose proof (separator_lt _ HSep) as Hk. destruct (separator_at _ Hk) as (ms & Em & H1 & H2).
      apply H2 in HSep. destruct HSep as (a & Ha). exists (mkSel (mkRc id l) k k), a. split; [|unfold covers; simpl; lia].
      apply (find_by_In _ _ _ _ _ EF). cbn [sel_line start_idx end_idx]. split; [reflexivity|]. split; [now apply HW|].
      exists ms. auto.
Qed.

Lemma whitespace_bounded : bounded x_whitespace l.
Proof.
  intros d ms a j Hd E Hin. unfold x_whitespace in E. rewrite (attr_eq_single l lg SPACE d) in E by auto.
  apply Ok_inj in E. subst ms. apply in_map_iff in Hin. destruct Hin as (w & Ew & _). inversion Ew; subst.
  destruct d; simpl in *; lia.
Qed.

Lemma trim_run p : sel_ok p -> line_of p = l -> exists o, trim p x_whitespace = Ok o /\ trimmed_run lg p o.
Proof.
  intros Hp HL. unfold sel_ok, line_len in Hp. rewrite HL in Hp.
  pose proof (attr_eq_single l lg SPACE (Fwd (start_idx p)) H HT ltac:(simpl; lia)) as EF.
  pose proof (attr_eq_single l lg SPACE (Bwd (end_idx p)) H HT ltac:(simpl; lia)) as EB. cbn [dir_idx] in EF, EB.
  edestruct (thm_C29_trim_exact unit p x_whitespace) as (o & E & HP).
  - unfold sel_ok, line_len. rewrite HL. exact Hp.
  - rewrite HL. apply whitespace_bounded.
  - rewrite HL. exact EF.
  - rewrite HL. exact EB.
  - exists o. split; auto. unfold trimmed_run. eapply part_of_iff; [|exact HP]. intros k Hk. cbv beta.
    assert (A1 : first_match_fwd (map (fun _ => (tt, start_idx p)) (tagged SPACE (start_idx p) lg)) k
                 <-> (k = start_idx p /\ space lg k)).
    { unfold first_match_fwd, space. split.
      - intros (a & j & rest & E1 & E2).
        destruct (tagged SPACE (start_idx p) lg) as [|w ws] eqn:ET; simpl in E1; [discriminate|]. inversion E1; subst.
        unfold covers in Hk. assert (k = start_idx p) by lia. subst k. split; auto. apply tagged_spec. exists w. rewrite ET. now left.
      - intros (-> & HS). apply tagged_spec in HS. destruct HS as (w & Hw).
        destruct (tagged SPACE (start_idx p) lg) as [|w' ws]; [easy|]. simpl. eauto. }
    assert (A2 : first_match_bwd (map (fun _ => (tt, end_idx p)) (tagged SPACE (end_idx p) lg)) k
                 <-> (k = end_idx p /\ space lg k)).
    { unfold first_match_bwd, space. split.
      - intros (a & j & rest & E1 & E2).
        destruct (tagged SPACE (end_idx p) lg) as [|w ws] eqn:ET; simpl in E1; [discriminate|]. inversion E1; subst.
        unfold covers in Hk. assert (k = end_idx p) by lia. subst k. split; auto. apply tagged_spec. exists w. rewrite ET. now left.
      - intros (-> & HS). apply tagged_spec in HS. destruct HS as (w & Hw).
        destruct (tagged SPACE (end_idx p) lg) as [|w' ws]; [easy|]. simpl. eauto. }
    rewrite A1, A2. unfold covers in Hk. split.
    + intros [N1 N2]. split; auto. intros [C1 C2]. destruct (Nat.eq_dec k 0) as [->|]; [|tauto].
      apply N1. split; auto. lia.
    + tauto.
Qed.

Lemma keyword_back p : sel_ok p -> line_of p = l ->
  exists s, match_first_backwards p (x_attr TKeyword) = Ok (option_map (pair s) (keyword_before lg p)).
Proof.
  intros Hp HL. unfold sel_ok, line_len in Hp. rewrite HL in Hp.
  unfold match_first_backwards, match_backwards, keyword_before. rewrite HL.
  destruct (start_idx p) as [|i] eqn:ES.
  - exists p. reflexivity.
  - cbn [Nat.eqb]. replace (S i - 1) with i by lia. rewrite (attr_single l lg TKeyword (Bwd i) H HK) by (simpl; lia). cbn [bind dir_idx].
    exists (mkSel (sel_line p) i (end_idx p)).
    destruct (values_on TKeyword (i, i) lg); reflexivity.
Qed.

Lemma clause_loop_spec runs : forall earlier,
  Forall (fun p => sel_ok p /\ line_of p = l) runs ->
  exists ts ass, clause_loop runs (existsb is_condition earlier) = Ok ass
    /\ Forall2 (trimmed_run lg) runs ts
    /\ map (fun x => (as_start x, as_end x)) ass = map (fun '(_, t) => (start_idx t, end_idx t)) (worded runs ts)
    /\ forall i x p t, nth_error ass i = Some x -> nth_error (worded runs ts) i = Some (p, t) ->
         as_value x = clause_kind false (earlier ++ map as_value (firstn i ass)) (keyword_before lg p).
Proof.
  induction runs as [|p runs IH]; intros earlier HF.
  - exists [], []. simpl. split; [reflexivity|]. split; [constructor|]. split; [reflexivity|]. intros i x p t E. destruct i; discriminate.
  - apply Forall_cons_iff in HF; destruct HF as [[Hp HL] HF']. destruct (trim_run p Hp HL) as (o & EO & HO).
    cbn [clause_loop]. rewrite EO. cbn [bind]. destruct o as [tr|].
    + destruct (keyword_back p Hp HL) as (s & EK). rewrite EK. cbn [bind].
      set (c := clause_kind false earlier (keyword_before lg p)).
      match goal with |- exists _ _, (let '(_, _) := ?x in _) = _ /\ _ =>
        assert (EC : x = (c, existsb is_condition (earlier ++ [c]))) end.
      { unfold c, clause_kind. rewrite existsb_app. destruct (keyword_before lg p) as [[]|]; simpl;
          destruct (existsb is_condition earlier) eqn:EE; simpl; rewrite ?EE; reflexivity. }
      rewrite EC. destruct (IH (earlier ++ [c]) HF') as (ts & ass & E1 & E2 & E3 & E4). rewrite E1. cbn [bind].
      exists (Some tr :: ts), (finish_with_attr (t := TClause) tr c :: ass). split; [reflexivity|]. split; [constructor; auto|].
      split; [unfold worded in *; simpl; now rewrite E3|].
      intros [|i] x p' t' N1 N2; simpl in N1.
      * unfold worded in N2. simpl in N2. inversion N1; inversion N2; subst. simpl. now rewrite app_nil_r.
      * change (nth_error (worded runs ts) i = Some (p', t')) in N2.
        rewrite (E4 i x p' t' N1 N2). rewrite <- app_assoc. reflexivity.
    + destruct (IH earlier HF') as (ts & ass & E1 & E2 & E3 & E4). exists (None :: ts), ass.
      split; [exact E1|]. split; [constructor; auto|]. split; [exact E3|exact E4].
Qed.

Lemma runs_in_line runs : ll_tokens l <> [] -> maximal_runs (whole id l) (separator lg) runs ->
  Forall (fun p => sel_ok p /\ line_of p = l) runs.
Proof.
  intros HN HR. apply Forall_forall. intros p Hp. destruct (runs_inside _ _ _ HR p Hp) as (E & H1 & H2 & H3).
  assert (EL : line_of p = l) by (unfold line_of; rewrite E; reflexivity). split; auto.
  unfold sel_ok, line_len. rewrite EL. unfold whole in H3. simpl in H3. destruct (ll_tokens l); [easy|simpl in *; lia].
Qed.

(** What the resolver returns. *)
Lemma clause_go_spec : ll_tokens l <> [] ->
  exists runs ts ass, clause_go (whole id l) = Ok (mkGo ass false)
    /\ clauses_of lg (whole id l) runs ts (map as_pair ass).
Proof.
  intros HN. destruct (split_separator HN) as (runs & ES & HR). pose proof (runs_in_line runs HN HR) as HF.
  unfold clause_go, no_retain. rewrite ES. cbn [bind].
  assert (HM : exists ts ass,
     match runs with
     | [c0] => o <- trim c0 x_whitespace;;
          match o with
          | None => Ok []
          | Some trimmed => k <- match_first_backwards c0 (x_attr TKeyword);;
              Ok [finish_with_attr (t := TClause) trimmed (match k with Some (_, KConditionStart) => Condition | _ => Independent end)]
          end
     | _ => clause_loop runs false
     end = Ok ass /\ clauses_of lg (whole id l) runs ts (map as_pair ass)).
  2:{ destruct HM as (ts & ass & EM & HC). exists runs, ts, ass. split; auto.
      match goal with |- bind ?x _ = _ => replace x with (Ok ass) end. reflexivity. }
  assert (HG : forall ts ass, (Nat.eqb (length runs) 1 = false) -> clause_loop runs (existsb is_condition []) = Ok ass ->
     Forall2 (trimmed_run lg) runs ts ->
     map (fun x => (as_start x, as_end x)) ass = map (fun '(_, t) => (start_idx t, end_idx t)) (worded runs ts) ->
     (forall i x p t, nth_error ass i = Some x -> nth_error (worded runs ts) i = Some (p, t) ->
         as_value x = clause_kind false ([] ++ map as_value (firstn i ass)) (keyword_before lg p)) ->
     clauses_of lg (whole id l) runs ts (map as_pair ass)).
  { intros ts ass EL E1 E2 E3 E4. constructor; auto.
    - rewrite <- E3, map_map. reflexivity.
    - intros i rg c p t N1 N2. rewrite nth_error_map in N1. destruct (nth_error ass i) as [x|] eqn:Ex; [|discriminate].
      simpl in N1. inversion N1; subst. rewrite (E4 i x p t Ex N2), EL. rewrite firstn_map, map_map. reflexivity. }
  destruct runs as [|p0 [|p1 runs]].
  - exists [], []. split; [reflexivity|]. constructor; auto; try constructor. intros i rg c p t N1. destruct i; discriminate.
  - apply Forall_cons_iff in HF; destruct HF as [[Hp HL] _]. destruct (trim_run p0 Hp HL) as (o & EO & HO). rewrite EO. cbn [bind].
    destruct o as [tr|].
    + destruct (keyword_back p0 Hp HL) as (s & EK). rewrite EK. cbn [bind].
      eexists [Some tr], _. split; [reflexivity|]. constructor; auto.
      intros [|i] rg c p t N1 N2; [|destruct i; discriminate]. unfold worded in N2. simpl in N1, N2. inversion N1; inversion N2; subst.
      unfold clause_kind. destruct (keyword_before lg p) as [[]|]; reflexivity.
    + exists [None], []. split; [reflexivity|]. constructor; auto. intros i rg c p t N1. destruct i; discriminate.
  - destruct (clause_loop_spec (p0 :: p1 :: runs) [] HF) as (ts & ass & E1 & E2 & E3 & E4).
    exists ts, ass. split; [exact E1|]. apply HG; auto.
Qed.

End OneLine.

(** ** Consequences of [clauses_of] *)

Lemma worded_In lg runs ts p t : Forall2 (trimmed_run lg) runs ts -> In (p, t) (worded runs ts) ->
  In p runs /\ trimmed_run lg p (Some t).
Proof.
  intros HF. induction HF as [|p0 o runs ts HP HF IH]; [easy|]. unfold worded in *. simpl. destruct o as [t0|]; simpl.
  - intros [E|Hin]; [inversion E; subst; auto|]. destruct (IH Hin); auto.
  - intros Hin. destruct (IH Hin); auto.
Qed.

Lemma worded_of lg runs ts p k : Forall2 (trimmed_run lg) runs ts -> In p runs -> covers p k -> ~ space lg k ->
  exists t, In (p, t) (worded runs ts).
Proof.
  intros HF Hp Hk HS. induction HF as [|p0 o runs ts HP HF IH]; [easy|]. unfold worded in *. simpl. destruct Hp as [->|Hp].
  - destruct o as [t0|]; simpl; [exists t0; now left|]. exfalso. apply (HP k). split; auto. split; intros [_ C]; auto.
  - destruct (IH Hp) as (t & Ht). exists t. destruct o; simpl; auto.
Qed.

Lemma worded_sorted lg runs ts : Forall2 (trimmed_run lg) runs ts ->
  StronglySorted (fun p q => end_idx p < start_idx q) runs ->
  StronglySorted (fun x y : LLSelection * LLSelection => end_idx (fst x) < start_idx (fst y)) (worded runs ts).
Proof.
  intros HF. induction HF as [|p0 o runs ts HP HF IH]; intros HS; [constructor|]. inversion HS as [|? ? HS' HA]; subst.
  unfold worded in *. simpl. destruct o as [t0|]; simpl; [|auto]. constructor; auto.
  apply Forall_forall. intros [p t] Hin. simpl. destruct (worded_In lg runs ts p t HF Hin) as [Hp _].
  rewrite Forall_forall in HA. auto.
Qed.

Lemma trimmed_bounds lg p t : trimmed_run lg p (Some t) ->
  start_idx t <= end_idx t /\ start_idx p <= start_idx t /\ end_idx t <= end_idx p
  /\ start_idx t <= start_idx p + 1 /\ end_idx p <= end_idx t + 1
  /\ (start_idx t = start_idx p + 1 -> space lg (start_idx p))
  /\ (end_idx p = end_idx t + 1 -> space lg (end_idx p)).
Proof.
  intros (_ & HO & HC). pose proof (proj1 (HC (start_idx t)) ltac:(unfold covers; lia)) as [C1 _].
  pose proof (proj1 (HC (end_idx t)) ltac:(unfold covers; lia)) as [C2 _]. unfold covers in C1, C2.
  split; [lia|]. split; [lia|]. split; [lia|]. split; [|split; [|split]].
  - destruct (le_lt_dec (start_idx t) (start_idx p + 1)); auto. exfalso.
    assert (X : covers t (start_idx p + 1)) by (apply HC; unfold covers; split; [lia|]; split; intros [E _]; lia).
    unfold covers in X. lia.
  - destruct (le_lt_dec (end_idx p) (end_idx t + 1)); auto. exfalso.
    assert (X : covers t (end_idx p - 1)) by (apply HC; unfold covers; split; [lia|]; split; intros [E _]; lia).
    unfold covers in X. lia.
  - intros E. destruct (in_dec TextTag_eq_dec SPACE (values_on TTextTag (start_idx p, start_idx p) lg)) as [|N]; auto. exfalso.
    assert (X : covers t (start_idx p)).
    { apply HC; unfold covers; split; [lia|]; split; intros [E1 E2]; [now apply N|].
      apply N. unfold space in E2. exact E2. }
    unfold covers in X. lia.
  - intros E. destruct (in_dec TextTag_eq_dec SPACE (values_on TTextTag (end_idx p, end_idx p) lg)) as [|N]; auto. exfalso.
    assert (X : covers t (end_idx p)).
    { apply HC; unfold covers; split; [lia|]; split; intros [E1 E2]; [|now apply N].
      apply N. unfold space in E2. exact E2. }
    unfold covers in X. lia.
Qed.

Lemma clauses_at lg s runs ts out i rg c : clauses_of lg s runs ts out -> nth_error out i = Some (rg, c) ->
  exists p t, nth_error (worded runs ts) i = Some (p, t) /\ rg = (start_idx t, end_idx t)
    /\ In p runs /\ trimmed_run lg p (Some t)
    /\ c = clause_kind (Nat.eqb (length runs) 1) (map snd (firstn i out)) (keyword_before lg p).
Proof.
  intros [H1 H2 H3 H4] Hn. assert (E : nth_error (map fst out) i = Some rg) by (rewrite nth_error_map, Hn; reflexivity).
  rewrite H3, nth_error_map in E. destruct (nth_error (worded runs ts) i) as [[p t]|] eqn:EW; [|discriminate].
  exists p, t. simpl in E. inversion E; subst rg. split; auto. split; auto.
  destruct (worded_In lg runs ts p t H2 (nth_error_In _ _ EW)) as [A B]. split; auto. split; auto. eapply H4; eauto.
Qed.

Lemma same_run s P runs p q k : maximal_runs s P runs -> In p runs -> In q runs -> covers p k -> covers q k -> p = q.
Proof.
  intros HR Hp Hq H1 H2. pose proof (runs_ordered _ _ _ HR) as HS.
  apply In_nth_error in Hp, Hq. destruct Hp as (i & Hi), Hq as (j & Hj).
  destruct (lt_eq_lt_dec i j) as [[L| ->]|L]; [|congruence|]; exfalso; unfold covers in *.
  - pose proof (StronglySorted_nth _ _ HS i j p q L Hi Hj). simpl in *. lia.
  - pose proof (StronglySorted_nth _ _ HS j i q p L Hj Hi). simpl in *. lia.
Qed.

(** C47: the clause resolver always succeeds on such lines, and its clauses are those specified. *)
Lemma thm_C47_clauses :
  forall id l lg,
    History l lg -> single lg TKeyword -> single lg TTextTag ->
    exists out, runs_to id l lg clause_go out
      /\ (ll_tokens l = [] -> out = [])
      /\ (ll_tokens l <> [] -> exists runs ts, clauses_of lg (whole id l) runs ts out).
Proof.
  intros id l lg H HK HT. destruct (ll_tokens l) as [|t0 tl] eqn:ET.
  - exists []. split; [|split; easy]. apply runs_to_intro; auto; rewrite ET; easy.
  - assert (HN : ll_tokens l <> []) by (rewrite ET; discriminate).
    destruct (clause_go_spec id l lg H HK HT HN) as (runs & ts & ass & E & HC). exists (map as_pair ass).
    split; [|split; [easy|eauto]]. apply runs_to_intro; auto; [easy|eauto|].
    apply Forall_forall. intros [[a b] c] Hin. apply In_nth_error in Hin. destruct Hin as (i & Hi).
    destruct (clauses_at _ _ _ _ _ _ _ _ HC Hi) as (p & t & _ & Erg & Hp & Ht & _). inversion Erg; subst.
    pose proof (trimmed_bounds _ _ _ Ht). pose proof (runs_inside _ _ _ (cl_runs _ _ _ _ _ HC) p Hp) as (_ & X).
    unfold whole in X. simpl in X. rewrite ET in *. simpl in *. lia.
Qed.

(** C47 *)
Lemma thm_C47_disjoint :
  forall lg s runs ts out,
    clauses_of lg s runs ts out ->
    StronglySorted (fun x y : LRange * Clause => snd (fst x) < fst (fst y)) out
    /\ forall a b c, In ((a, b), c) out ->
         a <= b
         /\ (forall k, a <= k <= b -> covers s k /\ ~ separator lg k)
         /\ exists p, In p runs /\ start_idx p <= a <= start_idx p + 1 /\ b <= end_idx p <= b + 1
              /\ (a = start_idx p + 1 -> space lg (start_idx p))
              /\ (end_idx p = b + 1 -> space lg (end_idx p)).
Proof.
  intros lg s runs ts out HC. split.
  - apply nth_StronglySorted. intros i j [ra ca] [rb cb] L Hi Hj.
    destruct (clauses_at _ _ _ _ _ _ _ _ HC Hi) as (p & t & W1 & E1 & Hp & Ht & _).
    destruct (clauses_at _ _ _ _ _ _ _ _ HC Hj) as (p' & t' & W2 & E2 & Hp' & Ht' & _). subst.
    pose proof (StronglySorted_nth _ _ (worded_sorted _ _ _ (cl_trimmed _ _ _ _ _ HC) (runs_ordered _ _ _ (cl_runs _ _ _ _ _ HC)))
                  i j _ _ L W1 W2) as X. simpl in *.
    pose proof (trimmed_bounds _ _ _ Ht). pose proof (trimmed_bounds _ _ _ Ht'). lia.
  - intros a b c Hin. apply In_nth_error in Hin. destruct Hin as (i & Hi).
    destruct (clauses_at _ _ _ _ _ _ _ _ HC Hi) as (p & t & _ & E1 & Hp & Ht & _). inversion E1; subst.
    pose proof (trimmed_bounds _ _ _ Ht) as B. pose proof (runs_inside _ _ _ (cl_runs _ _ _ _ _ HC) p Hp) as (_ & X).
    split; [lia|]. split.
    + intros k Hk. split; [unfold covers; lia|]. apply (runs_free _ _ _ (cl_runs _ _ _ _ _ HC) p k Hp). unfold covers. lia.
    + exists p. repeat split; try tauto; lia.
Qed.

(** C48 *)
Lemma thm_C48_kinds :
  forall lg s runs ts before rg c after p,
    clauses_of lg s runs ts (before ++ (rg, c) :: after) -> In p runs -> covers p (fst rg) ->
    c = clause_kind (Nat.eqb (length runs) 1) (map snd before) (keyword_before lg p).
Proof.
  intros lg s runs ts before rg c after p HC Hp Hk.
  assert (Hn : nth_error (before ++ (rg, c) :: after) (length before) = Some (rg, c))
    by (rewrite nth_error_app2, Nat.sub_diag by lia; reflexivity).
  destruct (clauses_at _ _ _ _ _ _ _ _ HC Hn) as (p' & t & _ & E1 & Hp' & Ht & Ec). rewrite Ec.
  rewrite firstn_app, firstn_all, Nat.sub_diag. simpl firstn. rewrite app_nil_r.
  replace p' with p; auto. pose proof (trimmed_bounds _ _ _ Ht).
  eapply (same_run _ _ _ _ _ (fst rg) (cl_runs _ _ _ _ _ HC)); eauto. subst rg. unfold covers. simpl. lia.
Qed.

Lemma thm_C48_no_leading_effect_after_condition :
  forall lg s runs ts a ra b rb c d,
    clauses_of lg s runs ts (a ++ (ra, Condition) :: b ++ (rb, c) :: d) -> c <> LeadingEffect /\ c <> Independent.
Proof.
  intros lg s runs ts a ra b rb c d HC.
  assert (Hn : nth_error (a ++ (ra, Condition) :: b ++ (rb, c) :: d) (length (a ++ (ra, Condition) :: b)) = Some (rb, c)).
  { change (a ++ (ra, Condition) :: b ++ (rb, c) :: d) with (a ++ ((ra, Condition) :: b) ++ (rb, c) :: d).
    rewrite app_assoc, nth_error_app2, Nat.sub_diag by lia. reflexivity. }
  destruct (clauses_at _ _ _ _ _ _ _ _ HC Hn) as (p & t & HW & _ & _ & _ & Ec).
  assert (EE : existsb is_condition (map snd (firstn (length (a ++ (ra, Condition) :: b)) (a ++ (ra, Condition) :: b ++ (rb, c) :: d))) = true).
  { change (a ++ (ra, Condition) :: b ++ (rb, c) :: d) with (a ++ ((ra, Condition) :: b) ++ (rb, c) :: d).
    rewrite app_assoc, firstn_app, firstn_all, Nat.sub_diag. simpl firstn. rewrite app_nil_r, map_app, existsb_app.
    simpl. apply orb_true_r. }
  assert (EL : Nat.eqb (length runs) 1 = false).
  { apply Nat.eqb_neq. intros E1. assert (length (worded runs ts) <= 1).
    { unfold worded. etransitivity; [apply length_filter_map_le|]. rewrite combine_length. lia. }
    assert (length (a ++ (ra, Condition) :: b) < length (worded runs ts)) by (apply nth_error_Some; rewrite HW; discriminate).
    rewrite app_length in *. simpl in *. lia. }
  unfold clause_kind in Ec. rewrite EE, EL in Ec. destruct (keyword_before lg p) as [[]|]; subst c; split; discriminate.
Qed.

Lemma thm_C48_independent :
  forall lg s runs ts out rg c,
    clauses_of lg s runs ts out -> In (rg, c) out ->
    (length runs <> 1 -> c <> Independent)
    /\ (length runs = 1 -> out = [(rg, c)] /\ (c = Condition \/ c = Independent)
        /\ (c = Condition <-> exists p, In p runs /\ keyword_before lg p = Some KConditionStart)).
Proof.
  intros lg s runs ts out rg c HC Hin. apply In_nth_error in Hin. destruct Hin as (i & Hi).
  destruct (clauses_at _ _ _ _ _ _ _ _ HC Hi) as (p & t & HW & _ & Hp & _ & Ec). split.
  - intros HL. rewrite (proj2 (Nat.eqb_neq _ _) HL) in Ec. rewrite Ec. unfold clause_kind.
    destruct (keyword_before lg p) as [[]|]; try discriminate; destruct (existsb _ _); discriminate.
  - intros HL. rewrite HL in Ec. simpl in Ec.
    assert (HO : length out <= 1).
    { rewrite <- (map_length fst), (cl_ranges _ _ _ _ _ HC), map_length. unfold worded.
      etransitivity; [apply length_filter_map_le|]. rewrite combine_length. lia. }
    split; [|split].
    + destruct out as [|x [|y out]]; simpl in HO; [destruct i; discriminate| |lia]. destruct i as [|[|]]; simpl in Hi; congruence.
    + rewrite Ec. unfold clause_kind. destruct (keyword_before lg p) as [[]|]; auto.
    + destruct runs as [|p0 [|p1 runs]]; try discriminate. destruct Hp as [->|[]]. rewrite Ec. unfold clause_kind. split.
      * intros E. exists p. split; [now left|]. destruct (keyword_before lg p) as [[]|]; congruence.
      * intros (q & [<-|[]] & E). now rewrite E.
Qed.

(** C49 *)
Lemma thm_C49_covered :
  forall lg s runs ts out p k,
    clauses_of lg s runs ts out -> In p runs -> covers p k -> ~ space lg k ->
    exists x, In x out
      /\ start_idx p <= fst (fst x) /\ snd (fst x) <= end_idx p
      /\ (forall j, covers p j -> ~ space lg j -> fst (fst x) <= j <= snd (fst x))
      /\ forall y j, In y out -> fst (fst y) <= j <= snd (fst y) -> covers p j -> y = x.
Proof.
  intros lg s runs ts out p k HC Hp Hk HS.
  destruct (worded_of _ _ _ _ _ (cl_trimmed _ _ _ _ _ HC) Hp Hk HS) as (t & Ht).
  apply In_nth_error in Ht. destruct Ht as (i & Hi).
  assert (Hx : exists c, nth_error out i = Some ((start_idx t, end_idx t), c)).
  { assert (E : nth_error (map fst out) i = Some (start_idx t, end_idx t))
      by (rewrite (cl_ranges _ _ _ _ _ HC), nth_error_map, Hi; reflexivity).
    rewrite nth_error_map in E. destruct (nth_error out i) as [[rg c]|]; [|discriminate]. simpl in E. inversion E; subst. eauto. }
  destruct Hx as (c & Hx). destruct (worded_In _ _ _ _ _ (cl_trimmed _ _ _ _ _ HC) (nth_error_In _ _ Hi)) as [_ HT].
  pose proof (trimmed_bounds _ _ _ HT) as B.
  exists ((start_idx t, end_idx t), c). split; [eapply nth_error_In; eauto|]. simpl. split; [lia|]. split; [lia|]. split.
  - intros j Hj HN. destruct HT as (_ & _ & HT). change (covers t j). apply HT. split; auto. split; intros [_ C]; auto.
  - intros [rg c'] j Hy Hj Hpj. simpl in Hj. apply In_nth_error in Hy. destruct Hy as (m & Hm).
    destruct (clauses_at _ _ _ _ _ _ _ _ HC Hm) as (p' & t' & W' & E' & Hp' & Ht' & _).
    assert (p' = p).
    { pose proof (trimmed_bounds _ _ _ Ht'). subst rg. simpl in Hj.
      eapply (same_run _ _ _ _ _ j (cl_runs _ _ _ _ _ HC)); eauto. unfold covers. lia. }
    subst p'. assert (m = i).
    { pose proof (worded_sorted _ _ _ (cl_trimmed _ _ _ _ _ HC) (runs_ordered _ _ _ (cl_runs _ _ _ _ _ HC))) as SS.
      unfold covers in Hk. destruct (lt_eq_lt_dec m i) as [[L|]|L]; auto; exfalso.
      - pose proof (StronglySorted_nth _ _ SS m i _ _ L W' Hi) as X. simpl in X. lia.
      - pose proof (StronglySorted_nth _ _ SS i m _ _ L Hi W') as X. simpl in X. lia. }
    subst m. congruence.
Qed.

(** The tokenizer's own values are on single tokens. *)
Lemma plain_single t l lg : plain t l lg -> single lg t.
Proof.
  intros HP [a b] v Hin. unfold plain in HP. rewrite HP in Hin. clear HP.
  revert Hin. generalize 0 at 1. generalize (map token (ll_tokens l)). induction l0 as [|t0 ts IH]; intros k; simpl; [easy|].
  unfold assigned. rewrite filter_map_app, in_app_iff. intros [Hin|Hin]; [|apply (IH (S k)); exact Hin].
  apply in_filter_map in Hin. destruct Hin as ([rg x] & Hin & E). apply token_entries_ranges in Hin. simpl in Hin. subst rg.
  destruct (downcast t x); inversion E; subst. reflexivity.
Qed.

End ThmClause.
