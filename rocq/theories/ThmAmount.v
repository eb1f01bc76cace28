(** C39-C44: amounts. *)

From Verif Require Export SpecAmount ThmText.

Section ThmAmount.
Context {UC : Unicode} {U : UserTypes}.

Section OneLine.
Context (id : N) (l : LLLine) (lg : list entry) (r : AmountResolver).
Context (H : History l lg).
Let n := length (ll_tokens l).
Let rc := mkRc id l.

Lemma number_lt i text : number l lg i text -> i < length (ll_tokens l).
Proof. intros (tok & tag & Hn & _). eapply nth_error_lt_rev; eauto. Qed.
Lemma is_number_lt i : is_number l lg i -> i < length (ll_tokens l).
Proof. intros (t & Ht). eapply number_lt; eauto. Qed.
Lemma number_fun i a b : number l lg i a -> number l lg i b -> a = b.
Proof. intros (tok & tag & Hn & Et & _) (tok' & tag' & Hn' & Et' & _). congruence. Qed.

Lemma has_char_attributed cs i : has_char lg cs i -> attributed i lg.
Proof.
  intros (c & Hc & _). unfold values_on in Hc. apply in_filter_map in Hc. destruct Hc as ([rg v] & Hin & E).
  destruct (range_eqb rg (i, i)) eqn:Er; [|discriminate]. apply range_eqb_spec in Er. subst.
  unfold assigned in Hin. apply in_filter_map in Hin. destruct Hin as ([r' a] & Hin & E').
  destruct (downcast TChar a); [|discriminate]. inversion E'; subst. unfold attributed. apply in_map_iff. now exists ((i, i), a).
Qed.

Lemma has_char_lt cs i : has_char lg cs i -> i < length (ll_tokens l).
Proof.
  intros Hc. apply has_char_attributed in Hc. unfold attributed in Hc. apply in_map_iff in Hc.
  destruct Hc as (e & E & He). pose proof (in_line_entry _ _ _ (rp_in l lg (history_repr _ _ H)) He) as [H1 _].
  rewrite E in H1. exact H1.
Qed.

(** ** What the two matchers report *)

Lemma tagged_In tag i : In tag (values_on TTextTag (i, i) lg) <-> tagged tag i lg <> [].
Proof.
  unfold tagged. split.
  - intros Hin E. assert (HF : In tag (filter (fun w => TextTag_eqb w tag) (values_on TTextTag (i, i) lg))).
    { apply filter_In. split; auto. destruct tag; reflexivity. }
    rewrite E in HF. destruct HF.
  - intros HN. destruct (filter _ _) as [|w ws] eqn:E; [easy|].
    assert (HF : In w (filter (fun w => TextTag_eqb w tag) (values_on TTextTag (i, i) lg))) by (rewrite E; now left).
    apply filter_In in HF. destruct HF as [HF Et]. assert (w = tag) by (destruct w, tag; simpl in Et; congruence). now subst.
Qed.

Definition number_dec_at i : option str :=
  match nth_error (ll_tokens l) i with
  | Some tok => match token tok with
                | LText s _ => match tagged NATN i lg with [] => None | _ => Some s end
                | LValue => None
                end
  | None => None
  end.

Lemma number_dec_at_spec i s : number_dec_at i = Some s <-> number l lg i s.
Proof.
  unfold number_dec_at, number. split.
  - destruct (nth_error _ i) as [tok|] eqn:Hn; [|discriminate]. destruct (token tok) as [s' tag|] eqn:Et; [|discriminate].
    destruct (tagged NATN i lg) eqn:ET; [discriminate|]. intros E. inversion E; subst. exists tok, tag. split; auto. split; auto.
    apply tagged_In. rewrite ET. discriminate.
  - intros (tok & tag & Hn & Et & HT). rewrite Hn, Et. apply tagged_In in HT. destruct (tagged NATN i lg); easy.
Qed.

Lemma number_dec_at_none i : number_dec_at i = None <-> ~ is_number l lg i.
Proof.
  destruct (number_dec_at i) as [s|] eqn:E.
  - split; [discriminate|]. intros C. exfalso. apply C. exists s. now apply number_dec_at_spec.
  - split; auto. intros _ (s & Hs). apply number_dec_at_spec in Hs. congruence.
Qed.

Lemma first_number_match s e : s <= e < n ->
  match_first_forwards (mkSel rc s e) x_number
  = Ok (option_map (fun text => (mkSel rc s (e + 1), (tt, text))) (number_dec_at (e + 1))).
Proof.
  intros He. unfold match_first_forwards, match_forwards, line_len, line_of, rc, n in *.
  cbn [end_idx start_idx sel_line rc_line].
  destruct (Nat.eqb (S e) (length (ll_tokens l))) eqn:E.
  - apply Nat.eqb_eq in E. unfold number_dec_at. rewrite (proj2 (nth_error_None (ll_tokens l) (e + 1))) by lia. reflexivity.
  - apply Nat.eqb_neq in E. destruct (nth_error_lt (ll_tokens l) (S e)) as (tok & Hn); [lia|].
    unfold x_number. rewrite (tagged_text_at l lg NATN (S e) tok H Hn). cbn [bind].
    unfold number_dec_at. replace (e + 1) with (S e) by lia. rewrite Hn. unfold text_of.
    destruct (token tok) as [s' tag|]; [|reflexivity]. cbn [flat_map]. rewrite app_nil_r.
    destruct (tagged NATN (S e) lg) as [|w ws]; reflexivity.
Qed.

Lemma first_has_match s e cs : s <= e < n ->
  (exists p, match_first_forwards (mkSel rc s e) (x_token_has_any TChar N.eqb cs) = Panic p /\ ~ readable l lg (e + 1))
  \/ readable l lg (e + 1) /\
     ((has_char lg cs (e + 1) /\ exists c, match_first_forwards (mkSel rc s e) (x_token_has_any TChar N.eqb cs)
                                     = Ok (Some (mkSel rc s (e + 1), c)))
      \/ (~ has_char lg cs (e + 1) /\ match_first_forwards (mkSel rc s e) (x_token_has_any TChar N.eqb cs) = Ok None)).
Proof.
  intros He. unfold match_first_forwards, match_forwards, line_len, line_of, rc, n in *.
  cbn [end_idx start_idx sel_line rc_line]. replace (e + 1) with (S e) by lia.
  destruct (Nat.eqb (S e) (length (ll_tokens l))) eqn:E.
  - apply Nat.eqb_eq in E. right. split; [intros C; lia|]. right. split; [|reflexivity].
    intros C. apply has_char_lt in C. lia.
  - apply Nat.eqb_neq in E. destruct (thm_C18_token_has_any l lg TChar N.eqb cs (S e) H) as (H1 & H2 & _); [lia|].
    destruct (attributed_dec (S e) lg) as [HA|HA].
    + right. split; [intros _; exact HA|]. rewrite (H2 HA). cbn [bind].
      match goal with |- context [filter ?f ?x] => destruct (filter f x) as [|v vs] eqn:EF end.
      * right. split; [|reflexivity]. intros (c & Hc & Hin).
        eapply in_nil. rewrite <- EF. apply filter_In. split; [exact Hc|]. apply existsb_exists. exists c.
        split; auto. apply N.eqb_refl.
      * left. split.
        -- pose proof (in_eq v vs) as HF. rewrite <- EF in HF.
           apply filter_In in HF. destruct HF as [HF Hx]. apply existsb_exists in Hx. destruct Hx as (c & Hc & Ec).
           apply N.eqb_eq in Ec. subst c. now exists v.
        -- exists v. reflexivity.
    + left. destruct (H1 HA) as (p & Ep). exists p. rewrite Ep. split; [reflexivity|]. intros C. apply HA, C. lia.
Qed.

(** ** Digit groups *)

Lemma groups_bounds s e text : groups_at l lg r s e text -> s <= e < length (ll_tokens l) /\ Nat.Even (e - s).
Proof.
  induction 1 as [text Hn | e t1 t2 HG IH Hd Hn].
  - apply number_lt in Hn. split; [lia|]. exists 0. lia.
  - apply number_lt in Hn. destruct IH as (IH1 & k & IH2). split; [lia|]. exists (S k). lia.
Qed.

Lemma groups_last s e text : groups_at l lg r s e text -> is_number l lg s /\ is_number l lg e.
Proof.
  induction 1 as [text Hn | e t1 t2 HG IH Hd Hn].
  - split; eexists; eauto.
  - split; [apply IH|eexists; eauto].
Qed.

Lemma groups_next s e1 t1 e2 t2 : groups_at l lg r s e1 t1 -> groups_at l lg r s e2 t2 -> e1 < e2 ->
  is_delimiter lg r (e1 + 1) /\ is_number l lg (e1 + 2).
Proof.
  intros H1 H2 HL. revert H1 HL. induction H2 as [t2 Hn | e2 ta tb HG IH Hd Hn]; intros H1 HL.
  - apply groups_bounds in H1. lia.
  - destruct (groups_bounds _ _ _ H1) as (_ & k1 & E1). destruct (groups_bounds _ _ _ HG) as (? & k2 & E2).
    destruct (groups_bounds _ _ _ H1) as (? & _).
    destruct (lt_eq_lt_dec e1 e2) as [[C|C]|C]; auto.
    + subst. split; auto. eexists; eauto.
    + exfalso. lia.
Qed.

Lemma groups_fun s e t1 t2 : groups_at l lg r s e t1 -> groups_at l lg r s e t2 -> t1 = t2.
Proof.
  intros H1. revert t2. induction H1 as [t1 Hn | e t1 t1' HG IH Hd Hn]; intros t2 H2.
  - inversion H2; subst; [eapply number_fun; eauto|]. apply groups_bounds in H0. lia.
  - inversion H2; subst; [apply groups_bounds in HG; lia|]. assert (e0 = e) by lia. subst. f_equal; auto.
    eapply number_fun; eauto.
Qed.

(** The end of the groups: what [amount_at] says about the token after them. *)
Definition groups_end s e text : Prop :=
  groups_at l lg r s e text /\ ~ (is_delimiter lg r (e + 1) /\ is_number l lg (e + 2)).

Lemma groups_end_fun s e1 t1 e2 t2 : groups_end s e1 t1 -> groups_end s e2 t2 -> e1 = e2 /\ t1 = t2.
Proof.
  intros [H1 N1] [H2 N2]. destruct (lt_eq_lt_dec e1 e2) as [[C|C]|C].
  - exfalso. apply N1. exact (groups_next _ _ _ _ _ H1 H2 C).
  - subst. split; auto. eapply groups_fun; eauto.
  - exfalso. apply N2. exact (groups_next _ _ _ _ _ H2 H1 C).
Qed.

Lemma amount_fun s e1 u1 t1 e2 u2 t2 : amount_at l lg r s e1 u1 t1 -> amount_at l lg r s e2 u2 t2 ->
  e1 = e2 /\ u1 = u2 /\ t1 = t2.
Proof.
  intros H1 H2.
  inversion H1; subst; inversion H2; subst;
    repeat match goal with
    | A : groups_at l lg r s ?e ?t |- _ =>
        match goal with
        | _ : groups_end s e t |- _ => fail 1
        | _ => assert (groups_end s e t) by (split; [exact A|]; intros [? ?]; tauto)
        end
    end;
    match goal with
    | A : groups_end s ?e ?t, B : groups_end s ?e' ?t' |- _ =>
        first [constr_eq e e'; fail 1 | pose proof (groups_end_fun _ _ _ _ _ A B) as [? ?]; subst]
    | _ => idtac
    end; try (split; [|split]; now auto);
    repeat match goal with
    | A : number l lg ?i ?a, B : ~ is_number l lg ?i |- _ => exfalso; apply B; now exists a
    | A : number l lg ?i ?a, B : number l lg ?i ?b |- _ =>
        first [constr_eq a b; fail 1 | pose proof (number_fun _ _ _ A B); subst; clear B]
    end; try tauto; auto.
Qed.

Lemma amount_bounds s e u text : amount_at l lg r s e u text ->
  s <= e <= u /\ u < length (ll_tokens l) /\ is_number l lg s /\ is_number l lg e.
Proof.
  intros HA. destruct HA as [e t HG | e t HG Hd | e t1 t2 HG Hnd Hd Hn | e t HG Hnd Hd | e t1 t2 HG Hr Hnd Hd Hn];
    pose proof (groups_bounds _ _ _ HG) as (HB & _); pose proof (groups_last _ _ _ HG) as (HS & HL).
  - repeat split; auto; lia.
  - apply has_char_lt in Hd. repeat split; auto; lia.
  - pose proof (number_lt _ _ Hn). repeat split; auto; try lia. eexists; eauto.
  - apply has_char_lt in Hd. repeat split; auto; lia.
  - pose proof (number_lt _ _ Hn). repeat split; auto; try lia. eexists; eauto.
Qed.

(** ** The loops *)

Lemma delim_loop_spec fuel : forall s e text, groups_at l lg r s e text -> length (ll_tokens l) <= fuel + e ->
  (exists p e' text', delim_loop r fuel (mkSel rc s e) None text = Panic p
     /\ groups_at l lg r s e' text' /\ ~ readable l lg (e' + 1))
  \/ (exists e' text', delim_loop r fuel (mkSel rc s e) None text = Ok (mkSel rc s e', None, text')
        /\ groups_at l lg r s e' text' /\ readable l lg (e' + 1) /\ ~ is_delimiter lg r (e' + 1))
  \/ (exists e' text', delim_loop r fuel (mkSel rc s e) None text = Ok (mkSel rc s (e' + 1), Some (mkSel rc s e'), text')
        /\ groups_at l lg r s e' text' /\ is_delimiter lg r (e' + 1) /\ ~ is_number l lg (e' + 2)).
Proof.
  induction fuel as [|fuel IH]; intros s e text HG HF; pose proof (groups_bounds _ _ _ HG) as (HB & _); [simpl in HF; lia|].
  cbn [delim_loop].
  destruct (first_has_match s e (delimiters r) HB) as [(p & Ep & HN)|(HR & [(HD & c & Ec)|(HD & Ec)])].
  - left. exists p, e, text. rewrite Ep. auto.
  - rewrite Ec. cbn [bind]. pose proof (has_char_lt _ _ HD) as HL. rewrite first_number_match by (unfold n; lia). cbn [bind].
    replace (e + 1 + 1) with (e + 2) by lia. destruct (number_dec_at (e + 2)) as [t2|] eqn:EN; cbn [option_map].
    + apply number_dec_at_spec in EN. apply IH; [|lia]. apply G_more; auto.
    + apply number_dec_at_none in EN. right. right. exists e, text. auto.
  - rewrite Ec. cbn [bind]. right. left. exists e, text. auto.
Qed.

Context (parse : str -> option Decimal).

(** One round of the outer loop, up to the parse. *)
Lemma round_spec fuel s text0 : number l lg s text0 -> length (ll_tokens l) <= fuel + s ->
  (exists p e text,
     (st <- delim_loop r fuel (mkSel rc s s) None text0;; decimal_part r st) = Panic p
     /\ groups_at l lg r s e text /\ ~ readable l lg (e + 1))
  \/ exists e u text o, (st <- delim_loop r fuel (mkSel rc s s) None text0;; decimal_part r st)
        = Ok (mkSel rc s u, o, text)
     /\ match o with Some x => x | None => mkSel rc s u end = mkSel rc s e
     /\ amount_at l lg r s e u text.
Proof.
  intros HS HF.
  destruct (delim_loop_spec fuel s s text0 (G_one _ _ _ _ _ HS) HF)
    as [(p & e & t & Ep & HG & HR)|[(e & t & Ep & HG & HR & HD)|(e & t & Ep & HG & HD & HN)]]; rewrite Ep; cbn [bind].
  - left. exists p, e, t. auto.
  - right. unfold decimal_part. pose proof (groups_bounds _ _ _ HG) as (HB & _).
    destruct (first_has_match s e [decimal r] HB) as [(p & Ep' & HN)|(_ & [(HX & c & Ec)|(HX & Ec)])]; [tauto| |];
      rewrite Ec; cbn [bind].
    + pose proof (has_char_lt _ _ HX) as HL. rewrite first_number_match by (unfold n; lia). cbn [bind].
      replace (e + 1 + 1) with (e + 2) by lia. destruct (number_dec_at (e + 2)) as [t2|] eqn:EN; cbn [option_map].
      * apply number_dec_at_spec in EN. exists (e + 2), (e + 2), ((t ++ point) ++ t2), None. split; auto. split; auto.
        rewrite <- app_assoc. apply A_decimal; auto.
      * apply number_dec_at_none in EN. exists e, (e + 1), (t ++ point), (Some (mkSel rc s e)). split; auto. split; auto.
        apply A_point; auto.
    + rewrite first_number_match by (unfold n; lia). cbn [bind].
      destruct (number_dec_at (e + 1)) as [t2|] eqn:EN; cbn [option_map].
      * apply number_dec_at_spec in EN. exists (e + 1), (e + 1), (t ++ t2), None. split; auto. split; auto.
        apply A_adjacent; auto.
      * apply number_dec_at_none in EN. exists e, e, t, None. split; auto. split; auto. apply A_groups; auto.
  - right. cbn [decimal_part]. exists e, (e + 1), t, (Some (mkSel rc s e)). split; auto. split; auto. apply A_delimiter; auto.
Qed.

(** The search for the next number. *)
Lemma first_number_found k : k < length (ll_tokens l) ->
  (find_first_by (mkSel rc k (length (ll_tokens l) - 1)) x_number = Ok None /\ forall i, k <= i -> ~ is_number l lg i)
  \/ exists s text, find_first_by (mkSel rc k (length (ll_tokens l) - 1)) x_number = Ok (Some (mkSel rc s s, (tt, text)))
       /\ first_number l lg k s /\ number l lg s text.
Proof.
  intros Hk. unfold find_first_by, find_by, range_incl, line_of, rc. cbn [start_idx end_idx sel_line rc_line].
  replace (S (length (ll_tokens l) - 1) - k) with (length (ll_tokens l) - k) by lia.
  set (m := length (ll_tokens l) - k). assert (Hm : k + m = length (ll_tokens l)) by (unfold m; lia). clearbody m. clear Hk.
  revert k Hm. induction m as [|m IH]; intros k Hm.
  - left. split; [reflexivity|]. intros i Hi C. apply is_number_lt in C. lia.
  - cbn [seq]. rewrite flat_mapM_cons. destruct (nth_error_lt (ll_tokens l) k) as (tok & Hn); [lia|].
    unfold x_number at 1 3. rewrite (tagged_text_at l lg NATN k tok H Hn). cbn [bind].
    assert (HX : flat_mapM (fun i => ms <- x_number (Fwd i) l;; Ok (map (fun '(out, j) => (mkSel (mkRc id l) i j, out)) ms)) (seq (S k) m)
       = Ok (flat_map (fun i => match nth_error (ll_tokens l) i with
             | Some tok => map (fun '(out, j) => (mkSel (mkRc id l) i j, out)) (map (fun a => (a, i)) (flat_map (fun s => map (fun _ => (tt, s)) (tagged NATN i lg)) (text_of tok)))
             | None => [] end) (seq (S k) m))).
    { apply flat_mapM_ok. intros i Hi. apply in_seq in Hi. destruct (nth_error_lt (ll_tokens l) i) as (tok' & Hn'); [lia|].
      unfold x_number. rewrite (tagged_text_at l lg NATN i tok' H Hn'). rewrite Hn'. reflexivity. }
    destruct (number_dec_at k) as [t|] eqn:EN.
    + right. exists k, t. apply number_dec_at_spec in EN. split; [|split].
      * pose proof EN as EN'. apply number_dec_at_spec in EN'. unfold number_dec_at in EN'. rewrite Hn in EN'.
        unfold text_of. destruct (token tok) as [s' tag|]; [|discriminate]. destruct (tagged NATN k lg) as [|w ws]; [discriminate|].
        inversion EN'; subst. cbn [flat_map map app]. rewrite HX. reflexivity.
      * split; [lia|]. split; [now exists t|]. intros i Hi. lia.
      * auto.
    + assert (E0 : flat_map (fun s => map (fun _ => (tt, s)) (tagged NATN k lg)) (text_of tok) = []).
      { unfold number_dec_at in EN. rewrite Hn in EN. unfold text_of. destruct (token tok) as [s' tag|]; [|reflexivity].
        destruct (tagged NATN k lg); [reflexivity|discriminate]. }
      rewrite E0. cbn [map app bind]. apply number_dec_at_none in EN.
      destruct (IH (S k)) as [(E1 & E2)|(s & t & E1 & E2 & E3)]; [lia| |].
      * left. split.
        -- unfold rmap in *. destruct (flat_mapM _ (seq (S k) m)); cbn [bind] in *; auto.
        -- intros i Hi. destruct (Nat.eq_dec i k) as [->|]; auto. apply E2. lia.
      * right. exists s, t. split; [|split; auto].
        -- unfold rmap in *. destruct (flat_mapM _ (seq (S k) m)); cbn [bind] in *; auto.
        -- destruct E2 as (F1 & F2 & F3). split; [lia|]. split; auto. intros i Hi.
           destruct (Nat.eq_dec i k) as [->|]; auto. apply F3. lia.
Qed.

Lemma amount_loop_spec fuel : forall k acc, k < length (ll_tokens l) -> length (ll_tokens l) < fuel + k ->
  (exists p, amount_loop parse r fuel (mkSel rc k (length (ll_tokens l) - 1)) acc = Panic p /\ amounts_fail l lg r parse k)
  \/ exists ass, amount_loop parse r fuel (mkSel rc k (length (ll_tokens l) - 1)) acc = Ok (acc ++ ass)
       /\ amounts l lg r parse k (map as_pair ass).
Proof.
  induction fuel as [|fuel IH]; intros k acc Hk HF; [simpl in HF; lia|].
  cbn [amount_loop].
  destruct (first_number_found k Hk) as [(E1 & E2)|(s & text & E1 & E2 & E3)]; rewrite E1; cbn [bind].
  - right. exists []. rewrite app_nil_r. split; auto. now constructor.
  - assert (Hs : k <= s) by apply E2. pose proof (number_lt _ _ E3) as Hs'.
    destruct (round_spec fuel s text E3) as [(p & e & t & EP & HG & HR)|(e & u & t & o & EP & EO & HA)]; [lia| |].
    + left. exists p. split; [|eapply AF_unreadable; eauto].
      destruct (delim_loop r fuel (mkSel rc s s) None text) as [st| |]; cbn [bind] in *; [|inversion EP; auto|discriminate].
      rewrite EP. reflexivity.
    + pose proof (amount_bounds _ _ _ _ HA) as (HB1 & HB2 & _).
      destruct (delim_loop r fuel (mkSel rc s s) None text) as [st| |]; cbn [bind] in *; try discriminate.
      rewrite EP. cbn [bind]. destruct (parse t) as [d|] eqn:EPs; cbn [expect bind].
      * rewrite EO.
        assert (ES : exists left, split_with (mkSel rc k (length (ll_tokens l) - 1)) (mkSel rc s u)
          = Ok (left, selection_from (mkSel rc k (length (ll_tokens l) - 1)) (S u) (length (ll_tokens l) - 1))).
        { unfold split_with. cbn [sel_line start_idx end_idx]. rewrite N.eqb_refl. eauto. }
        destruct ES as (left & ES). rewrite ES. cbn [bind].
        destruct (Nat.eq_dec (S u) (length (ll_tokens l))) as [EU|NU].
        -- replace (selection_from (mkSel rc k (length (ll_tokens l) - 1)) (S u) (length (ll_tokens l) - 1)) with (@None LLSelection).
           ++ right. exists [finish_with_attr (t := TAmount) (mkSel rc s e) d]. split; [reflexivity|].
              simpl. eapply AS_some; eauto. constructor. intros i Hi C. apply is_number_lt in C. lia.
           ++ symmetry. apply selection_from_none. cbn [start_idx end_idx]. lia.
        -- replace (selection_from (mkSel rc k (length (ll_tokens l) - 1)) (S u) (length (ll_tokens l) - 1))
             with (Some (mkSel rc (u + 1) (length (ll_tokens l) - 1))).
           2:{ symmetry. apply selection_from_spec. cbn [start_idx end_idx sel_line]. repeat split; lia. }
           cbn [bind].
           destruct (IH (u + 1) (acc ++ [finish_with_attr (t := TAmount) (mkSel rc s e) d])) as [(p & EI & HI)|(ass & EI & HI)]; [lia|lia| |].
           ++ left. exists p. split; [exact EI|]. eapply AF_later; eauto.
           ++ right. exists (finish_with_attr (t := TAmount) (mkSel rc s e) d :: ass). split.
              ** rewrite <- app_assoc in EI. exact EI.
              ** simpl. eapply AS_some; eauto.
      * left. eexists. split; [reflexivity|]. eapply AF_parse; eauto.
Qed.

Lemma first_number_fun k s1 s2 : first_number l lg k s1 -> first_number l lg k s2 -> s1 = s2.
Proof.
  intros (A1 & A2 & A3) (B1 & B2 & B3). destruct (lt_eq_lt_dec s1 s2) as [[C|C]|C]; auto; exfalso.
  - apply (B3 s1); auto.
  - apply (A3 s2); auto.
Qed.

Lemma first_number_none k s : first_number l lg k s -> ~ (forall i, k <= i -> ~ is_number l lg i).
Proof. intros (H1 & H2 & _) C. now apply (C s). Qed.

Lemma amounts_fun k out1 : amounts l lg r parse k out1 -> forall out2, amounts l lg r parse k out2 -> out1 = out2.
Proof.
  induction 1 as [k HN | k s e u t d out HF HA HP HO IH]; intros out2 H2; inversion H2; subst; auto.
  - exfalso. eapply first_number_none; eauto.
  - exfalso. eapply first_number_none; eauto.
  - pose proof (first_number_fun _ _ _ HF H0). subst s0. destruct (amount_fun _ _ _ _ _ _ _ HA H1) as (-> & -> & ->).
    rewrite HP in H3. inversion H3; subst. f_equal. auto.
Qed.

Lemma amounts_or_fail k out : amounts l lg r parse k out -> ~ amounts_fail l lg r parse k.
Proof.
  induction 1 as [k HN | k s e u t d out HF HA HP HO IH]; intros C; inversion C; subst.
  - eapply first_number_none; eauto.
  - eapply first_number_none; eauto.
  - eapply first_number_none; eauto.
  - pose proof (first_number_fun _ _ _ HF H0). subst s0. destruct (amount_fun _ _ _ _ _ _ _ HA H1) as (-> & -> & ->). congruence.
  - pose proof (first_number_fun _ _ _ HF H0). subst s0. apply H2.
    assert (HX : forall e' t', groups_at l lg r s e' t' -> (readable l lg (e' + 1) \/ is_delimiter lg r (e' + 1) \/ is_decimal lg r (e' + 1)) ->
       ~ (is_delimiter lg r (e' + 1) /\ is_number l lg (e' + 2)) -> readable l lg (e0 + 1)).
    { intros e' t' HG HR HE. destruct (lt_eq_lt_dec e0 e') as [[L|L]|L].
      - destruct (groups_next _ _ _ _ _ H1 HG L) as [HD _]. intros _. eapply has_char_attributed; eauto.
      - subst. destruct HR as [HR|[HR|HR]]; auto; intros _; eapply has_char_attributed; eauto.
      - exfalso. apply HE. exact (groups_next _ _ _ _ _ HG H1 L). }
    destruct HA as [e t HG | e t HG Hd | e t1 t2 HG Hnd Hd Hn | e t HG Hnd Hd | e t1 t2 HG Hr Hnd Hd Hn];
      eapply HX; try exact HG; try tauto.
  - pose proof (first_number_fun _ _ _ HF H0). subst s0. destruct (amount_fun _ _ _ _ _ _ _ HA H1) as (-> & -> & ->). auto.
Qed.

End OneLine.

Lemma amount_go_spec parse r id l lg : History l lg -> ll_tokens l <> [] ->
  (exists p, amount_go parse r (whole id l) = Panic p /\ amounts_fail l lg r parse 0)
  \/ exists ass, amount_go parse r (whole id l) = Ok (mkGo ass false) /\ amounts l lg r parse 0 (map as_pair ass).
Proof.
  intros H HN. assert (HL : 0 < length (ll_tokens l)) by (destruct (ll_tokens l); [easy|simpl; lia]).
  unfold amount_go, no_retain, whole, line_len, line_of. cbn [sel_line rc_line].
  destruct (amount_loop_spec id l lg r H parse (2 + length (ll_tokens l)) 0 [] HL) as [(p & E & HF)|(ass & E & HA)]; [lia| |].
  - left. exists p. rewrite E. auto.
  - right. exists ass. rewrite E. auto.
Qed.

Lemma amounts_inside l lg r parse k out : History l lg -> amounts l lg r parse k out ->
  Forall (fun x => k <= fst (fst x) /\ fst (fst x) <= snd (fst x) < length (ll_tokens l)) out.
Proof.
  intros H. induction 1 as [k HN | k s e u t d out HF HA HP HO IH]; constructor.
  - pose proof (amount_bounds l lg r H _ _ _ _ HA). simpl. destruct HF. lia.
  - eapply Forall_impl; [|exact IH]. intros [[a b] c] Hx. pose proof (amount_bounds l lg r H _ _ _ _ HA). destruct HF. simpl in *. lia.
Qed.

Lemma amounts_run parse r id l lg out : History l lg -> amounts l lg r parse 0 out -> runs_to id l lg (amount_go parse r) out.
Proof.
  intros H HA. apply runs_to_intro; auto.
  - intros HE. inversion HA; subst; auto. destruct H0 as (_ & HX & _). apply is_number_lt in HX. rewrite HE in HX. simpl in HX. lia.
  - intros HN. destruct (amount_go_spec parse r id l lg H HN) as [(p & E & HF)|(ass & E & HA')].
    + exfalso. eapply amounts_or_fail; eauto.
    + exists ass. split; auto. eapply amounts_fun; eauto.
  - eapply Forall_impl; [|eapply amounts_inside; eauto]. simpl. intros. lia.
Qed.

(** C44 (and the soundness of everything below): a run of the amount resolver
    either assigns the amounts of the line, or panics because looking for them
    fails; exactly one of the two. *)
Lemma thm_C44_run :
  forall parse r id l lg,
    History l lg ->
    (exists out, amounts l lg r parse 0 out /\ runs_to id l lg (amount_go parse r) out
       /\ (forall out', amounts l lg r parse 0 out' -> out' = out) /\ ~ amounts_fail l lg r parse 0)
    \/ (amounts_fail l lg r parse 0 /\ (forall out, ~ amounts l lg r parse 0 out)
        /\ exists p, run id l (amount_go parse r) = Panic p).
Proof.
  intros parse r id l lg H.
  assert (HD : (exists out, amounts l lg r parse 0 out)
     \/ (amounts_fail l lg r parse 0 /\ exists p, run id l (amount_go parse r) = Panic p)).
  { destruct (ll_tokens l) as [|t0 ts] eqn:ET.
    - left. exists []. constructor. intros i _ C. apply is_number_lt in C. rewrite ET in C. simpl in C. lia.
    - assert (HN : ll_tokens l <> []) by (rewrite ET; discriminate).
      destruct (amount_go_spec parse r id l lg H HN) as [(p & E & HF)|(ass & E & HA')]; [right|left; eauto].
      split; auto. exists p. unfold run. rewrite ET. rewrite E. reflexivity. }
  destruct HD as [(out & HA)|(HF & HP)].
  - left. exists out. split; auto. split; [now apply amounts_run|]. split.
    + intros out' HA'. eapply amounts_fun; eauto.
    + eapply amounts_or_fail; eauto.
  - right. split; auto. split; auto. intros out HA. eapply amounts_or_fail; eauto.
Qed.

Lemma thm_C44_panics_iff :
  forall parse r id l lg,
    History l lg ->
    ((exists p, run id l (amount_go parse r) = Panic p) <-> amounts_fail l lg r parse 0).
Proof.
  intros parse r id l lg H. destruct (thm_C44_run parse r id l lg H) as [(out & HA & (l' & E & _) & _ & HN)|(HF & _ & HP)].
  - split; [|tauto]. intros (p & E'). congruence.
  - tauto.
Qed.

(** C44: on lines of text tokens only the number parser can be the reason. *)
Lemma thm_C44_text_only :
  forall parse r id l lg p,
    History l lg -> text_only l -> run id l (amount_go parse r) = Panic p ->
    exists s e u text, amount_at l lg r s e u text /\ parse text = None.
Proof.
  intros parse r id l lg p H HT HP.
  assert (HF : amounts_fail l lg r parse 0) by (apply (thm_C44_panics_iff parse r id l lg H); eauto).
  clear HP. induction HF as [k s e u t HF HA HP | k s e t HF HG HR | k s e u t d HF HA HP HL IH];
    [exists s, e, u, t; auto| |auto].
  exfalso. apply HR. intros Hl. destruct (attributed_dec (e + 1) lg) as [|N]; auto. exfalso.
  apply (thm_C18_unattributed l lg (e + 1) H Hl) in N. destruct N as (tok & Hn & Et & _).
  apply nth_error_In in Hn. now apply (HT tok).
Qed.

(** C39 *)
Lemma thm_C39_terminates :
  forall parse r id l lg, History l lg -> run id l (amount_go parse r) <> OutOfFuel.
Proof.
  intros parse r id l lg H C. destruct (thm_C44_run parse r id l lg H) as [(out & _ & (l' & E & _) & _)|(_ & _ & p & E)]; congruence.
Qed.

Lemma thm_C39_ordered :
  forall parse r id l lg l',
    History l lg -> run id l (amount_go parse r) = Ok l' ->
    exists out, amounts l lg r parse 0 out /\ runs_to id l lg (amount_go parse r) out
      /\ StronglySorted (fun x y : LRange * Decimal => snd (fst x) < fst (fst y)) out
      /\ forall s e d, In ((s, e), d) out -> s <= e < length (ll_tokens l) /\ is_number l lg s /\ is_number l lg e.
Proof.
  intros parse r id l lg l' H HR.
  destruct (thm_C44_run parse r id l lg H) as [(out & HA & HX & _)|(_ & _ & p & E)]; [|congruence].
  exists out. split; auto. split; auto. clear HX HR l'. split.
  - induction HA as [k HN | k s e u t d out HF HA HP HO IH]; constructor; auto.
    eapply Forall_impl; [|exact (amounts_inside _ _ _ _ _ _ H HO)]. intros [[a b] c] Hx. simpl in *.
    pose proof (amount_bounds l lg r H _ _ _ _ HA). lia.
  - induction HA as [k HN | k s e u t d out HF HA HP HO IH]; [easy|]. intros s' e' d' [E|Hin]; [|eauto].
    inversion E; subst. pose proof (amount_bounds l lg r H _ _ _ _ HA). repeat split; try tauto; lia.
Qed.

(** C40: every number token is in exactly one amount. *)
Lemma thm_C40_covered :
  forall parse r l lg out i,
    History l lg -> amounts l lg r parse 0 out -> numbers_apart l lg r -> is_number l lg i ->
    exists x, In x out /\ fst (fst x) <= i <= snd (fst x)
      /\ forall y, In y out -> fst (fst y) <= i <= snd (fst y) -> y = x.
Proof.
  intros parse r l lg out i H HA HN Hi. assert (Hk : 0 <= i) by lia. revert HA Hk. generalize 0.
  intros k HA. induction HA as [k HX | k s e u t d out HF HA HP HO IH]; intros Hk.
  - exfalso. now apply (HX i).
  - pose proof (amount_bounds l lg r H _ _ _ _ HA) as (B1 & B2 & _). destruct HF as (F1 & F2 & F3).
    pose proof (amounts_inside _ _ _ _ _ _ H HO) as HI. rewrite Forall_forall in HI.
    assert (Hs : s <= i). { destruct (le_lt_dec s i); auto. exfalso. now apply (F3 i). }
    destruct (le_lt_dec i e) as [He|He].
    + exists ((s, e), d). split; [now left|]. split; [simpl; lia|]. intros y [<-|Hy] Hc; auto.
      specialize (HI y Hy). destruct y as [[a b] c]. simpl in HI, Hc. lia.
    + assert (Hu : u < i).
      { destruct (le_lt_dec i u) as [Hu|]; auto. exfalso.
        destruct HA as [e t HG | e t HG Hd | e t1 t2 HG Hnd Hd Hn | e t HG Hnd Hd | e t1 t2 HG Hr Hnd Hd Hn]; try lia;
          assert (i = e + 1) by lia; subst i; apply HN in Hi; tauto. }
      destruct IH as (x & Hx & Hc & Hy); [lia|]. exists x. split; [now right|]. split; auto.
      intros y [<-|Hin] Hc'; [simpl in Hc'; lia|auto].
Qed.

Lemma plain_number l lg i text : History l lg -> plain TTextTag l lg -> number l lg i text -> all_digits text.
Proof.
  intros H HP (tok & tag & Hn & Et & HT). rewrite (plain_plain_tags l lg HP i tok text tag Hn Et) in HT.
  destruct HT as [->|[]]. eapply (thm_C05_natn_any_line l lg tok text NATN); eauto. now apply nth_error_In in Hn.
Qed.

Lemma thm_C40_numbers_apart :
  forall r l lg,
    History l lg -> plain TTextTag l lg -> plain TChar l lg ->
    Forall (fun c => decimal_digit c = false) (decimal r :: delimiters r) -> numbers_apart l lg r.
Proof.
  intros r l lg H HP HC HD i (text & Hi).
  pose proof (plain_number l lg i text H HP Hi) as [HN HF]. destruct Hi as (tok & tag & Hn & Et & _).
  assert (HX : forall cs, (forall c, In c cs -> decimal_digit c = false) -> ~ has_char lg cs i).
  { intros cs Hcs (c & Hc & Hin). rewrite (plain_chars l lg i tok HC Hn), Et in Hc.
    destruct text as [|c' [|]]; simpl in Hc; try easy. destruct Hc as [->|[]]. inversion HF; subst.
    rewrite (Hcs c Hin) in H2. discriminate. }
  inversion HD; subst. rewrite Forall_forall in H3. split; apply HX; auto. intros c [<-|[]]. auto.
Qed.

(** C41: the value of an amount is what its text parses to. *)
Lemma thm_C41_value :
  forall parse r l lg out s e d,
    amounts l lg r parse 0 out -> In ((s, e), d) out ->
    exists u text, amount_at l lg r s e u text /\ parse text = Some d.
Proof.
  intros parse r l lg out s e d HA. induction HA as [k HX | k s' e' u t d' out HF HA HP HO IH]; [easy|].
  intros [E|Hin]; [|auto]. inversion E; subst. eauto.
Qed.

Lemma spells_one l lg r i p : contributes l lg r i p -> spells l lg r i i p.
Proof.
  intros H. exists [p]. split; [cbn [length]; lia|]. split; [|simpl; now rewrite app_nil_r].
  intros [|j] q E; simpl in E; [|destruct j; discriminate]. inversion E; subst. now rewrite Nat.add_0_r.
Qed.

Lemma spells_snoc l lg r s e text p : s <= e -> spells l lg r s e text -> contributes l lg r (e + 1) p ->
  spells l lg r s (e + 1) (text ++ p).
Proof.
  intros Hs (ps & HL & HC & ->) Hp. exists (ps ++ [p]). split; [rewrite app_length; cbn [length]; lia|]. split.
  - intros j q E. destruct (le_lt_dec (length ps) j) as [L|L].
    + rewrite nth_error_app2 in E by auto. destruct (j - length ps) as [|x] eqn:Ej; simpl in E; [|destruct x; discriminate].
      inversion E; subst. replace (s + j) with (e + 1) by lia. auto.
    + rewrite nth_error_app1 in E by auto. auto.
  - rewrite concat_app. simpl. now rewrite app_nil_r.
Qed.

Lemma groups_spell l lg r s e text : numbers_apart l lg r -> groups_at l lg r s e text -> spells l lg r s e text.
Proof.
  intros HN. induction 1 as [text Hn | e t1 t2 HG IH Hd Hn].
  - apply spells_one. now left.
  - pose proof (groups_bounds l lg r _ _ _ HG) as ((HB & _) & _).
    replace (e + 2) with (e + 1 + 1) by lia. apply spells_snoc; [lia| |left; now replace (e + 1 + 1) with (e + 2) by lia].
    rewrite <- (app_nil_r t1). apply spells_snoc; auto. right. left. split; auto.
    intros C. apply HN in C. destruct C as [C _]. auto.
Qed.

(** C41: the text is what the tokens of the amount contribute, plus a point if
    the amount is followed by a dangling decimal sign. *)
Lemma thm_C41_text :
  forall r l lg s e u text,
    numbers_apart l lg r -> amount_at l lg r s e u text ->
    (u = e /\ spells l lg r s e text)
    \/ (u = e + 1 /\ is_delimiter lg r u /\ spells l lg r s e text)
    \/ (u = e + 1 /\ is_decimal lg r u /\ ~ is_delimiter lg r u /\ ~ is_number l lg (u + 1)
        /\ exists body, spells l lg r s e body /\ text = body ++ point).
Proof.
  intros r l lg s e u text HN HA.
  destruct HA as [e t HG | e t HG Hd | e t1 t2 HG Hnd Hd Hn | e t HG Hnd Hd | e t1 t2 HG Hr Hnd Hd Hn];
    pose proof (groups_spell _ _ _ _ _ _ HN HG) as HS; pose proof (groups_bounds l lg r _ _ _ HG) as ((HB & _) & _).
  - left. auto.
  - right. left. auto.
  - left. split; auto. replace (e + 2) with (e + 1 + 1) by lia. rewrite app_assoc.
    apply spells_snoc; [lia| |left; now replace (e + 1 + 1) with (e + 2) by lia]. apply spells_snoc; auto.
    right. right. split; auto. intros C. apply HN in C. destruct C as [_ C]. auto.
  - right. right. split; auto. split; auto. split; auto. split; [now replace (e + 1 + 1) with (e + 2) by lia|]. eauto.
  - left. split; auto. apply spells_snoc; auto. now left.
Qed.

Lemma all_digits_app a b : all_digits a -> all_digits b -> all_digits (a ++ b).
Proof. intros [H1 H2] [H3 H4]. split; [destruct a; easy|]. now apply Forall_app. Qed.

(** C41: with the tokenizer's tags, the text is a decimal number. *)
Lemma thm_C41_decimal :
  forall r l lg s e u text,
    History l lg -> plain TTextTag l lg -> amount_at l lg r s e u text -> decimal_text text.
Proof.
  intros r l lg s e u text H HP HA.
  assert (HG : forall e t, groups_at l lg r s e t -> all_digits t).
  { intros e0 t0. induction 1 as [t Hn | e1 t1 t2 HG IH Hd Hn].
    - eapply plain_number; eauto.
    - apply all_digits_app; auto. eapply plain_number; eauto. }
  destruct HA as [e t HA | e t HA Hd | e t1 t2 HA Hnd Hd Hn | e t HA Hnd Hd | e t1 t2 HA Hr Hnd Hd Hn].
  - left. eauto.
  - left. eauto.
  - right. exists t1, t2. split; eauto. split; auto. right. eapply plain_number; eauto.
  - right. exists t, []. split; eauto.
  - left. apply all_digits_app; eauto. eapply plain_number; eauto.
Qed.

(** C42: numbers are joined across a delimiter or the decimal sign, except that the
    last number of an amount may directly follow the one before it. *)
Lemma thm_C42_partial :
  forall r l lg s e u text i,
    History l lg -> numbers_apart l lg r -> amount_at l lg r s e u text ->
    s <= i < e -> is_number l lg i ->
    ((is_delimiter lg r (i + 1) \/ is_decimal lg r (i + 1)) /\ is_number l lg (i + 2) /\ i + 2 <= e)
    \/ (is_number l lg (i + 1) /\ i + 1 = e).
Proof.
  intros r l lg s e u text i H HN HA Hi HI.
  assert (HG : forall e t, groups_at l lg r s e t -> s <= i < e ->
     is_delimiter lg r (i + 1) /\ is_number l lg (i + 2) /\ i + 2 <= e).
  { intros e0 t0. induction 1 as [t Hn | e1 t1 t2 HG IH Hd Hn]; intros Hx; [lia|].
    destruct (le_lt_dec e1 i) as [L|L].
    - destruct (Nat.eq_dec i e1) as [->|N].
      + split; auto. split; [eexists; eauto|lia].
      + exfalso. assert (i = e1 + 1) by lia. subst. apply HN in HI. destruct HI as [HI _]. auto.
    - destruct IH as (A & B & C); [lia|]. split; auto. split; auto. lia. }
  destruct HA as [e t HA | e t HA Hd | e t1 t2 HA Hnd Hd Hn | e t HA Hnd Hd | e t1 t2 HA Hr Hnd Hd Hn].
  - left. destruct (HG _ _ HA) as (A & B & C); auto.
  - left. destruct (HG _ _ HA) as (A & B & C); auto.
  - left. destruct (le_lt_dec e i) as [L|L].
    + destruct (Nat.eq_dec i e) as [->|N].
      * split; auto. split; [eexists; eauto|lia].
      * exfalso. assert (i = e + 1) by lia. subst. apply HN in HI. destruct HI as [_ HI]. auto.
    + destruct (HG _ _ HA) as (A & B & C); [lia|]. split; auto. split; auto. lia.
  - left. destruct (HG _ _ HA) as (A & B & C); auto.
  - destruct (le_lt_dec e i) as [L|L].
    + right. assert (i = e) by lia. subst. split; auto. eexists; eauto.
    + left. destruct (HG _ _ HA) as (A & B & C); [lia|]. split; auto. split; auto. lia.
Qed.

(** C42 as claimed, in lines without two neighbouring numbers. *)
Lemma thm_C42_no_neighbours :
  forall r l lg s e u text i,
    History l lg -> numbers_apart l lg r ->
    (forall j, ~ (is_number l lg j /\ is_number l lg (j + 1))) ->
    amount_at l lg r s e u text -> s <= i < e -> is_number l lg i ->
    (is_delimiter lg r (i + 1) \/ is_decimal lg r (i + 1)) /\ is_number l lg (i + 2) /\ i + 2 <= e.
Proof.
  intros r l lg s e u text i H HN HX HA Hi HI.
  destruct (thm_C42_partial r l lg s e u text i H HN HA Hi HI) as [?|[C _]]; auto. exfalso. now apply (HX i).
Qed.

Lemma firstn_snoc {A} (l : list A) k a : nth_error l k = Some a -> firstn (S k) l = firstn k l ++ [a].
Proof.
  revert k. induction l as [|x l IH]; intros k Hk; [destruct k; discriminate|]. destruct k as [|k].
  - simpl in Hk. inversion Hk. reflexivity.
  - change (x :: firstn (S k) l = x :: (firstn k l ++ [a])). f_equal. now apply IH.
Qed.

(** C43: a number in groups with a fraction is one amount. *)
Lemma thm_C43_grouped :
  forall parse r id l lg gs f d,
    History l lg -> grouped_number l lg r gs f -> parse (concat gs ++ point ++ f) = Some d ->
    amounts l lg r parse 0 [((0, 2 * length gs), d)]
    /\ runs_to id l lg (amount_go parse r) [((0, 2 * length gs), d)].
Proof.
  intros parse r id l lg gs f d H (HN & HL & HG & HD & HP & HNP & HF) HX.
  assert (HA : amounts l lg r parse 0 [((0, 2 * length gs), d)]).
  { assert (HC : forall k, k < length gs -> groups_at l lg r 0 (2 * k) (concat (firstn (S k) gs))).
    { induction k as [|k IH]; intros Hk.
      - destruct gs as [|g gs]; [easy|]. simpl. rewrite app_nil_r. constructor. now apply (HG 0).
      - destruct (nth_error_lt gs (S k) Hk) as (g & Eg). replace (2 * S k) with (2 * k + 2) by lia.
        assert (EF : firstn (S (S k)) gs = firstn (S k) gs ++ [g]).
        { now apply firstn_snoc. }
        rewrite EF, concat_app. simpl (concat [g]). rewrite app_nil_r. apply G_more.
        + apply IH. lia.
        + apply HD. lia.
        + replace (2 * k + 2) with (2 * S k) by lia. apply HG. auto. }
    destruct gs as [|g0 gs0] eqn:Egs; [easy|]. rewrite <- Egs in *. set (m := length gs - 1).
    assert (Hm : S m = length gs) by (unfold m; rewrite Egs; simpl; lia).
    specialize (HC m). rewrite Hm, firstn_all in HC.
    eapply (AS_some _ _ _ _ _ 0 (2 * length gs) (2 * length gs)).
    - split; [lia|]. split; [|intros; lia]. exists g0. apply (HG 0). now rewrite Egs.
    - replace (2 * length gs) with (2 * m + 2) by lia. apply A_decimal.
      + apply HC. lia.
      + replace (2 * m + 1) with (2 * length gs - 1) by lia. auto.
      + replace (2 * m + 1) with (2 * length gs - 1) by lia. auto.
      + replace (2 * m + 2) with (2 * length gs) by lia. exact HF.
    - exact HX.
    - constructor. intros i Hi C. apply is_number_lt in C. lia. }
  split; auto. now apply amounts_run.
Qed.

End ThmAmount.
