(** C86: functions given by users, with memory and panics. *)

From Verif Require Export ThmLaws ThmDisplay ModelCalls SpecMem SpecState.

Section ThmCalls.
Context {UC : Unicode} {U : UserTypes}.

(** ** Creation with a size function that has memory *)

Lemma groups_zero sz input groups : Forall2 (fun it g => input_ltokens sz it = Ok g) input groups ->
  exists groups0, Forall2 (fun it g => input_ltokens size_zero it = Ok g) input groups0 /\ map (map fst) groups0 = map (map fst) groups.
Proof.
  induction 1 as [|it g input groups E H (groups0 & IH1 & IH2)]; [exists []; split; constructor|].
  assert (R : resized it it) by (destruct it; constructor).
  destruct (resized_tokens sz size_zero it it g R E) as (g0 & E0 & EF).
  exists (g0 :: groups0). split; [now constructor|]. cbn [map]. congruence.
Qed.

Lemma nonempty_fst (a b : list (list (LToken * N))) : map (map fst) a = map (map fst) b ->
  Forall (fun g => g <> []) b -> Forall (fun g => g <> []) a.
Proof.
  intros E H. assert (X : Forall (fun g => g <> []) (map (map fst) a)).
  { rewrite E. apply Forall_map. eapply Forall_impl; [|exact H]. now intros [|x g]. }
  rewrite Forall_map in X. eapply Forall_impl; [|exact X]. now intros [|x g].
Qed.

Lemma words_layout add i p xs : words_of (map token (layout_by add i p xs)) = words_of (map fst xs).
Proof. now rewrite layout_by_tokens. Qed.

Lemma shaped_cut (SL : SegmenterLaws) input groups0 : Forall2 (fun it g => input_ltokens size_zero it = Ok g) input groups0 ->
  Forall (fun g => g <> []) groups0 -> forall groups, map (map fst) groups = map (map fst) groups0 -> Forall2 shaped_as input groups ->
  Forall2 (fun it g => cut_of it (map fst g) /\ (forall n ats, it = InCustom n ats -> map snd g = [n])) input groups.
Proof.
  intros HG HN. pose proof (groups_cut SL size_zero input groups0 HG HN) as HC. clear HG HN.
  induction HC as [|it g0 input groups0 (C & _) HC IH]; intros [|g groups] EG HS; try discriminate EG; inversion HS; subst; constructor; auto.
  - injection EG as E1 E2. rewrite E1. split; [exact C|]. intros n ats ->. cbn [shaped_as] in *. now subst g.
  - apply IH; auto. now injection EG.
Qed.

(** C86: each text token has its size asked for once, in order, and gets the answer; positions
    follow from the answers. *)
Lemma thm_C86_sizes :
  forall (SL : SegmenterLaws) M (size : str -> mem M N) tg input st st' l,
    Forall wf_input input ->
    mem_create_line size tg input st = (st', Ok l) ->
    exists groups : list (list (LToken * N)),
      Forall2 (fun it g => cut_of it (map fst g) /\ (forall n ats, it = InCustom n ats -> map snd g = [n])) input groups
      /\ map token (ll_tokens l) = map fst (concat groups)
      /\ in_turn (calling size) (words_of (map token (ll_tokens l))) st st' (Ok (text_sizes (concat groups)))
      /\ ((total (concat groups) < 2 ^ usize_bits tg)%N -> ll_tokens l = layout (concat groups))
      /\ (overflow_checks tg = true -> (total (concat groups) < 2 ^ usize_bits tg)%N)
      /\ (overflow_checks tg = false -> ll_tokens l = layout_mod (2 ^ usize_bits tg) (concat groups)).
Proof.
  intros SL M size tg input st st' l HW H.
  destruct (mem_create_facts size tg input st st' l HW H) as (groups0 & groups & HG & EG & HS & HT & HN & HF & HL & _).
  exists groups. fold (usize_mod tg).
  split; [exact (shaped_cut SL input groups0 HG (nonempty_fst _ _ (eq_sym EG) HN) groups EG HS)|].
  rewrite HL, words_layout, layout_by_tokens. split; [reflexivity|]. split; [exact HT|]. split; [|split].
  - intros Hlt. destruct (wadd_fold_exact tg (concat groups) 0 0%N) as [E _]; auto.
  - intros C. destruct HF as [F|[F|F]]; [congruence| |exact F]. rewrite F. apply usize_mod_pos.
  - intros _. apply layout_by_ext. intros a b. apply wadd_mod. pose proof (usize_mod_pos tg). lia.
Qed.

(** C86: nothing but positions depends on the answers. *)
Lemma thm_C86_sizes_only :
  forall M (size : str -> mem M N) tg tg0 sz0 input st st' l,
    Forall wf_input input ->
    mem_create_line size tg input st = (st', Ok l) ->
    (exists lg, History l lg)
    /\ (overflow_checks tg0 = false -> exists l0, create_line_from_input_tokens tg0 input sz0 = Ok l0)
    /\ forall l0, create_line_from_input_tokens tg0 input sz0 = Ok l0 ->
         map token (ll_tokens l) = map token (ll_tokens l0)
         /\ exists lg, History l lg /\ History l0 lg.
Proof.
  intros M size tg tg0 sz0 input st st' l HW H.
  destruct (mem_create_facts size tg input st st' l HW H) as (groups0 & groups & HG & EG & HS & HT & HN & HF & HL & _).
  split; [eexists; eapply H_create_calls; eauto|]. split.
  - intros HO. assert (X : exists gs, Forall2 (fun it g => input_ltokens sz0 it = Ok g) input gs /\ map (map fst) gs = map (map fst) groups0).
    { clear -HG. induction HG as [|it g input groups E HG (gs & I1 & I2)]; [exists []; split; constructor|].
      assert (R : resized it it) by (destruct it; constructor).
      destruct (resized_tokens size_zero sz0 it it g R E) as (g1 & E1 & EF). exists (g1 :: gs). split; [now constructor|].
      cbn [map]. congruence. }
    destruct X as (gs & X1 & X2).
    destruct (create_ok tg0 sz0 input gs HW X1 (nonempty_fst gs groups ltac:(congruence) HN)) as (l0 & E & _); [now left|eauto].
  - intros l0 E0. destruct (create_facts tg0 sz0 input l0 HW E0) as (gs & G1 & G2 & G3 & G4 & _).
    destruct (groups_zero sz0 input gs G1) as (gs0 & Z1 & Z2).
    assert (gs0 = groups0) by (eapply groups_fun; eauto). subst gs0.
    assert (EE : map (map fst) gs = map (map fst) groups0) by congruence.
    split.
    + rewrite HL, G4, !layout_by_tokens, <- !concat_map_map. congruence.
    + exists (creation_log (map (map fst) groups0) input). split; [eapply H_create_calls; eauto|].
      rewrite <- EE. eapply H_create; eauto.
Qed.

(** C86: a panic is one of the size function, or the total of the sizes asked for overflows. *)
Lemma thm_C86_sizes_panic :
  forall (SL : SegmenterLaws) M (size : str -> mem M N) tg tg0 sz0 input st st' p l0,
    Forall wf_input input ->
    create_line_from_input_tokens tg0 input sz0 = Ok l0 ->
    mem_create_line size tg input st = (st', Panic p) ->
    (exists asked unasked, words_of (map token (ll_tokens l0)) = asked ++ unasked
       /\ in_turn (calling size) asked st st' (Panic p))
    \/ (p = POverflow /\ overflow_checks tg = true
        /\ exists before after (groups : list (list (LToken * N))), input = before ++ after
           /\ Forall2 (fun it g => cut_of it (map fst g) /\ (forall n ats, it = InCustom n ats -> map snd g = [n])) before groups
           /\ in_turn (calling size) (words_of (map fst (concat groups))) st st' (Ok (text_sizes (concat groups)))
           /\ (2 ^ usize_bits tg <= total (concat groups))%N).
Proof.
  intros SL M size tg tg0 sz0 input st st' p l0 HW E0 H.
  destruct (create_facts tg0 sz0 input l0 HW E0) as (gs & G1 & G2 & G3 & G4 & _).
  destruct (groups_zero sz0 input gs G1) as (groups0 & Z1 & Z2).
  pose proof (nonempty_fst groups0 gs Z2 G2) as HN0.
  destruct (mem_create_run size tg input groups0 st HW Z1 HN0) as (st1 & r & E & R).
  rewrite H in E. injection E as <- <-. cbn in R. destruct R as [(asked & unasked & W & T)|(before & after & groups & rst & EI & F & HS & T & -> & HF)].
  - left. exists asked, unasked. split; [|exact T]. rewrite G4, words_layout, <- W. f_equal. rewrite <- !concat_map_map. congruence.
  - right. split; [reflexivity|].
    assert (C : overflow_checks tg = true) by (destruct (overflow_checks tg) eqn:C; auto; elim HF; now left).
    split; [exact C|]. exists before, after, groups. split; [exact EI|]. split; [|split; [exact T|]].
    + assert (X : exists g1, Forall2 (fun it g => input_ltokens size_zero it = Ok g) before g1
         /\ Forall (fun g => g <> []) g1 /\ map (map fst) groups = map (map fst) g1).
      { subst input. apply Forall2_app_inv_l in Z1. destruct Z1 as (g1 & g2 & Z11 & _ & ->).
        exists g1. split; [exact Z11|]. apply Forall_app in HN0. split; [tauto|].
        rewrite map_app in F. pose proof (Forall2_length_eq _ _ _ Z11). pose proof (Forall2_length_eq _ _ _ HS).
        assert (L : length (map (map fst) groups) = length (map (map fst) g1)) by (rewrite !map_length; congruence).
        apply (f_equal (firstn (length (map (map fst) g1)))) in F. rewrite <- L in F at 1.
        rewrite !firstn_app, L, !Nat.sub_diag, !firstn_O, !app_nil_r in F. rewrite <- L in F at 1.
        now rewrite !firstn_all in F. }
      destruct X as (g1 & X1 & X2 & X3). exact (shaped_cut SL before g1 X1 X2 groups X3 HS).
    + fold (usize_mod tg). destruct (N.ltb_spec (total (concat groups)) (usize_mod tg)) as [Hlt|]; [|assumption].
      elim HF. right; right. exact Hlt.
Qed.

(** C86: if the size function answers, the line is created. *)
Lemma thm_C86_sizes_answered :
  forall M (size : str -> mem M N) tg tg0 sz0 input st st' answers l0,
    Forall wf_input input ->
    create_line_from_input_tokens tg0 input sz0 = Ok l0 ->
    in_turn (calling size) (words_of (map token (ll_tokens l0))) st st' (Ok answers) ->
    (exists l, mem_create_line size tg input st = (st', Ok l))
    \/ (overflow_checks tg = true /\ exists st1, mem_create_line size tg input st = (st1, Panic POverflow)).
Proof.
  intros M size tg tg0 sz0 input st st' answers l0 HW E0 HT.
  destruct (create_facts tg0 sz0 input l0 HW E0) as (gs & G1 & G2 & G3 & G4 & _).
  destruct (groups_zero sz0 input gs G1) as (groups0 & Z1 & Z2).
  pose proof (nonempty_fst groups0 gs Z2 G2) as HN0.
  destruct (mem_create_run size tg input groups0 st HW Z1 HN0) as (st1 & r & E & R).
  rewrite E. assert (EW : words_of (map token (ll_tokens l0)) = words_of (map fst (concat groups0))).
  { rewrite G4, words_layout. f_equal. rewrite <- !concat_map_map. congruence. }
  rewrite EW in HT.
  assert (ND : forall asked unasked r, words_of (map fst (concat groups0)) = asked ++ unasked -> in_turn (calling size) asked st st1 r -> exists a, r = Ok a).
  { clear E R. intros asked unasked r0 W T. rewrite W in HT. apply in_turn_prefix in HT. destruct HT as (st2 & cs & ds & T1 & _).
    destruct (in_turn_fun (calling size) asked (calling_fun size) _ _ _ T _ _ T1) as (_ & ->). eauto. }
  destruct r as [l|p|].
  - left. exists l.
    destruct (mem_create_facts size tg input st st1 l HW E) as (groups1 & groups & HG & EG & HS & HT1 & _).
    assert (groups1 = groups0) by (eapply groups_fun; eauto). subst groups1.
    replace (map fst (concat groups)) with (map fst (concat groups0)) in HT1 by (rewrite <- !concat_map_map; congruence).
    destruct (in_turn_fun (calling size) _ (calling_fun size) _ _ _ HT _ _ HT1) as (-> & _). reflexivity.
  - destruct R as [(asked & unasked & W & T)|(before & after & groups & rst & EI & F & HS & T & -> & HF)].
    + destruct (ND _ _ _ W T) as (a & [=]).
    + right. split; [|eauto]. destruct (overflow_checks tg) eqn:C; auto. elim HF; now left.
  - destruct R as (asked & unasked & W & T). destruct (ND _ _ _ W T) as (a & [=]).
Qed.

(** ** Lists of questions *)

(** Dealing out answers to groups of questions. *)
Fixpoint deal {A B C} (n : A -> nat) (h : A -> list B -> list C) (xs : list A) (bs : list B) : list C :=
  match xs with
  | [] => []
  | x :: xs' => h x (firstn (n x) bs) ++ deal n h xs' (skipn (n x) bs)
  end.

Lemma flat_turn {M A B C D} (F : D -> M -> M -> res B -> Prop) (g : A -> mem M (list C)) (ys : A -> list D) (h : A -> list B -> list C) xs :
  (forall x, In x xs -> forall st, exists st' r, in_turn F (ys x) st st' r /\ g x st = (st', rmap (h x) r)) ->
  forall st, exists st' r, in_turn F (flat_map ys xs) st st' r
    /\ mem_flat_mapM g xs st = (st', rmap (deal (fun x => length (ys x)) h xs) r).
Proof.
  unfold mem_flat_mapM, mbind. induction xs as [|x xs IH]; intros HG st; [exists st, (Ok []); split; [constructor|reflexivity]|].
  cbn [flat_map mem_mapM]. unfold mbind. destruct (HG x (or_introl eq_refl) st) as (st1 & r1 & T1 & ->).
  destruct (in_turn_app F (ys x) (flat_map ys xs) st st1 r1 T1) as (A1 & A2).
  destruct r1 as [bs|p|]; cbn [rmap bind].
  - destruct (IH (fun y Hy => HG y (or_intror Hy)) st1) as (st2 & r2 & T2 & E2).
    exists st2, (rmap (app bs) r2). split; [exact (A1 bs eq_refl st2 r2 T2)|].
    pose proof (in_turn_length _ _ _ _ _ T1 bs eq_refl) as L.
    destruct (mem_mapM g xs st1) as [st3 [cs|p|]]; cbn in E2 |- *; destruct r2 as [bs2| |]; try discriminate E2;
      injection E2; try (intros; subst; reflexivity).
    intros EC <-. cbn. rewrite EC. cbn [deal]. rewrite <- L, firstn_app, skipn_app, Nat.sub_diag, firstn_all, skipn_all.
    cbn [firstn skipn app]. now rewrite app_nil_r.
  - exists st1, (Panic p). split; [apply A2; discriminate|reflexivity].
  - exists st1, OutOfFuel. split; [apply A2; discriminate|reflexivity].
Qed.

Lemma filter_turn {M A} (F : A -> M -> M -> res bool -> Prop) (f : A -> mem M bool) xs :
  (forall a st, In a xs -> exists st' r, F a st st' r /\ f a st = (st', r)) ->
  forall st, exists st' r, in_turn F xs st st' r /\ mem_filter f xs st = (st', rmap (those_with xs) r).
Proof.
  induction xs as [|a xs IH]; intros HF st; [exists st, (Ok []); split; [constructor|reflexivity]|].
  cbn [mem_filter]. unfold mbind. destruct (HF a st (or_introl eq_refl)) as (st1 & r1 & H1 & ->).
  destruct r1 as [b|p|]; [|exists st1, (Panic p); split; [now constructor|reflexivity]|exists st1, OutOfFuel; split; [now constructor|reflexivity]].
  destruct (IH (fun a' st' H => HF a' st' (or_intror H)) st1) as (st2 & r2 & H2 & ->).
  exists st2, (rmap (cons b) r2). split; [eapply T_answer; eauto|]. destruct r2 as [bs| |]; try reflexivity. cbn. now destruct b.
Qed.

Lemma in_turn_map {M A B D} (F : D -> M -> M -> res B -> Prop) (k : A -> D) xs : forall st st' r,
  in_turn F (map k xs) st st' r <-> in_turn (fun a => F (k a)) xs st st' r.
Proof.
  induction xs as [|x xs IH]; intros st st' r; (split; intros H; inversion H; subst);
    try apply T_done; try (now apply T_panic); try (now apply T_fuel); (eapply T_answer; [eassumption|now apply IH]).
Qed.

Lemma those_with_app {A} (xs ys : list A) : forall bs cs, length bs = length xs ->
  those_with (xs ++ ys) (bs ++ cs) = those_with xs bs ++ those_with ys cs.
Proof.
  unfold those_with. induction xs as [|x xs IH]; intros [|b bs] cs E; try discriminate E; [reflexivity|].
  injection E as E. cbn. destruct b; cbn; now rewrite IH.
Qed.
Lemma those_with_map {A B} (k : A -> B) xs : forall bs, those_with (map k xs) bs = map k (those_with xs bs).
Proof.
  unfold those_with. induction xs as [|x xs IH]; intros [|b bs]; try reflexivity. cbn. destruct b; cbn; now rewrite IH.
Qed.
Lemma deal_those {A D C} (ys : A -> list D) (g : D -> C) xs : forall bs, length bs = length (flat_map ys xs) ->
  deal (fun x => length (ys x)) (fun x bs => map g (those_with (ys x) bs)) xs bs = map g (those_with (flat_map ys xs) bs).
Proof.
  induction xs as [|x xs IH]; intros bs E; [destruct bs; [reflexivity|discriminate E]|].
  cbn [deal flat_map] in *. rewrite app_length in E.
  rewrite <- (firstn_skipn (length (ys x)) bs) at 3. rewrite those_with_app by (rewrite firstn_length; lia).
  rewrite map_app. f_equal. apply IH. rewrite skipn_length. lia.
Qed.
Lemma deal_ext {A B C} (n : A -> nat) (h h' : A -> list B -> list C) xs : (forall x bs, h x bs = h' x bs) ->
  forall bs, deal n h xs bs = deal n h' xs bs.
Proof. intros E. induction xs as [|x xs IH]; intros bs; [reflexivity|]. cbn [deal]. now rewrite E, IH. Qed.

(** Filtering the values of ranges. *)
Lemma ranges_turn {M t C} (F : den t -> M -> M -> res bool -> Prop) (f : den t -> mem M bool) (out : den t * nat -> C) (j : LRange -> nat) l ranges ms :
  (forall a st, exists st' r, F a st st' r /\ f a st = (st', r)) ->
  flat_mapM (fun range => vs <- values_at l t range;; Ok (map (fun v => (v, j range)) vs)) ranges = Ok ms ->
  forall st, exists st' r, in_turn (fun x => F (fst x)) ms st st' r
    /\ mem_flat_mapM (fun range => vs <~ lift (values_at l t range);; kept <~ mem_filter f vs;;
          lift (Ok (map (fun v => out (v, j range)) kept))) ranges st = (st', rmap (fun bs => map out (those_with ms bs)) r).
Proof.
  intros HF HM st.
  set (vals := fun range => match values_at l t range with Ok vs => vs | _ => [] end).
  assert (HV : forall range, In range ranges -> values_at l t range = Ok (vals range)).
  { intros range Hin. assert (X : exists b, (vs <- values_at l t range;; Ok (map (fun v => (v, j range)) vs)) = Ok b)
      by (apply (proj1 (flat_mapM_ok_iff _ ranges) (ex_intro _ ms HM) range Hin)).
    destruct X as (b & X). unfold vals. destruct (values_at l t range); [reflexivity|discriminate X ..]. }
  rewrite (flat_mapM_ok _ (fun range => map (fun v => (v, j range)) (vals range))) in HM by (intros a Ha; now rewrite HV).
  injection HM as <-.
  destruct (flat_turn (fun x => F (fst x))
     (fun range => vs <~ lift (values_at l t range);; kept <~ mem_filter f vs;; lift (Ok (map (fun v => out (v, j range)) kept)))
     (fun range => map (fun v => (v, j range)) (vals range))
     (fun range bs => map out (those_with (map (fun v => (v, j range)) (vals range)) bs)) ranges) with (st := st) as (st' & r & T & E).
  - intros range Hin st0. destruct (filter_turn F f (vals range) (fun a st _ => HF a st) st0) as (st1 & r1 & T1 & E1).
    exists st1, r1. split; [apply in_turn_map; exact T1|]. unfold lift, mbind. rewrite (HV range Hin), E1.
    destruct r1 as [bs| |]; try reflexivity. cbn. now rewrite those_with_map, map_map.
  - exists st', r. split; [exact T|]. rewrite E. destruct r as [bs| |]; try reflexivity. cbn. f_equal. f_equal.
    apply (deal_those (fun range => map (fun v => (v, j range)) (vals range)) out). exact (in_turn_length _ _ _ _ _ T bs eq_refl).
Qed.

Lemma calling_total {M A B} (f : A -> mem M B) a st : exists st' r, calling f a st st' r /\ f a st = (st', r).
Proof. unfold calling. destruct (f a st) as [st' r]. eauto. Qed.

(** C86: [attr_eq] compares the values that [attr] gives, one by one, and keeps those found equal. *)
Lemma thm_C86_attr_eq :
  forall M t (eqT : den t -> den t -> mem M bool) v d l ms st,
    x_attr t d l = Ok ms ->
    exists st' r, in_turn (calling (fun m => eqT (fst m) v)) ms st st' r
      /\ mem_attr_eq t eqT v d l st = (st', rmap (fun bs => map (fun m => (tt, snd m)) (those_with ms bs)) r).
Proof.
  intros M t eqT v d l ms st H. unfold x_attr in H. destruct d as [i|i]; cbn [dir_attr mem_attr_eq] in *;
    inv_bind H; unfold mbind at 1, lift at 1; rewrite E;
    exact (ranges_turn (calling (fun w => eqT w v)) (fun w => eqT w v) (fun m => (tt, snd m)) _ l _ ms (calling_total _) H st).
Qed.

Lemma contains_until {M A} (eqA : A -> A -> mem M bool) set v : forall st, exists st' r,
  until_yes (fun e => eqA e v) set st st' r /\ mem_contains eqA set v st = (st', r).
Proof.
  induction set as [|e set IH]; intros st; [exists st, (Ok false); split; [constructor|reflexivity]|].
  cbn [mem_contains]. unfold mbind. destruct (eqA e v st) as [st1 [[|]|p|]] eqn:E.
  - exists st1, (Ok true). split; [now apply Y_yes|reflexivity].
  - destruct (IH st1) as (st2 & r & Y & EC). exists st2, r. split; [now apply (Y_no _ _ _ _ st1)|exact EC].
  - exists st1, (Panic p). split; [now apply Y_panic|reflexivity].
  - exists st1, OutOfFuel. split; [now apply Y_fuel|reflexivity].
Qed.

(** C86: [token_has_any] compares each value with the listed ones until one is found equal. *)
Lemma thm_C86_has_any :
  forall M t (eqT : den t -> den t -> mem M bool) set l lg i st,
    History l lg ->
    (~ attributed i lg -> exists p, mem_token_has_any t eqT set (Fwd i) l st = (st, Panic p))
    /\ (attributed i lg -> exists st' r,
          in_turn (fun v => until_yes (fun e => eqT e v) set) (values_on t (i, i) lg) st st' r
          /\ mem_token_has_any t eqT set (Fwd i) l st
             = (st', rmap (fun bs => map (fun v => (v, i)) (those_with (values_on t (i, i) lg) bs)) r))
    /\ (forall ms, x_attr t (Bwd i) l = Ok ms -> exists st' r,
          in_turn (fun m => until_yes (fun e => eqT e (fst m)) set) ms st st' r
          /\ mem_token_has_any t eqT set (Bwd i) l st = (st', rmap (those_with ms) r)).
Proof.
  intros M t eqT set l lg i st H. pose proof (history_repr _ _ H) as HR. pose proof (rp_values l lg HR (i, i)) as HV.
  split; [|split].
  - intros HA. exists PFwdAtEnd. cbn [mem_token_has_any]. unfold attributed in HA.
    destruct (map_get range_eqb (values (attrs l)) (i, i)) as [tb|]; [tauto|reflexivity].
  - intros HA. cbn [mem_token_has_any]. unfold attributed in HA.
    destruct (map_get range_eqb (values (attrs l)) (i, i)) as [tb|]; [|tauto].
    destruct HV as (_ & HV). cbn [expect]. unfold mbind, lift. rewrite HV.
    destruct (filter_turn (fun v => until_yes (fun e => eqT e v) set) (mem_contains eqT set) (values_on t (i, i) lg)
      (fun v st _ => contains_until eqT set v st) st) as (st' & r & T & E).
    exists st', r. split; [exact T|]. rewrite E. destruct r; reflexivity.
  - intros ms Hms. unfold x_attr in Hms. cbn [dir_attr mem_token_has_any] in *. inv_bind Hms. unfold mbind at 1, lift at 1. rewrite E.
    destruct (ranges_turn (fun v => until_yes (fun e => eqT e v) set) (mem_contains eqT set) (fun m => m) fst l _ ms
      (fun v st => contains_until eqT set v st) Hms st) as (st' & r & T & EC).
    exists st', r. split; [exact T|]. rewrite EC. destruct r as [bs| |]; try reflexivity. cbn. now rewrite map_id.
Qed.

(** C86: [include] has every value printed once, those of a range in the order of their assignment, though their
    rows come in the opposite order. *)
Lemma thm_C86_debug :
  forall M t (dbg : den t -> mem M str) l lg rows st,
    History l lg ->
    exists st' r,
      in_turn (calling dbg) (flat_map (fun rg => values_on t rg lg) (ranges_of t lg)) st st' r
      /\ (forall texts, r = Ok texts -> exists textss, texts = concat textss
            /\ Forall2 (fun rg ts => length ts = length (values_on t rg lg)) (ranges_of t lg) textss
            /\ mem_display_include t dbg (mkDisplay l rows) st
               = (st', Ok (mkDisplay l (rows ++ concat (map (fun x => map (pair (fst x)) (rev (snd x))) (combine (ranges_of t lg) textss))))))
      /\ (forall p, r = Panic p -> mem_display_include t dbg (mkDisplay l rows) st = (st', Panic p)).
Proof.
  intros M t dbg l lg rows st H. pose proof (history_repr _ _ H) as HR.
  unfold mem_display_include. cbn [disp_line include_attrs]. rewrite (rp_ranges l lg HR).
  destruct (flat_turn (calling dbg) (fun range => match map_get range_eqb (values (attrs l)) range with
            | None => lift (Ok [])
            | Some tb => ds <~ mem_get_debug tb t dbg;; lift (Ok (map (fun s => (range, s)) (rev ds)))
            end) (fun rg => values_on t rg lg) (fun rg ts => map (pair rg) (rev ts)) (ranges_of t lg)) with (st := st) as (st' & r & T & E).
  - intros rg Hr st0. apply ranges_of_logged in Hr. pose proof (rp_values l lg HR rg) as HV.
    destruct (map_get range_eqb (values (attrs l)) rg) as [tb|]; [|tauto]. destruct HV as (_ & HV). specialize (HV t).
    destruct (in_turn_mapM (calling dbg) dbg (values_on t rg lg) (fun a st _ => calling_total dbg a st) st0) as (st1 & r1 & T1 & E1).
    exists st1, r1. split; [exact T1|].
    assert (X : mem_get_debug tb t dbg st0 = (st1, r1)).
    { unfold mem_get_debug. unfold tb_get in HV. destruct (map_get ty_eqb tb t) as [b|].
      - unfold mbind, lift. rewrite HV. exact E1.
      - injection HV as HV. rewrite <- HV in E1. exact E1. }
    unfold mbind. rewrite X. destruct r1; reflexivity.
  - exists st', r. split; [exact T|]. split.
    + intros texts ->.
      assert (X : forall rgs (bs : list str), length bs = length (flat_map (fun rg => values_on t rg lg) rgs) ->
         exists textss, bs = concat textss /\ Forall2 (fun rg ts => length ts = length (values_on t rg lg)) rgs textss
         /\ deal (fun rg => length (values_on t rg lg)) (fun rg ts => map (pair rg) (rev ts)) rgs bs
            = concat (map (fun x => map (pair (fst x)) (rev (snd x))) (combine rgs textss))).
      { induction rgs as [|rg rgs IH]; intros bs L.
        - exists []. destruct bs; [|discriminate L]. split; [reflexivity|]. split; [constructor|reflexivity].
        - cbn [flat_map] in L. rewrite app_length in L.
          destruct (IH (skipn (length (values_on t rg lg)) bs)) as (textss & E1 & E2 & E3); [rewrite skipn_length; lia|].
          exists (firstn (length (values_on t rg lg)) bs :: textss). split; [cbn [concat]; rewrite <- E1; symmetry; apply firstn_skipn|].
          split; [constructor; [rewrite firstn_length; lia|exact E2]|]. cbn [deal combine map concat fst snd]. now rewrite E3. }
      destruct (X (ranges_of t lg) texts (in_turn_length _ _ _ _ _ T texts eq_refl)) as (textss & E1 & E2 & E3).
      exists textss. split; [exact E1|]. split; [exact E2|]. unfold mbind at 1. rewrite E. cbn [rmap bind]. unfold lift. now rewrite E3.
    + intros p ->. unfold mbind at 1. rewrite E. reflexivity.
Qed.

(** C86: [finish_with] calls its function once per item, in order. *)
Lemma thm_C86_finish :
  forall M t T (f : T -> mem M (den t)) (items : list (LLSelection * T)) st,
    exists st' r, in_turn (calling f) (map snd items) st st' r
      /\ mem_finish_with items f st
         = (st', rmap (fun vs => map (fun x => finish_with_attr (fst (fst x)) (snd x)) (combine items vs)) r).
Proof.
  intros M t T f items. unfold mem_finish_with. induction items as [|[sel x] items IH]; intros st.
  - exists st, (Ok []). split; [constructor|reflexivity].
  - cbn [mem_mapM map snd]. unfold mbind. destruct (f x st) as [st1 [v|p|]] eqn:E.
    + destruct (IH st1) as (st2 & r & T2 & E2). exists st2, (rmap (cons v) r).
      split; [exact (T_answer (calling f) x _ st st1 st2 v r E T2)|]. cbn [lift].
      unfold lift, mbind in E2 |- *. rewrite E2. destruct r; reflexivity.
    + exists st1, (Panic p). split; [now apply T_panic|reflexivity].
    + exists st1, OutOfFuel. split; [now apply T_fuel|reflexivity].
Qed.

Lemma map_turn {M A B C} (f : A -> mem M B) (k : B -> C) xs : forall st, exists st' r,
  in_turn (calling f) xs st st' r /\ mem_mapM (fun a => b <~ f a;; lift (Ok (k b))) xs st = (st', rmap (map k) r).
Proof.
  induction xs as [|x xs IH]; intros st; [exists st, (Ok []); split; [constructor|reflexivity]|].
  cbn [mem_mapM]. unfold mbind. destruct (f x st) as [st1 [v|p|]] eqn:E.
  - destruct (IH st1) as (st2 & r & T2 & E2). exists st2, (rmap (cons v) r).
    split; [exact (T_answer (calling f) x xs st st1 st2 v r E T2)|]. unfold lift, mbind in E2 |- *. rewrite E2. destruct r; reflexivity.
  - exists st1, (Panic p). split; [now apply T_panic|reflexivity].
  - exists st1, OutOfFuel. split; [now apply T_fuel|reflexivity].
Qed.

(** The values that the text-match resolver has for a token. *)
Definition matched {t} (r : TextMatch t) (text : str) : list (den t) :=
  match map_get str_eqb (lookup r) (if case_sensitive r then text else u_lower text) with Some vs => vs | None => [] end.

(** C86: the text-match resolver clones each value it assigns, in the order in which it assigns them, and
    nothing else; a panic in looking for the tokens comes before. *)
Lemma thm_C86_clone :
  forall M t (clone : den t -> mem M (den t)) (r : TextMatch t) sel st,
    (forall g, text_match_go r sel = Ok g ->
      exists st' a, in_turn (calling clone) (map as_value (go_assignments g)) st st' a
        /\ mem_text_match_go clone r sel st
           = (st', rmap (fun vs => mkGo (map (fun x => mkAssign (as_start (fst x)) (as_end (fst x)) (snd x)) (combine (go_assignments g) vs)) (go_retained g)) a))
    /\ (forall p, text_match_go r sel = Panic p -> mem_text_match_go clone r sel st = (st, Panic p)).
Proof.
  intros M t clone r sel st. unfold text_match_go, mem_text_match_go, no_retain. unfold mbind at 1, lift at 1.
  destruct (find_by sel x_token_text) as [found|p|]; cbn [bind]; (split; [intros g [=]|intros q [=]]); [subst g|now subst q].
  cbn [go_assignments go_retained].
  assert (EF : flat_map (fun '(s, text) => match map_get str_eqb (lookup r) (if case_sensitive r then text else u_lower text) with
      | Some vs => map (fun v => finish_with_attr s v) vs | None => [] end) found
    = flat_map (fun x => map (fun v => finish_with_attr (fst x) v) (matched r (snd x))) found).
  { apply flat_map_ext. intros [s text]. unfold matched. cbn [fst snd]. now destruct (map_get str_eqb _ _). }
  rewrite EF. clear EF.
  destruct (flat_turn (calling clone) (fun '(s, text) =>
           match map_get str_eqb (lookup r)
                   (if case_sensitive r then text else u_lower text) with
           | Some vs => mem_mapM (fun v => v' <~ clone v;; lift (Ok (finish_with_attr s v'))) vs
           | None => lift (Ok [])
           end) (fun x => matched r (snd x)) (fun x vs => map (fun v => finish_with_attr (fst x) v) vs) found) with (st := st)
    as (st' & a & T & E).
  { intros [s text] _ st0. cbn [fst snd]. unfold matched. destruct (map_get str_eqb _ _) as [vs|].
    - apply map_turn.
    - exists st0, (Ok []). split; [constructor|reflexivity]. }
  exists st', a. split.
  - assert (EM : map as_value (flat_map (fun x => map (fun v => finish_with_attr (fst x) v) (matched r (snd x))) found)
      = flat_map (fun x => matched r (snd x)) found).
    { rewrite !flat_map_concat_map, concat_map, map_map. f_equal. apply map_ext. intros x. rewrite map_map. apply map_id. }
    rewrite EM. exact T.
  - unfold mbind at 1. rewrite E. destruct a as [vs| |]; try reflexivity. cbn [rmap bind]. unfold lift. f_equal. f_equal. f_equal.
    pose proof (in_turn_length _ _ _ _ _ T vs eq_refl) as L. clear E T. revert vs L.
    induction found as [|[s text] found IH]; intros vs L; [destruct vs; [reflexivity|discriminate L]|].
    cbn [deal flat_map fst snd] in *. rewrite app_length in L.
    rewrite <- (firstn_skipn (length (matched r text)) vs) at 3.
    rewrite combine_app by (rewrite firstn_length, map_length; lia). rewrite map_app.
    rewrite IH by (rewrite skipn_length; lia). f_equal.
    assert (L2 : length (firstn (length (matched r text)) vs) = length (matched r text)) by (rewrite firstn_length; lia).
    revert L2. generalize (firstn (length (matched r text)) vs). generalize (matched r text). clear.
    induction l as [|v l IH]; intros [|w ws] L; try discriminate L; [reflexivity|]. cbn. f_equal. apply IH. now injection L.
Qed.

(** C86: the constructor from an array clones its values in order. *)
Lemma thm_C86_clone_array :
  forall M t (clone : den t -> mem M (den t)) (lk : list (str * den t)) st,
    exists st' a, in_turn (calling clone) (map snd lk) st st' a
      /\ mem_text_match_new_ci_arr clone lk st = (st', rmap (fun vs => text_match_new_ci_arr (combine (map fst lk) vs)) a).
Proof.
  intros M t clone lk st. unfold mem_text_match_new_ci_arr.
  assert (X : forall st, exists st' a, in_turn (calling clone) (map snd lk) st st' a
    /\ mem_mapM (fun '(k, v) => v' <~ clone v;; lift (Ok (u_lower k, [v']))) lk st
       = (st', rmap (fun vs => map (fun '(k, v) => (u_lower k, [v])) (combine (map fst lk) vs)) a)).
  { induction lk as [|[k v] lk IH]; intros st0; [exists st0, (Ok []); split; [constructor|reflexivity]|].
    cbn [mem_mapM map snd]. unfold mbind. destruct (clone v st0) as [st1 [w|p|]] eqn:E.
    - destruct (IH st1) as (st2 & r & T2 & E2). exists st2, (rmap (cons w) r).
      split; [exact (T_answer (calling clone) v _ st0 st1 st2 w r E T2)|]. unfold lift, mbind in E2 |- *. rewrite E2. destruct r; reflexivity.
    - exists st1, (Panic p). split; [now apply T_panic|reflexivity].
    - exists st1, OutOfFuel. split; [now apply T_fuel|reflexivity]. }
  destruct (X st) as (st' & a & T & E). exists st', a. split; [exact T|]. unfold mbind at 1. rewrite E. destruct a; reflexivity.
Qed.

(** ** Functions without memory *)

Lemma foldM_plainly {M S A} (f : S -> A -> mem M S) (g : S -> A -> res S) :
  (forall s a st, f s a st = (st, g s a)) -> forall l s st, mem_foldM f l s st = (st, foldM g l s).
Proof.
  intros H. induction l as [|a l IH]; intros s st; [reflexivity|]. cbn [mem_foldM foldM]. unfold mbind. rewrite H.
  destruct (g s a); try reflexivity. apply IH.
Qed.
Lemma mapM_plainly {M A B} (f : A -> mem M B) (g : A -> res B) l :
  (forall a st, f a st = (st, g a)) -> forall st, mem_mapM f l st = (st, mapM g l).
Proof.
  intros H. induction l as [|a l IH]; intros st; [reflexivity|]. cbn [mem_mapM mapM]. unfold mbind. rewrite H.
  destruct (g a); try reflexivity. rewrite IH. destruct (mapM g l); reflexivity.
Qed.
Lemma flat_mapM_plainly {M A B} (f : A -> mem M (list B)) (g : A -> res (list B)) l :
  (forall a st, f a st = (st, g a)) -> forall st, mem_flat_mapM f l st = (st, flat_mapM g l).
Proof.
  intros H st. unfold mem_flat_mapM, flat_mapM, mbind. rewrite (mapM_plainly f g l H). destruct (mapM g l); reflexivity.
Qed.
Lemma filter_plainly {M A} (f : A -> mem M bool) (g : A -> bool) l :
  (forall a st, f a st = (st, Ok (g a))) -> forall st, mem_filter f l st = (st, Ok (filter g l)).
Proof.
  intros H. induction l as [|a l IH]; intros st; [reflexivity|]. cbn [mem_filter filter]. unfold mbind. rewrite H, IH. reflexivity.
Qed.
Lemma contains_plainly {M A} (eqA : A -> A -> bool) set v (st : M) :
  mem_contains (fun a b => plainly (eqA a) b) set v st = (st, Ok (slice_contains eqA set v)).
Proof.
  unfold slice_contains. induction set as [|e set IH]; [reflexivity|]. cbn [mem_contains existsb]. unfold mbind, plainly at 1.
  destruct (eqA e v); [reflexivity|exact IH].
Qed.
Lemma map_filter_map {A B} (p : A -> bool) (k : A -> B) l : map k (filter p l) = filter_map (fun a => if p a then Some (k a) else None) l.
Proof. induction l as [|a l IH]; [reflexivity|]. cbn. destruct (p a); cbn; now rewrite IH. Qed.

Lemma split_plainly {M} sz cs : forall ds ls acc (st : M),
  mem_split_digit_word (plainly sz) cs ds ls acc st = (st, Ok (split_digit_word sz cs ds ls acc)).
Proof.
  assert (FD : forall ds acc (st : M), mem_flush_digits (plainly sz) acc ds st = (st, Ok (flush_digits sz acc ds))) by (now intros [|d ds]).
  assert (FL : forall ls acc (st : M), mem_flush_letters (plainly sz) acc ls st = (st, Ok (flush_letters sz acc ls))) by (now intros [|d ls]).
  induction cs as [|ch cs IH]; intros ds ls acc st; cbn [mem_split_digit_word split_digit_word].
  - unfold mbind. now rewrite FL, FD.
  - destruct (is_ascii_digit ch); [|destruct (u_alphabetic ch)]; unfold mbind.
    + now rewrite FL, IH.
    + now rewrite FD, IH.
    + rewrite FL, FD. unfold plainly at 1. now rewrite IH.
Qed.

Lemma create_plainly {M} sz tg input (st : M) :
  mem_create_line (plainly sz) tg input st = (st, create_line_from_input_tokens tg input sz).
Proof.
  unfold mem_create_line, create_line_from_input_tokens, mbind.
  rewrite (foldM_plainly _ (create_step tg sz)).
  - destruct (foldM (create_step tg sz) input (mkCS [] [] 0%N)); reflexivity.
  - intros cs it st0. unfold mem_create_step, create_step, mbind.
    assert (E : mem_input_ltokens (plainly sz) it st0 = (st0, input_ltokens sz it)).
    { destruct it as [text ats|n ats]; [|reflexivity]. cbn [mem_input_ltokens input_ltokens].
      unfold mem_create_tokens_for_string, create_tokens_for_string. apply foldM_plainly.
      intros acc w st1. unfold mem_tokens_of_segment, tokens_of_segment. destruct w as [|c w]; [reflexivity|].
      destruct (is_ascii_digit c); [|reflexivity]. destruct (str_is_ascii (c :: w)); [apply split_plainly|reflexivity]. }
    rewrite E. destruct (input_ltokens sz it); reflexivity.
Qed.

(** C86: with functions that have no memory and do not panic, all this is what the other theorems are about. *)
Lemma thm_C86_pure :
  forall M (st : M),
    (forall sz tg input, mem_create_line (plainly sz) tg input st = (st, create_line_from_input_tokens tg input sz))
    /\ (forall t eqT v d l, mem_attr_eq t (fun a => plainly (eqT a)) v d l st = (st, x_attr_eq t eqT v d l))
    /\ (forall t eqT set d l, mem_token_has_any t (fun a => plainly (eqT a)) set d l st = (st, x_token_has_any t eqT set d l))
    /\ (forall t dbg d, mem_display_include t (plainly dbg) d st = (st, display_include t dbg d))
    /\ (forall t T (f : T -> den t) items, mem_finish_with items (plainly f) st = (st, Ok (finish_with items f)))
    /\ (forall t (lk : list (str * den t)), mem_text_match_new_ci_arr (plainly (fun v => v)) lk st = (st, Ok (text_match_new_ci_arr lk)))
    /\ (forall t (r : TextMatch t) sel, mem_text_match_go (plainly (fun v => v)) r sel st = (st, text_match_go r sel)).
Proof.
  intros M st. split; [intros; apply create_plainly|]. split; [|split; [|split; [|split; [|split]]]].
  - intros t eqT v d l. unfold x_attr_eq.
    assert (F : forall vs (st0 : M), mem_filter (fun w => plainly (eqT w) v) vs st0 = (st0, Ok (filter (fun w => eqT w v) vs)))
      by (intros; apply filter_plainly; reflexivity).
    destruct d as [i|i]; cbn [mem_attr_eq dir_attr_eq]; unfold mbind at 1, lift at 1;
      (destruct (nth_error _ i) as [m|]; cbn [expect bind]; [|reflexivity]);
      apply flat_mapM_plainly; intros range st0; unfold mbind, lift; destruct (values_at l t range) as [vs| |]; try reflexivity;
      cbn [bind]; rewrite F, map_filter_map; reflexivity.
  - intros t eqT set d l. unfold x_token_has_any.
    assert (F : forall vs (st0 : M), mem_filter (mem_contains (fun a => plainly (eqT a)) set) vs st0 = (st0, Ok (filter (slice_contains eqT set) vs)))
      by (intros; apply filter_plainly; intros; apply contains_plainly).
    destruct d as [i|i]; cbn [mem_token_has_any dir_token_attr_one_of]; unfold mbind at 1, lift at 1.
    + destruct (map_get range_eqb _ _) as [tb|]; cbn [expect bind]; [|reflexivity].
      unfold mbind, lift. destruct (tb_get tb t) as [vs| |]; try reflexivity. cbn [bind]. rewrite F, map_filter_map. reflexivity.
    + destruct (nth_error _ i) as [m|]; cbn [expect bind]; [|reflexivity].
      apply flat_mapM_plainly; intros range st0; unfold mbind, lift; destruct (values_at l t range) as [vs| |]; try reflexivity;
      cbn [bind]; rewrite F, map_filter_map; reflexivity.
  - intros t dbg d. unfold mem_display_include, display_include, mbind at 1.
    rewrite (flat_mapM_plainly _ (fun range =>
            match map_get range_eqb (values (attrs (disp_line d))) range with
            | None => Ok []
            | Some tb => ds <- tb_get_debug tb t dbg;; Ok (map (fun s => (range, s)) (rev ds))
            end)).
    + destruct (flat_mapM _ _); reflexivity.
    + intros range st0. destruct (map_get range_eqb _ range) as [tb|]; [|reflexivity].
      unfold mbind, mem_get_debug, tb_get_debug. destruct (map_get ty_eqb tb t) as [b|]; [|reflexivity].
      unfold mbind, lift. destruct (expect PDowncast (bucket_downcast t b)) as [vec| |]; try reflexivity.
      rewrite (mapM_plainly _ (fun v => Ok (dbg v))) by reflexivity. rewrite (mapM_ok _ dbg) by reflexivity. reflexivity.
  - intros t T f items. unfold mem_finish_with, finish_with.
    rewrite (mapM_plainly _ (fun '(sel, x) => Ok (finish_with_attr sel (f x)))) by (now intros [sel x]).
    rewrite (mapM_ok _ (fun '(sel, x) => finish_with_attr sel (f x))) by (now intros [sel x]). reflexivity.
  - intros t lk. unfold mem_text_match_new_ci_arr, text_match_new_ci_arr, mbind at 1.
    rewrite (mapM_plainly _ (fun '(k, v) => Ok (u_lower k, [v]))) by (now intros [k v]).
    rewrite (mapM_ok _ (fun '(k, v) => (u_lower k, [v]))) by (now intros [k v]). reflexivity.
  - intros t r sel. unfold mem_text_match_go, text_match_go, no_retain. unfold mbind at 1, lift at 1.
    destruct (find_by sel x_token_text) as [found| |]; try reflexivity. cbn [bind]. unfold mbind at 1.
    rewrite (flat_mapM_plainly _ (fun '(s, text) => Ok (match map_get str_eqb (lookup r) (if case_sensitive r then text else u_lower text) with
          | Some vs => map (fun v => finish_with_attr s v) vs | None => [] end))).
    + rewrite (flat_mapM_ok _ (fun '(s, text) => match map_get str_eqb (lookup r) (if case_sensitive r then text else u_lower text) with
          | Some vs => map (fun v => finish_with_attr s v) vs | None => [] end)) by (now intros [s text]). reflexivity.
    + intros [s text] st0. destruct (map_get str_eqb _ _) as [vs|]; [|reflexivity].
      rewrite (mapM_plainly _ (fun v => Ok (finish_with_attr s v))) by reflexivity. rewrite (mapM_ok _ (fun v => finish_with_attr s v)) by reflexivity.
      reflexivity.
Qed.

End ThmCalls.
