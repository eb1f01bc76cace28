(** C81: the clauses of a line by one pass over its tokens. *)

From Verif Require Export SpecScan ThmSeam ThmOrder.

Local Open Scope list_scope.

Definition inside (m : Mark) : Prop := m = MBlank \/ m = MOther.

Lemma inside_dec m : inside m \/ exists o, separator_mark m o.
Proof. unfold inside. destruct m; [right; now exists (Some k)|right; now exists None|left; now left|left; now right]. Qed.

Lemma not_inside m o : separator_mark m o -> ~ inside m.
Proof. unfold inside. destruct m; simpl; intros H [E|E]; try discriminate; auto. Qed.

(** What the cut is: a stretch of marks that do not separate, with a separator or an end on both sides. *)
Definition stretch_in (full : list Mark) (x : Stretch) : Prop :=
  let '(o, a, body) := x in
  body <> [] /\ Forall inside body
  /\ exists pre post, full = pre ++ body ++ post /\ length pre = a
     /\ ((pre = [] /\ o = None) \/ exists pre' m, pre = pre' ++ [m] /\ separator_mark m o)
     /\ (post = [] \/ exists m post' o', post = m :: post' /\ separator_mark m o').

Definition first_of (x : Stretch) : nat := snd (fst x).
Definition last_of (x : Stretch) : nat := snd (fst x) + length (snd x) - 1.

Lemma cut_facts ms : forall full pre before body i,
  full = pre ++ body ++ ms -> length pre = i -> Forall inside body ->
  ((pre = [] /\ before = None) \/ exists pre' m, pre = pre' ++ [m] /\ separator_mark m before) ->
  Forall (fun x => stretch_in full x /\ i <= first_of x) (cut before i body ms)
  /\ StronglySorted (fun x y => last_of x < first_of y) (cut before i body ms)
  /\ forall k m, nth_error full k = Some m -> i <= k -> inside m -> exists x, In x (cut before i body ms) /\ first_of x <= k <= last_of x.
Proof.
  assert (HCl : forall full pre before body i post,
    full = pre ++ body ++ post -> length pre = i -> Forall inside body ->
    ((pre = [] /\ before = None) \/ exists pre' m, pre = pre' ++ [m] /\ separator_mark m before) ->
    (post = [] \/ exists m post' o', post = m :: post' /\ separator_mark m o') ->
    Forall (fun x => stretch_in full x /\ i <= first_of x /\ last_of x < i + length body) (closed before i body)
    /\ forall k, i <= k < i + length body -> exists x, In x (closed before i body) /\ first_of x <= k <= last_of x).
  { intros full pre before body i post E L HI HP HS. destruct body as [|b body]; [split; [constructor|cbn [length]; lia]|]. cbn [closed]. split.
    - constructor; [|constructor]. split; [|unfold first_of, last_of; cbn [fst snd length]; lia].
      split; [discriminate|]. split; [exact HI|]. exists pre, post. auto.
    - intros k Hk. exists (before, i, b :: body). split; [now left|]. unfold first_of, last_of; cbn [fst snd]. lia. }
  induction ms as [|m ms IH]; intros full pre before body i E L HI HP.
  - destruct (HCl full pre before body i [] E L HI HP (or_introl eq_refl)) as (H1 & H2). cbn [cut]. split; [|split].
    + eapply Forall_impl; [|exact H1]. tauto.
    + destruct body; simpl; repeat constructor.
    + intros k m En Hk Hm. apply H2. apply nth_error_lt_rev in En. rewrite E, !app_length in En. simpl in En. lia.
  - assert (HSep : forall o, separator_mark m o ->
      Forall (fun x => stretch_in full x /\ i <= first_of x) (closed before i body ++ cut o (S (i + length body)) [] ms)
      /\ StronglySorted (fun x y => last_of x < first_of y) (closed before i body ++ cut o (S (i + length body)) [] ms)
      /\ forall k m, nth_error full k = Some m -> i <= k -> inside m ->
           exists x, In x (closed before i body ++ cut o (S (i + length body)) [] ms) /\ first_of x <= k <= last_of x).
    { intros o Ho. destruct (HCl full pre before body i (m :: ms) E L HI HP) as (H1 & H2); [right; eauto 6|].
      destruct (IH full (pre ++ body ++ [m]) o [] (S (i + length body))) as (J1 & J2 & J3).
      { rewrite E, <- !app_assoc. reflexivity. }
      { rewrite !app_length. simpl. lia. }
      { constructor. }
      { right. exists (pre ++ body), m. now rewrite <- app_assoc. }
      split; [|split].
      - apply Forall_app. split; [eapply Forall_impl; [|exact H1]; tauto|]. eapply Forall_impl; [|exact J1].
        intros x [A B]. split; [exact A|lia].
      - destruct body as [|b body]; [exact J2|]. cbn [closed app]. constructor; [exact J2|]. eapply Forall_impl; [|exact J1].
        intros x [_ B]. unfold last_of at 1. cbn [fst snd]. lia.
      - intros k m' En Hk Hm. destruct (lt_eq_lt_dec k (i + length body)) as [[D|D]|D].
        + destruct (H2 k) as (x & Hx & Hr); [lia|]. exists x. split; [apply in_or_app; now left|exact Hr].
        + exfalso. assert (m' = m) as ->; [|exact (not_inside _ _ Ho Hm)]. rewrite E, app_assoc in En. rewrite nth_error_app2 in En by (rewrite app_length; lia).
          rewrite app_length, L, D, Nat.sub_diag in En. simpl in En. congruence.
        + destruct (J3 k m' En) as (x & Hx & Hr); [lia|exact Hm|]. exists x. split; [apply in_or_app; now right|exact Hr]. }
    destruct m; cbn [cut]; try (apply HSep; reflexivity).
    + apply (IH full pre before (body ++ [MBlank]) i); auto; [rewrite <- app_assoc; exact E|]. apply Forall_app. split; [exact HI|]. constructor; [now left|constructor].
    + apply (IH full pre before (body ++ [MOther]) i); auto; [rewrite <- app_assoc; exact E|]. apply Forall_app. split; [exact HI|]. constructor; [now right|constructor].
Qed.

Section ThmScan.
Context {UC : Unicode} {U : UserTypes}.

(** ** Marks *)

Lemma classified_dec r text : (exists k, classified r text k) \/ forall k, ~ classified r text k.
Proof.
  destruct (In_str_dec (u_lower text) (kw_cond_start r)) as [A|A]; [left; now exists KConditionStart|].
  destruct (In_str_dec (u_lower text) (kw_then r)) as [B|B]; [left; now exists KThen|].
  destruct (In_str_dec (u_lower text) (kw_and r)) as [C|C]; [left; now exists KAnd|].
  right. intros []; simpl; tauto.
Qed.

Lemma marked_some r tok : exists m, marked r tok m.
Proof.
  unfold marked. destruct (token tok) as [text tag|]; [|now exists MOther].
  destruct (classified_dec r text) as [(k & Hk)|HN]; [now exists (MKey k)|].
  destruct (TextTag_eq_dec tag PUNC) as [E|N1]; [now exists MStop|].
  destruct (TextTag_eq_dec tag SPACE) as [E|N2]; [now exists MBlank|]. now exists MOther.
Qed.

Lemma marked_one r tok m m' : marked r tok m -> marked r tok m' -> m = m'.
Proof.
  unfold marked. destruct (token tok) as [text tag|]; [|congruence].
  destruct m as [k| | |], m' as [k'| | |]; intros A B; auto;
    try (destruct A as [A A1]); try (destruct B as [B B1]); try (exfalso; first [exact (A _ B)|exact (B _ A)]);
    try (exfalso; subst tag; try discriminate; tauto).
  f_equal. eapply classified_fun; eauto.
Qed.

(** C81: every token has one mark. *)
Lemma thm_C81_marks : forall r toks, exists! ms, Forall2 (marked r) toks ms.
Proof.
  intros r toks. induction toks as [|tok toks (ms & Hm & HU)].
  - exists []. split; [constructor|]. intros ms H. now inversion H.
  - destruct (marked_some r tok) as (m & HM). exists (m :: ms). split; [now constructor|].
    intros ms' H. inversion H as [|? m' ? ms'' A B]; subst. f_equal; [eapply marked_one; eauto|now apply HU].
Qed.

Section Line.
Context (toks : list LLToken) (r : ClauseKeywordResolver) (ms : list Mark) (HM : Forall2 (marked r) toks ms).

Lemma mark_at i m : nth_error ms i = Some m <-> exists tok, nth_error toks i = Some tok /\ marked r tok m.
Proof.
  clear -HM. revert i. induction HM as [|tok m' toks ms A B IH]; intros i.
  - destruct i; simpl; split; try discriminate; intros (t & X & _); discriminate X.
  - destruct i as [|i]; cbn [nth_error]; [|exact (IH B i)]. split.
    + intros E. injection E as <-. eauto.
    + intros (t & X & Y). injection X as <-. f_equal. eapply marked_one; eauto.
Qed.

Lemma marks_length : length ms = length toks.
Proof. symmetry. eapply Forall2_len; eauto. Qed.

Lemma key_mark i k : keyword_at toks r i k <-> nth_error ms i = Some (MKey k).
Proof.
  unfold keyword_at, text_at. rewrite mark_at. unfold marked. split.
  - intros (text & (tok & tag & A & B) & C). exists tok. rewrite B. auto.
  - intros (tok & A & B). destruct (token tok) as [text tag|] eqn:E; [|discriminate B]. eauto 8.
Qed.

Lemma separates_mark i : separates toks r i <-> exists m o, nth_error ms i = Some m /\ separator_mark m o.
Proof.
  unfold separates. split.
  - intros [(k & Hk)|(tok & text & A & B)].
    + apply key_mark in Hk. exists (MKey k), (Some k). split; [exact Hk|reflexivity].
    + destruct (classified_dec r text) as [(k & Hk)|HN].
      * exists (MKey k), (Some k). split; [|reflexivity]. apply mark_at. exists tok. unfold marked. rewrite B. auto.
      * exists MStop, None. split; [|reflexivity]. apply mark_at. exists tok. unfold marked. rewrite B. auto.
  - intros ([k| | |] & o & A & B); simpl in B; try contradiction.
    + left. exists k. now apply key_mark.
    + right. apply mark_at in A. destruct A as (tok & A & C). unfold marked in C. destruct (token tok) as [text tag|] eqn:E; [|discriminate C].
      destruct C as [_ ->]. exists tok, text. auto.
Qed.

Lemma inside_mark i m : nth_error ms i = Some m -> (inside m <-> ~ separates toks r i).
Proof.
  intros E. rewrite separates_mark. split.
  - intros Hm (m' & o & A & B). assert (m' = m) as -> by congruence. exact (not_inside _ _ B Hm).
  - intros H. destruct (inside_dec m) as [I|(o & Ho)]; [exact I|]. exfalso. eauto 6.
Qed.

Lemma blank_mark i m : nth_error ms i = Some m -> inside m -> (tag_at toks i SPACE <-> m = MBlank).
Proof.
  intros E Hm. apply mark_at in E. destruct E as (tok & A & B). unfold tag_at, marked in *. split.
  - intros (t & text & A' & C). assert (t = tok) as -> by congruence. rewrite C in B.
    destruct Hm as [->| ->]; [reflexivity|]. destruct B as (_ & _ & X). now contradiction X.
  - intros ->. destruct (token tok) as [text tag|] eqn:Et; [|discriminate B]. destruct B as [_ ->]. exists tok, text. auto.
Qed.

(** ** Stretches *)

Lemma stretch_in_nth full x k : stretch_in full x -> first_of x <= k <= last_of x ->
  exists m, nth_error full k = Some m /\ nth_error (snd x) (k - first_of x) = Some m /\ inside m.
Proof.
  destruct x as [[o a] body]. unfold first_of, last_of. cbn [fst snd].
  intros (HN & HI & pre & post & E & L & _) Hk.
  assert (LB : 0 < length body) by (destruct body; [easy|simpl; lia]).
  destruct (nth_error body (k - a)) as [m|] eqn:En; [|apply nth_error_None in En; lia].
  exists m. split; [|split; [reflexivity|]].
  - rewrite E, nth_error_app2 by lia. rewrite L, nth_error_app1 by lia. exact En.
  - rewrite Forall_forall in HI. apply HI. eapply nth_error_In. exact En.
Qed.

Lemma stretch_in_bounds full x : stretch_in full x -> first_of x <= last_of x < length full.
Proof.
  destruct x as [[o a] body]. unfold first_of, last_of. cbn [fst snd].
  intros (HN & HI & pre & post & E & L & _). assert (LB : 0 < length body) by (destruct body; [easy|simpl; lia]).
  rewrite E, !app_length. lia.
Qed.

Lemma stretch_in_sound x : stretch_in ms x -> stretch toks r (first_of x) (last_of x).
Proof.
  intros Hx. pose proof (stretch_in_bounds _ _ Hx) as LB. rewrite marks_length in LB. split; [lia|]. split; [|split].
  - intros i Hi. destruct (stretch_in_nth _ _ _ Hx Hi) as (m & A & _ & C). now apply (inside_mark i m).
  - destruct x as [[o a] body]. unfold first_of in *. cbn [fst snd] in *. destruct Hx as (HN & HI & pre & post & E & L & [[-> _]|(pre' & m & -> & Hm)] & _).
    + left. now rewrite <- L.
    + right. apply separates_mark. exists m, o. split; [|exact Hm]. rewrite app_length in L. simpl in L.
      rewrite E, <- app_assoc, nth_error_app2 by lia. now replace (a - 1 - length pre') with 0 by lia.
  - destruct x as [[o a] body]. unfold first_of, last_of in *. cbn [fst snd] in *. destruct Hx as (HN & HI & pre & post & E & L & _ & HR). assert (LB0 : 0 < length body) by (destruct body; [easy|simpl; lia]). destruct HR as [-> |(m & post' & o' & -> & Hm)].
    + left. rewrite <- marks_length, E, !app_length. simpl. lia.
    + right. apply separates_mark. exists m, o'. split; [|exact Hm].
      rewrite E, app_assoc, nth_error_app2 by (rewrite app_length; lia). rewrite app_length. now replace (a + length body - 1 + 1 - (length pre + length body)) with 0 by lia.
Qed.

Lemma stretch_in_before x k : stretch_in ms x -> (fst (fst x) = Some k <-> follows toks r (first_of x) k).
Proof.
  destruct x as [[o a] body]. unfold first_of, follows. cbn [fst snd]. rewrite key_mark.
  intros (HN & HI & pre & post & E & L & [[-> ->]|(pre' & m & -> & Hm)] & _).
  - simpl in L. subst a. split; [discriminate|lia].
  - rewrite app_length in L. simpl in L. rewrite E, <- app_assoc, nth_error_app2 by lia. replace (a - 1 - length pre') with 0 by lia.
    cbn [app nth_error]. destruct m; simpl in Hm; try contradiction; subst o; (split; [intros X; split; [lia|congruence]|intros [_ X]; congruence]).
Qed.

Lemma hd_nth {A} (d : A) (xs : list A) x : nth_error xs 0 = Some x -> hd d xs = x.
Proof. destruct xs; simpl; congruence. Qed.
Lemma last_nth {A} (d : A) (xs : list A) : forall x, nth_error xs (length xs - 1) = Some x -> last xs d = x.
Proof.
  induction xs as [|y xs IH]; intros x H; [discriminate H|]. destruct xs as [|z xs]; [simpl in *; congruence|].
  change (last (z :: xs) d = x). apply IH. cbn [length] in *. replace (S (S (length xs)) - 1) with (S (S (length xs) - 1)) in H by lia. exact H.
Qed.

Lemma inner_iff x a b : stretch_in ms x -> (inner x = Some (a, b) <-> without_end_spaces toks (first_of x) (last_of x) a b).
Proof.
  intros Hx. pose proof (stretch_in_bounds _ _ Hx) as LB.
  assert (LB0 : 0 < length (snd x)) by (destruct x as [[o i] body]; destruct Hx as [HN _]; cbn [snd]; destruct body; [easy|simpl; lia]).
  destruct (stretch_in_nth _ _ (first_of x) Hx) as (m1 & A1 & B1 & C1); [lia|].
  destruct (stretch_in_nth _ _ (last_of x) Hx) as (m2 & A2 & B2 & C2); [lia|].
  unfold without_end_spaces. rewrite (blank_mark _ _ A1 C1), (blank_mark _ _ A2 C2).
  rewrite Nat.sub_diag in B1. apply (hd_nth MOther) in B1.
  assert (B3 : last (snd x) MOther = m2).
  { apply last_nth. rewrite <- B2. f_equal. destruct x as [[o i] body]. unfold first_of, last_of in *. cbn [fst snd] in *. lia. }
  destruct x as [[o i] body]. unfold first_of, last_of, inner in *. cbn [fst snd] in *. rewrite B1, B3.
  assert (D1 : (m1 = MBlank /\ blank m1 = 1) \/ (m1 <> MBlank /\ blank m1 = 0)) by (destruct C1 as [->| ->]; [left|right]; split; auto; discriminate).
  assert (D2 : (m2 = MBlank /\ blank m2 = 1) \/ (m2 <> MBlank /\ blank m2 = 0)) by (destruct C2 as [->| ->]; [left|right]; split; auto; discriminate).
  destruct (Nat.ltb_spec (i + blank m1) (i + length body - blank m2)) as [X|X]; split; try discriminate.
  - intros Y. injection Y as <- <-. split; [lia|].
    split; [destruct D1 as [[? ?]|[? ?]]; [left|right]; split; auto; lia|destruct D2 as [[? ?]|[? ?]]; [left|right]; split; auto; lia].
  - intros (Y1 & Y2 & Y3). f_equal. f_equal.
    + destruct D1 as [[? ?]|[? ?]], Y2 as [[? ?]|[? ?]]; try contradiction; lia.
    + destruct D2 as [[? ?]|[? ?]], Y3 as [[? ?]|[? ?]]; try contradiction; lia.
  - intros (Y1 & Y2 & Y3). exfalso. destruct D1 as [[? ?]|[? ?]], Y2 as [[? ?]|[? ?]]; try contradiction;
    destruct D2 as [[? ?]|[? ?]], Y3 as [[? ?]|[? ?]]; try contradiction; lia.
Qed.

End Line.

(** ** The scan *)

Lemma kind_after_spec sole earlier o :
  kind_after sole (existsb is_condition earlier) o = clause_kind sole earlier o.
Proof. destruct o as [[]|], sole; reflexivity. Qed.

(** From the stretches, one by one. *)
Lemma kinded_out lg sole runs : forall ts xs out earlier,
  Forall2 (fun p x => keyword_before lg p = fst (fst x)) runs xs ->
  Forall2 (fun t x => option_map idxs t = inner x) ts xs ->
  map fst out = map (fun '(_, t) => (start_idx t, end_idx t)) (worded runs ts) ->
  (forall i rg c p t, nth_error out i = Some (rg, c) -> nth_error (worded runs ts) i = Some (p, t) ->
     c = clause_kind sole (earlier ++ map snd (firstn i out)) (keyword_before lg p)) ->
  out = kinded sole (existsb is_condition earlier) xs.
Proof.
  induction runs as [|p runs IH]; intros ts xs out earlier H1 H2 HR HK; inversion H1 as [|? x ? xs' K1 H1']; subst; inversion H2 as [|t ? ts' ? K2 H2']; subst.
  - destruct out; [reflexivity|discriminate HR].
  - cbn [kinded]. destruct t as [t|]; cbn [option_map] in K2; rewrite <- K2.
    + destruct out as [|[rg c] out]; [discriminate HR|]. unfold worded in HR, HK. cbn [combine filter_map option_map map fst] in HR, HK. injection HR as E HR. subst rg.
      pose proof (HK 0 _ _ _ _ eq_refl eq_refl) as E. cbn [firstn map] in E. rewrite app_nil_r, K1, <- kind_after_spec in E. subst c.
      apply (f_equal (cons ((start_idx t, end_idx t), kind_after sole (existsb is_condition earlier) (fst (fst x))))).
      assert (EO : existsb is_condition (earlier ++ [kind_after sole (existsb is_condition earlier) (fst (fst x))]) = existsb is_condition earlier || starts_condition (fst (fst x))).
      { rewrite existsb_app. f_equal. cbn [existsb]. rewrite orb_false_r. destruct (fst (fst x)) as [[]|], sole; cbn [kind_after starts_condition is_condition]; auto; destruct (existsb is_condition earlier); reflexivity. }
      rewrite <- EO. apply (IH ts' xs'); auto. intros i rg c p' t' A B. rewrite <- app_assoc. exact (HK (S i) rg c p' t' A B).
    + apply (IH ts' xs'); auto.
Qed.

Lemma Forall2_pointwise {A B} (R : A -> B -> Prop) (f : A -> nat * nat) (g : B -> nat * nat) xs ys :
  map f xs = map g ys -> (forall x y, In x xs -> In y ys -> f x = g y -> R x y) -> Forall2 R xs ys.
Proof.
  revert ys. induction xs as [|x xs IH]; intros [|y ys] E H; try discriminate E; [constructor|]. injection E as E1 E2.
  constructor; [apply H; auto; now left|]. apply IH; auto. intros; apply H; auto; now right.
Qed.

Lemma Forall2_compose {A B C} (xs : list A) (ys : list B) (zs : list C) (R : A -> B -> Prop) (Q : A -> C -> Prop) (P : B -> C -> Prop) :
  Forall2 Q xs zs -> Forall2 R xs ys -> (forall x y z, R x y -> Q x z -> P y z) -> Forall2 P ys zs.
Proof.
  intros HQ HR HP. revert ys HR. induction HQ as [|x z xs zs Hq HQ IH]; intros ys HR; inversion HR; subst; constructor; eauto.
Qed.

Lemma scan_query :
  forall tg sz input l r id id' l1 l2 ms,
    Forall wf_input input -> none_of TKeyword input -> none_of TTextTag input -> none_of TClause input ->
    create_line_from_input_tokens tg input sz = Ok l ->
    run id l (clause_keyword_go r) = Ok l1 -> run id' l1 clause_go = Ok l2 ->
    Forall2 (marked r) (ll_tokens l) ms ->
    query l2 TClause = Ok (map (clause_row (ll_tokens l)) (scanned ms)).
Proof.
  intros tg sz input l r id id' l1 l2 ms HW HK HT HCl HC R1 R2 HM.
  destruct (clause_rows tg sz input l r id id' l1 l2 HW HK HT HCl HC R1 R2) as (lg & out & EQ & HE & HCs & ET & IK & IT).
  rewrite EQ. f_equal.
  assert (ER : forall xs, map (row_of (t := TClause) (ll_tokens l)) xs = map (clause_row (ll_tokens l)) xs).
  { intros xs. apply map_ext. intros [[a b] c]. reflexivity. }
  rewrite ER. f_equal. clear ER EQ.
  destruct (ll_tokens l) as [|tok0 toks0] eqn:EL.
  { rewrite (HE eq_refl). inversion HM. reflexivity. }
  assert (HN : ll_tokens l <> []) by congruence. rewrite <- EL in *. clear tok0 toks0 EL. destruct (HCs HN) as (runs & ts & HC1).
  pose proof (cl_runs _ _ _ _ _ HC1) as HR.
  destruct (cut_facts ms ms [] None [] 0 eq_refl eq_refl (Forall_nil _) (or_introl (conj eq_refl eq_refl))) as (F1 & F2 & F3).
  unfold scanned. set (xs := cut None 0 [] ms) in *. cbv zeta.
  assert (F1' : forall x, In x xs -> stretch_in ms x) by (rewrite Forall_forall in F1; intros x Hx; now apply F1).
  assert (EX : map idxs runs = map (fun x => (first_of x, last_of x)) xs).
  { apply sorted_same.
    - apply Forall_map, Forall_forall. intros p Hp. destruct (runs_inside _ _ _ HR p Hp) as (_ & A & B & C). unfold idxs. cbn [fst snd]. lia.
    - apply Forall_map, Forall_forall. intros x Hx. cbn [fst snd]. exact (proj1 (stretch_in_bounds _ _ (F1' x Hx))).
    - apply sorted_idxs, (runs_ordered _ _ _ HR).
    - clear -F2. induction F2 as [|x xs H IH HF]; cbn [map]; constructor; auto. apply Forall_map. exact HF.
    - intros [lo hi]. split; intros Hin; apply in_map_iff in Hin.
      + destruct Hin as (p & E & Hp). injection E as <- <-.
        pose proof (run_stretch l lg r id' l1 HN ET IK IT runs HR p Hp) as ((A & B) & HF & HL & HRt).
        destruct (nth_error ms (start_idx p)) as [m|] eqn:En; [|apply nth_error_None in En; rewrite (marks_length _ _ _ HM) in En; lia].
        destruct (F3 (start_idx p) m En) as (x & Hx & Hr); [lia|apply (inside_mark _ _ _ HM _ _ En); apply HF; lia|].
        apply in_map_iff. exists x. split; [|exact Hx].
        destruct (stretch_in_sound _ _ _ HM x (F1' x Hx)) as ((C & D) & HF' & HL' & HR').
        f_equal.
        * destruct HL as [E|E]; [lia|]. destruct (Nat.eq_dec (first_of x) (start_idx p)); [assumption|]. exfalso. apply (HF' (start_idx p - 1)); [lia|exact E].
        * destruct (Nat.lt_trichotomy (last_of x) (end_idx p)) as [L|[L|L]]; [exfalso|exact L|exfalso].
          -- destruct HR' as [E|E]; [lia|]. apply (HF (last_of x + 1)); [lia|exact E].
          -- destruct HRt as [E|E]; [lia|]. apply (HF' (end_idx p + 1)); [lia|exact E].
      + destruct Hin as (x & E & Hx). injection E as <- <-.
        destruct (stretch_run l lg r id' l1 HN ET IK IT runs HR _ _ (stretch_in_sound _ _ _ HM x (F1' x Hx))) as (p & Hp & A & B).
        apply in_map_iff. exists p. split; [|exact Hp]. unfold idxs. congruence. }
  assert (EK : length runs = length xs) by (rewrite <- (map_length idxs runs), EX; apply map_length).
  rewrite <- EK.
  assert (G1 : Forall2 (fun p x => keyword_before lg p = fst (fst x)) runs xs).
  { eapply Forall2_pointwise; [exact EX|]. intros p x Hp Hx E. cbv beta in E. injection E as E1 E2.
    pose proof (before_follows l lg r IK p) as HB. pose proof (fun k => stretch_in_before _ _ _ HM x k (F1' x Hx)) as HB'.
    rewrite E1 in HB. destruct (keyword_before lg p) as [k|].
    - symmetry. exact (proj2 (HB' k) (proj1 (HB k) eq_refl)).
    - destruct (fst (fst x)) as [k|]; [|reflexivity]. exact (proj2 (HB k) (proj1 (HB' k) eq_refl)). }
  assert (G2 : Forall2 (fun t x => option_map idxs t = inner x) ts xs).
  { apply (Forall2_compose runs ts xs (trimmed_run lg) (fun p x => forall t, trimmed_run lg p t -> option_map idxs t = inner x)); [|exact (cl_trimmed _ _ _ _ _ HC1)|auto].
    eapply Forall2_pointwise; [exact EX|]. intros p x Hp Hx E t Ht. cbv beta in E. injection E as E1 E2.
    pose proof (F1' x Hx) as Sx. pose proof (proj1 (stretch_in_bounds _ _ Sx)) as LB. destruct t as [t|]; cbn [option_map].
    - symmetry. unfold idxs. apply (inner_iff _ _ _ HM x _ _ Sx).
      destruct (trimmed_exact lg p t Ht ltac:(lia)) as (_ & _ & T3 & T4 & T5 & T6 & T7). unfold space in *. rewrite IT in T4, T5. rewrite IT in T6, T7.
      rewrite <- E1, <- E2. split; [exact T3|].
      split; [destruct (tag_at_dec (ll_tokens l) (start_idx p) SPACE)|destruct (tag_at_dec (ll_tokens l) (end_idx p) SPACE)]; auto.
    - destruct (inner x) as [[a b]|] eqn:EI; [exfalso|reflexivity]. apply (inner_iff _ _ _ HM x _ _ Sx) in EI.
      rewrite <- E1, <- E2 in EI. destruct EI as (Hab & Ha & Hb). unfold trimmed_run, part_of in Ht. apply (Ht a). unfold covers, space. rewrite !IT.
      split; [destruct Ha as [[A Ea]|[A Ea]], Hb as [[B Eb]|[B Eb]]; lia|]. split.
      * intros (E & A'). destruct Ha as [[A Ea]|[A Ea]]; [lia|]. apply A. now rewrite <- E.
      * intros (E & B'). destruct Hb as [[B Eb]|[B Eb]]; [lia|]. apply B. now rewrite <- E. }
  rewrite (kinded_out lg (length runs =? 1) runs ts xs out [] G1 G2 (cl_ranges _ _ _ _ _ HC1)); [reflexivity|].
  exact (cl_kinds _ _ _ _ _ HC1).
Qed.

(** C81: the clauses reported are those one pass over the tokens finds. *)
Lemma thm_C81_scan :
  forall tg sz input l r id id' ms,
    Forall wf_input input -> none_of TKeyword input -> none_of TTextTag input -> none_of TClause input ->
    create_line_from_input_tokens tg input sz = Ok l ->
    Forall2 (marked r) (ll_tokens l) ms ->
    clauses_reported id id' r l (map (clause_row (ll_tokens l)) (scanned ms)).
Proof.
  intros tg sz input l r id id' ms HW HK HT HCl HC HM.
  destruct (thm_C52_created_single tg sz input l HW HK HT HC) as (lg & HH & SK & ST).
  destruct (step_ok id (RunClauseKeyword r) l lg I HH SK ST) as (l1 & lg1 & R1 & _ & HH1 & SK1 & ST1).
  destruct (step_ok id' RunClause l1 lg1 I HH1 SK1 ST1) as (l2 & lg2 & R2 & _). cbn [run_step] in R1, R2.
  exists l1, l2. split; [exact R1|]. split; [exact R2|]. eapply scan_query; eauto.
Qed.

(** ** Parts *)

Definition moved_stretch (n : nat) (x : Stretch) : Stretch := (fst (fst x), n + snd (fst x), snd x).

Lemma closed_moved n before i body : closed before (n + i) body = map (moved_stretch n) (closed before i body).
Proof. destruct body; reflexivity. Qed.

Lemma cut_moved n ms : forall before i body, cut before (n + i) body ms = map (moved_stretch n) (cut before i body ms).
Proof.
  induction ms as [|m ms IH]; intros before i body; cbn [cut]; [apply closed_moved|].
  destruct m; rewrite ?map_app, ?closed_moved, <- ?IH; try reflexivity.
  - f_equal. f_equal. lia.
  - f_equal. f_equal. lia.
Qed.

Lemma cut_app ms1 : forall before i body ms2 o,
  (exists ms m, ms1 = ms ++ [m] /\ separator_mark m o) \/ (o = None /\ exists m ms o', ms2 = m :: ms /\ separator_mark m o') ->
  cut before i body (ms1 ++ ms2) = cut before i body ms1 ++ cut o (i + length body + length ms1) [] ms2.
Proof.
  induction ms1 as [|m ms1 IH]; intros before i body ms2 o HS.
  - destruct HS as [(ms & m & E & _)|(-> & m & ms & o' & -> & Hm)]; [destruct ms; discriminate E|].
    cbn [app length cut]. rewrite Nat.add_0_r. destruct m; simpl in Hm; try contradiction; cbn [closed app length]; now rewrite Nat.add_0_r.
  - assert (HT : ms1 <> [] -> (exists ms m, ms1 = ms ++ [m] /\ separator_mark m o) \/ (o = None /\ exists m ms o', ms2 = m :: ms /\ separator_mark m o')).
    { intros HN. destruct HS as [(ms & m' & E & Hm)|HS]; [left|now right]. destruct ms as [|x ms]; [injection E as _ E; contradiction|].
      injection E as _ E. eauto. }
    destruct (inside_dec m) as [Hin|(o1 & Ho1)].
    + assert (HS' : (exists ms m, ms1 = ms ++ [m] /\ separator_mark m o) \/ (o = None /\ exists m ms o', ms2 = m :: ms /\ separator_mark m o')).
      { destruct ms1 as [|x ms1]; [|apply HT; discriminate]. destruct HS as [(ms & m' & E & Hm)|HS]; [exfalso|now right].
        destruct ms as [|y [|]]; try discriminate E. injection E as <-. exact (not_inside _ _ Hm Hin). }
      destruct Hin as [->| ->]; cbn [app cut]; rewrite (IH _ _ _ _ _ HS'), app_length; cbn [length]; do 2 f_equal; lia.
    + assert (HX : cut o1 (S (i + length body)) [] (ms1 ++ ms2) = cut o1 (S (i + length body)) [] ms1 ++ cut o (S (i + length body) + length ms1) [] ms2).
      { destruct ms1 as [|x ms1].
        - cbn [app cut closed length]. rewrite Nat.add_0_r. destruct HS as [(ms & m' & E & Hm)|(-> & m' & ms & o' & -> & Hm)].
          + destruct ms as [|y [|]]; try discriminate E. injection E as <-. f_equal.
            destruct m; simpl in Hm, Ho1; try contradiction; congruence.
          + destruct m'; simpl in Hm; try contradiction; reflexivity.
        - rewrite (IH o1 (S (i + length body)) [] ms2 o) by (apply HT; discriminate). cbn [length]. do 2 f_equal. lia. }
      destruct m; simpl in Ho1; try contradiction; subst o1; cbn [app cut length]; rewrite HX, <- app_assoc; do 3 f_equal; lia.
Qed.

Lemma inner_moved n x : snd x <> [] -> inner (moved_stretch n x) = option_map (moved_range n) (inner x).
Proof.
  destruct x as [[o i] body]. unfold moved_stretch, inner, moved_range. cbn [fst snd]. intros HN.
  assert (LB : 0 < length body) by (destruct body; [easy|simpl; lia]). assert (blank (last body MOther) <= 1) by (destruct (last body MOther); simpl; lia).
  destruct (Nat.ltb_spec (i + blank (hd MOther body)) (i + length body - blank (last body MOther))) as [A|A];
    destruct (Nat.ltb_spec (n + i + blank (hd MOther body)) (n + i + length body - blank (last body MOther))) as [B|B]; try lia; cbn [option_map]; [|reflexivity].
  cbn [fst snd]. apply f_equal. apply f_equal2; lia.
Qed.

Lemma kinded_moved n sole xs : forall earlier, Forall (fun x => snd x <> []) xs ->
  kinded sole earlier (map (moved_stretch n) xs) = map (fun x => (moved_range n (fst x), snd x)) (kinded sole earlier xs).
Proof.
  induction xs as [|x xs IH]; intros earlier HN; [reflexivity|]. inversion HN as [|? ? H1 H2]; subst. cbn [map kinded]. rewrite inner_moved by exact H1.
  destruct (inner x) as [rg|]; cbn [option_map map fst snd]; [|now apply IH]. f_equal. now apply IH.
Qed.

Lemma kinded_app sole xs : forall earlier ys,
  kinded sole earlier (xs ++ ys) = kinded sole earlier xs ++ kinded sole (earlier || existsb is_condition (map snd (kinded sole earlier xs))) ys.
Proof.
  induction xs as [|x xs IH]; intros earlier ys; cbn [app kinded]; [now rewrite orb_false_r|].
  destruct (inner x) as [rg|]; [|apply IH]. cbn [app map snd existsb]. rewrite IH. do 3 f_equal. rewrite <- orb_assoc. f_equal. f_equal.
  destruct (fst (fst x)) as [[]|], sole; try reflexivity; destruct earlier; reflexivity.
Qed.

Lemma cut_bodies before ms : Forall (fun x => snd x <> []) (cut before 0 [] ms).
Proof.
  assert (H : forall ms before i body, Forall (fun x : Stretch => snd x <> []) (cut before i body ms)).
  { assert (HC : forall before i body, Forall (fun x : Stretch => snd x <> []) (closed before i body)).
    { intros b i [|x body]; repeat constructor. discriminate. }
    clear ms before. induction ms as [|m ms IH]; intros before i body; cbn [cut]; [apply HC|]. destruct m; auto; apply Forall_app; auto. }
  apply H.
Qed.

Lemma marked_moved r k p M toks ms : Forall2 (marked r) toks ms -> Forall2 (marked r) (map (moved_token k p M) toks) ms.
Proof. induction 1; cbn [map]; constructor; auto. Qed.

Lemma kinded_ranges sole xs n : forall earlier, Forall (fun x => last_of x < n) xs ->
  Forall (fun x : LRange * Clause => fst (fst x) < n /\ snd (fst x) < n) (kinded sole earlier xs).
Proof.
  induction xs as [|x xs IH]; intros earlier HF; cbn [kinded]; [constructor|]. inversion HF as [|? ? H1 H2]; subst.
  destruct (inner x) as [rg|] eqn:E; [|now apply IH]. constructor; [|now apply IH]. cbn [fst].
  destruct x as [[o i] body]. unfold inner, last_of in *. cbn [fst snd] in *.
  destruct (Nat.ltb_spec (i + blank (hd MOther body)) (i + length body - blank (last body MOther))) as [A|A]; [|discriminate E].
  injection E as <-. cbn [fst snd]. lia.
Qed.

(** C81: with a separator at the seam the pass over the second part goes on from the keyword and the
    conditions of the first. *)
Lemma thm_C81_parts :
  forall tg sz i1 i2 l l1 l2 r id id' ms1 ms2 before,
    Forall wf_input i1 -> Forall wf_input i2 ->
    none_of TKeyword (i1 ++ i2) -> none_of TTextTag (i1 ++ i2) -> none_of TClause (i1 ++ i2) ->
    create_line_from_input_tokens tg (i1 ++ i2) sz = Ok l ->
    create_line_from_input_tokens tg i1 sz = Ok l1 -> create_line_from_input_tokens tg i2 sz = Ok l2 ->
    Forall2 (marked r) (ll_tokens l1) ms1 -> Forall2 (marked r) (ll_tokens l2) ms2 ->
    cut_at_seam ms1 ms2 before ->
    let sole := Nat.eqb (length (cut None 0 [] ms1) + length (cut before 0 [] ms2)) 1 in
    let first := kinded sole false (cut None 0 [] ms1) in
    let second := kinded sole (existsb is_condition (map snd first)) (cut before 0 [] ms2) in
    clauses_reported id id' r l
      (map (clause_row (ll_tokens l1)) first ++ map (moved_row (length (ll_tokens l1))) (map (clause_row (ll_tokens l2)) second)).
Proof.
  intros tg sz i1 i2 l l1 l2 r id id' ms1 ms2 before HW1 HW2 NK NT NC H C1 C2 M1 M2 HS sole first second.
  destruct (thm_C55_join tg sz i1 i2 l HW1 HW2 H) as (x1 & x2 & E1 & E2 & ET & _).
  assert (x1 = l1) by congruence. assert (x2 = l2) by congruence. subst x1 x2. clear E1 E2.
  pose proof (Forall2_app M1 (marked_moved r (length (ll_tokens l1)) (end_of l1) (2 ^ usize_bits tg) _ _ M2)) as HM. rewrite <- ET in HM.
  pose proof (thm_C81_scan tg sz (i1 ++ i2) l r id id' _ ltac:(now apply Forall_app) NK NT NC H HM) as HR.
  assert (ES : scanned (ms1 ++ ms2) = first ++ map (fun x => (moved_range (length ms1) (fst x), snd x)) second).
  { unfold scanned. rewrite (cut_app ms1 None 0 [] ms2 before HS). cbn [length]. rewrite Nat.add_0_l.
    pose proof (cut_moved (length ms1) ms2 before 0 []) as EM. rewrite Nat.add_0_r in EM. rewrite EM. cbv zeta.
    rewrite app_length, map_length. fold sole. rewrite kinded_app. cbn [orb]. fold first. rewrite kinded_moved by apply cut_bodies. reflexivity. }
  rewrite ES, map_app, map_map in HR. rewrite (marks_length _ _ _ M1) in HR.
  replace (map (clause_row (ll_tokens l1)) first) with (map (clause_row (ll_tokens l)) first).
  - rewrite map_map. assert (EM : map (fun x => moved_row (length (ll_tokens l1)) (clause_row (ll_tokens l2) x)) second
      = map (fun x => clause_row (ll_tokens l) (moved_range (length (ll_tokens l1)) (fst x), snd x)) second); [|rewrite EM; exact HR].
    apply map_ext. intros [[a b] c]. unfold clause_row, moved_row. cbn [fst snd]. do 2 f_equal. rewrite ET. symmetry.
    exact (text_between_right (ll_tokens l1) (ll_tokens l2) (end_of l1) (2 ^ usize_bits tg) (a, b)).
  - apply map_ext_in. intros [[a b] c] Hin. unfold clause_row. cbn [fst snd]. do 2 f_equal. rewrite ET.
    destruct (cut_facts ms1 ms1 [] None [] 0 eq_refl eq_refl (Forall_nil _) (or_introl (conj eq_refl eq_refl))) as (F1 & _).
    assert (HB : Forall (fun x => last_of x < length ms1) (cut None 0 [] ms1)).
    { eapply Forall_impl; [|exact F1]. intros x [Hx _]. apply (stretch_in_bounds _ _ Hx). }
    pose proof (kinded_ranges sole _ _ false HB) as HF. rewrite Forall_forall in HF. destruct (HF _ Hin) as [L1 L2]. cbn [fst snd] in L1, L2.
    rewrite (marks_length _ _ _ M1) in L1, L2. now apply text_between_left.
Qed.

End ThmScan.
