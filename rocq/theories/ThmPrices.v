(** Proofs about prices in ASCII text (C93). *)

From Verif Require Export SpecPrices ThmKeys ThmSentence ThmCurrency.

Section C93.
Context {UC : Unicode} {U : UserTypes}.

Lemma combine_in_l {A B} (xs : list A) (ys : list B) x : length xs = length ys -> In x xs -> exists y, In (x, y) (combine xs ys).
Proof.
  revert ys. induction xs as [|x0 xs IH]; intros [|y0 ys] L Hx; try discriminate; [destruct Hx|]. destruct Hx as [->|Hx]; [exists y0; now left|].
  destruct (IH ys) as (y & Hy); [now injection L|exact Hx|]. exists y. now right.
Qed.
Lemma parsed_dec (parse : str -> option Decimal) xs : (exists ds, all_parsed parse xs ds) \/ exists x, In x xs /\ parse (snd x) = None.
Proof.
  induction xs as [|x xs [(ds & IH)|(y & Hy & E)]]; [left; exists []; constructor| |right; exists y; split; [now right|exact E]].
  destruct (parse (snd x)) as [d|] eqn:E; [left; exists (d :: ds); now constructor|right; exists x; split; [now left|exact E]].
Qed.
Lemma parsed_in parse xs ds x d : all_parsed parse xs ds -> In (x, d) (combine xs ds) -> parse (snd x) = Some d.
Proof. intros H. induction H as [|x0 d0 xs ds E H IH]; intros K; [destruct K|]. destruct K as [K|K]; [now injection K as <- <-|auto]. Qed.
Lemma forall2_l {A B} (R : A -> B -> Prop) xs ys x : Forall2 R xs ys -> In x xs -> exists y, In y ys /\ R x y.
Proof. intros H. induction H as [|x0 y0 xs ys E H IH]; intros K; [destruct K|]. destruct K as [->|K]; [exists y0; split; [now left|exact E]|]. destruct (IH K) as (y & Hy & Hr). exists y. split; [now right|exact Hr]. Qed.
Lemma forall2_r {A B} (R : A -> B -> Prop) xs ys y : Forall2 R xs ys -> In y ys -> exists x, In x xs /\ R x y.
Proof. intros H. induction H as [|x0 y0 xs ys E H IH]; intros K; [destruct K|]. destruct K as [->|K]; [exists x0; split; [now left|exact E]|]. destruct (IH K) as (x & Hx & Hr). exists x. split; [now right|exact Hr]. Qed.

(** Positions are determined by the text before them. *)
Lemma firstn_same (ts : list str) : Forall (fun t => t <> []) ts -> forall i j, i <= length ts -> j <= length ts ->
  concat (firstn i ts) = concat (firstn j ts) -> i = j.
Proof.
  induction 1 as [|t ts Ht F IH]; intros [|i] [|j] Hi Hj E; cbn [length firstn concat] in *; try lia.
  - symmetry in E. apply app_eq_nil in E. tauto.
  - apply app_eq_nil in E. tauto.
  - f_equal. apply IH; [lia|lia|]. now apply app_inv_head in E.
Qed.

Context (SL : SegmenterLaws) (colon : bool) (AL : AsciiLaws colon) (tg : Target) (sz : str -> N) (s : str) (ats : list AnyAttribute) (l : LLLine)
  (HA : ascii s) (HW : Forall wf_attribute ats) (HC : create_line_from_input_tokens tg [InText s ats] sz = Ok l).

Lemma texts_nonempty : Forall (fun t => t <> []) (token_texts l).
Proof.
  apply Forall_forall. intros t Ht. unfold token_texts in Ht. apply in_map_iff in Ht. destruct Ht as (tok & <- & Ht).
  destruct (thm_C92_tokens SL colon AL tg sz s ats l tok HA HW HC Ht) as (t & tag & -> & (N & _)). exact N.
Qed.

Lemma sign_token b c a : ~ joining colon c -> s = b ++ c :: a -> exists tag, token_at l b [c] tag a.
Proof.
  intros NJ E.
  assert (NU1 : forall p d q, ~ ub colon p c d q) by (intros p d q K; apply NJ; unfold joining, ub, alnum in *; cbn [In]; intuition).
  assert (NU2 : forall p d q, ~ ub colon p d c q) by (intros p d q K; apply NJ; unfold joining, ub, alnum in *; cbn [In]; intuition).
  assert (Nd : ~ starts_in [c] ascii_digit) by (intros (d & q & K & Hd); injection K as <- _; apply NJ; right; now left).
  destruct (chunk_tagged [c]) as (tag & HT); [discriminate|exact Nd|]. exists tag.
  apply (thm_C89_all SL colon AL tg sz s ats l _ _ _ _ HA HW HC). split; [now symmetry|].
  exists b, [], [], a. cbn [app]. split; [now rewrite app_nil_r|]. split; [reflexivity|]. split.
  - split; [discriminate|]. split; [|split].
    + destruct b as [|b0 b'] eqn:Eb; [now left|]. right; right. assert (N : b0 :: b' <> []) by discriminate. destruct (exists_last N) as (z & d & ->). cbn [app]. rewrite unbroken_ub. apply NU2.
    + destruct a as [|d q]; [right; now left|]. right; right. rewrite unbroken_ub. apply NU1.
    + intros x y Nx Ny K. destruct x as [|? [|? ?]]; [easy| |discriminate]. injection K as _ <-. easy.
  - right. auto.
Qed.

Lemma dollar_not_joining : ~ joining colon 36%N.
Proof. unfold joining, mid_letter, mid_number, ascii_letter, ascii_digit. cbn [In]. destruct colon; lia. Qed.

Lemma dollar_at b a : s = b ++ dollar ++ a -> exists i, text_at (ll_tokens l) i dollar /\ concat (firstn i (token_texts l)) = b /\ S i <= length (ll_tokens l).
Proof.
  intros E. destruct (sign_token b 36%N a dollar_not_joining E) as (tag & ts1 & ts2 & Et & E1 & E2). exists (length ts1).
  assert (L : nth_error (map token (ll_tokens l)) (length ts1) = Some (LText [36%N] tag)) by (rewrite Et; rewrite nth_error_app2 by lia; now rewrite Nat.sub_diag).
  rewrite nth_error_map in L. destruct (nth_error (ll_tokens l) (length ts1)) as [tok|] eqn:EN; [|discriminate]. injection L as L.
  split; [exists tok, tag; auto|]. split.
  - unfold token_texts. rewrite <- (map_map token ltext), firstn_map, Et, firstn_app, Nat.sub_diag, firstn_all, app_nil_r. exact E1.
  - apply (proj1 (Nat.le_succ_l _ _)). apply nth_error_Some. congruence.
Qed.

Lemma texts_step i t : text_at (ll_tokens l) i t -> i < length (ll_tokens l) /\ concat (firstn (S i) (token_texts l)) = concat (firstn i (token_texts l)) ++ t.
Proof.
  intros (tok & tag & EN & Et). assert (Hi : i < length (ll_tokens l)) by (apply nth_error_Some; congruence). split; [exact Hi|].
  rewrite (text_between_firstn l i i) by lia. f_equal. unfold text_between. replace (S i - i) with 1 by lia. cbn [seq flat_map]. rewrite EN, app_nil_r. unfold token_str. now rewrite Et.
Qed.
Lemma texts_all : concat (token_texts l) = s.
Proof. destruct (text_pieces SL tg sz s ats l HW HC) as (ps & ET & ES & _). now rewrite (token_texts_pieces l ps ET). Qed.
Lemma texts_length : length (token_texts l) = length (ll_tokens l).
Proof. unfold token_texts. apply map_length. Qed.
End C93.

Section Main.
Context {UC : Unicode} {U : UserTypes}.

(** C93: the prices of an ASCII text. *)
Lemma thm_C93_prices :
  forall (SL : SegmenterLaws) colon (AL : AsciiLaws colon) tS tC (usd euro : den tS) (f : den tS * Decimal -> den tC) tg sz s ats l parse r id1 id2 id3 l1 l2,
    ascii s -> digits_apart s -> no_digit_signs r -> plain_decimal r -> Forall wf_attribute ats ->
    NoDup [TChar; TTextTag; TAmount; tS; tC] ->
    (forall t, In t [TChar; TTextTag; TAmount; tS; tC] -> none_of t [InText s ats]) ->
    create_line_from_input_tokens tg [InText s ats] sz = Ok l ->
    run id1 l (currency_symbol_resolver tS usd euro) = Ok l1 ->
    run id2 l1 (amount_go parse r) = Ok l2 ->
    exists l3 crows, run id3 l2 (currency_amount_resolver tS TAmount tC f) = Ok l3 /\ ll_tokens l3 = ll_tokens l /\ query l3 tC = Ok crows
      /\ (forall row, In row crows -> exists before c, reported_on l crows before (snd (fst row)) c)
      /\ forall before text c, reported_on l crows before text c <-> exists d, c = f (usd, d) /\ price parse r s before text d.
Proof.
  intros SL colon AL tS tC usd euro f tg sz s ats l parse r id1 id2 id3 l1 l2 HA HD HN HP HW ND HNone HC R1 R2.
  assert (HW' : Forall wf_input [InText s ats]) by (constructor; [exact HW|constructor]).
  assert (HT : Forall is_text [InText s ats]) by (constructor; [exact I|constructor]).
  destruct (thm_C64_currency tS tC usd euro f tg sz _ l parse r id1 id2 id3 l1 l2 HW' HT ND HNone HC R1 R2) as (l3 & la & arows & crows & R3 & ET & _ & Ra & Qa & _ & Qc & HRows & HIff).
  exists l3, crows. split; [exact R3|]. split; [exact ET|]. split; [exact Qc|].
  assert (HNone3 : forall t, In t [TTextTag; TChar; TAmount] -> none_of t [InText s ats]) by (intros t Ht; apply HNone; cbn [In] in *; tauto).
  destruct (thm_C90_amounts SL colon AL tg sz s ats l parse r id2 HA HD HN HP HW HNone3 HC) as [HAm HRef].
  destruct (parsed_dec parse (numbers_in r s)) as [(ds & HPd)|HR]; [|destruct (HRef HR) as (p & EP); congruence].
  destruct (HAm ds HPd) as (la' & rows & Ra' & Qa' & HF). rewrite Ra in Ra'. injection Ra' as <-. rewrite Qa in Qa'. injection Qa' as <-. clear HAm HRef Ra Qa.
  pose proof (texts_nonempty SL colon AL tg sz s ats l HA HW HC) as HNE.
  pose proof (texts_length l) as HL. pose proof (texts_all SL tg sz s ats l HW HC) as HS.
  assert (LEN : length (numbers_in r s) = length ds) by (clear - HPd; unfold all_parsed in HPd; symmetry; now apply Forall2_length_eq in HPd).
  (* a reported amount is a number found *)
  assert (AR : forall i j d, reports arows (i, j) d -> exists t x, In (concat (firstn i (token_texts l)), t, x) (numbers_in r s) /\ parse x = Some d
     /\ i <= j < length (ll_tokens l) /\ concat (firstn (S j) (token_texts l)) = concat (firstn i (token_texts l)) ++ t).
  { intros i j d (text & vs & Hin & Hd). destruct (forall2_r _ _ _ _ HF Hin) as ([[[b t] x] d'] & Hc & E1 & E2 & Hij & Eb & Et). subst.
    destruct Hd as [<-|[]]. exists t, x. split; [apply in_combine_l in Hc; exact Hc|]. split; [exact (parsed_in parse _ _ _ _ HPd Hc)|]. auto. }
  (* and back *)
  assert (RA : forall b t x d, In (b, t, x) (numbers_in r s) -> parse x = Some d -> exists i j, reports arows (i, j) d
     /\ i <= j < length (ll_tokens l) /\ concat (firstn i (token_texts l)) = b /\ concat (firstn (S j) (token_texts l)) = b ++ t).
  { intros b t x d Hin HPx. destruct (combine_in_l _ _ _ LEN Hin) as (d' & Hc). pose proof (parsed_in parse _ _ _ _ HPd Hc) as E. cbn [snd] in E. rewrite HPx in E. injection E as <-.
    destruct (forall2_l _ _ _ _ HF Hc) as ([[[i j] text] vs] & Hr & E1 & E2 & Hij & Eb & Et). subst. exists i, j. split; [exists t, [d]; split; [exact Hr|now left]|]. auto. }
  assert (NE : forall i t, text_at (ll_tokens l) i t -> t <> euro_sign).
  { intros i t Hat ->. destruct (texts_step l i _ Hat) as (Hi & E).
    assert (K : In 8364%N s). { rewrite <- HS, <- (firstn_skipn (S i) (token_texts l)), concat_app, E. rewrite !in_app_iff. left; right. now left. }
    unfold ascii in HA. rewrite Forall_forall in HA. specialize (HA _ K). lia. }
  assert (SYM : forall i v, symbol_at usd euro (ll_tokens l) i v -> text_at (ll_tokens l) i dollar /\ v = usd).
  { intros i v [H|[H _]]; [exact H|]. now elim (NE _ _ H). }
  split.
  - intros [[[i j] text] vs] Hin. cbn [fst snd]. destruct (HRows _ _ _ _ Hin) as (Hij & ->).
    assert (NV : vs <> []).
    { destruct (created_fresh tg sz _ l HW' HC) as (lg & H & _). destruct (history_run _ _ _ _ _ H R1) as (lg1 & H1). destruct (history_run _ _ _ _ _ H1 R2) as (lg2 & H2). destruct (history_run _ _ _ _ _ H2 R3) as (lg3 & H3).
      destruct (thm_C10_rows l3 lg3 tC crows H3 Qc) as (_ & _ & K). now apply (K _ _ _ Hin). }
    destruct vs as [|v vs]; [easy|]. exists (concat (firstn i (token_texts l))), v. exists i, j, (v :: vs). split; [exact Hin|]. split; [now left|]. split; [exact Hij|]. split; [reflexivity|]. now apply text_between_firstn.
  - intros before text c. split.
    + intros (i & j & vs & Hin & Hv & Hij & Eb & Et). destruct (proj1 (HIff i j c)) as (v & a & -> & HPr); [exists text, vs; auto|]. exists a.
      destruct HPr as [(Hsym & Hrep)|(e & E & Hrep & Hsym)]; cbn [fst snd] in *.
      * destruct (SYM _ _ Hsym) as (Hat & ->). split; [reflexivity|]. destruct (AR _ _ _ Hrep) as (t & x & Hf & HPx & Hij' & Et'). destruct (texts_step l i _ Hat) as (_ & Es). rewrite Es, Eb in Hf, Et'.
        assert (text = dollar ++ t) as -> by (rewrite Et, <- app_assoc in Et'; now apply app_inv_head in Et'). now apply dollar_first with (spells := x).
      * subst j. destruct (SYM _ _ Hsym) as (Hat & ->). split; [reflexivity|]. destruct (AR _ _ _ Hrep) as (t & x & Hf & HPx & Hij' & Et'). destruct (texts_step l _ _ Hat) as (_ & Es). rewrite Et', Eb in Es. rewrite Eb in Hf.
        assert (text = t ++ dollar) as -> by (rewrite Et, <- app_assoc in Es; now apply app_inv_head in Es).
        apply dollar_last with (spells := x) (after := concat (skipn (S (S e)) (token_texts l))); [exact Hf|exact HPx|].
        rewrite <- HS, <- (firstn_skipn (S (S e)) (token_texts l)) at 1. rewrite concat_app, Et, <- !app_assoc. reflexivity.
    + intros (d & -> & HPr).
      assert (ROW : forall i j, reports crows (i, j) (f (usd, d)) -> concat (firstn i (token_texts l)) = before -> concat (firstn (S j) (token_texts l)) = before ++ text -> reported_on l crows before text (f (usd, d))).
      { intros i j (text' & vs & Hin & Hv) Eb Et. destruct (HRows _ _ _ _ Hin) as (Hij & E). pose proof (text_between_firstn l i j Hij) as TB. rewrite Et, Eb in TB. apply app_inv_head in TB. rewrite <- E in TB. subst text'.
        exists i, j, vs. split; [rewrite TB; exact Hin|]. split; [exact Hv|]. split; [exact Hij|]. split; [exact Eb|exact Et]. }
      destruct HPr as [b t x d Hf HPx|b t x a d Hf HPx Es].
      * destruct (RA _ _ _ _ Hf HPx) as (i' & j & Hrep & Hij & Eb & Et).
        assert (Es : s = b ++ dollar ++ concat (skipn i' (token_texts l))) by (rewrite <- HS, <- (firstn_skipn i' (token_texts l)) at 1; rewrite concat_app, Eb, <- app_assoc; reflexivity).
        destruct (dollar_at SL colon AL tg sz s ats l HA HW HC _ _ Es) as (i & Hat & Eb' & Hi). destruct (texts_step l i _ Hat) as (_ & Es').
        assert (i' = S i) as -> by (apply (firstn_same _ HNE); [lia|lia|now rewrite Es', Eb', Eb]).
        apply (ROW i j); [|exact Eb'|now rewrite Et, <- app_assoc]. apply HIff. exists usd, d. split; [reflexivity|]. left. cbn [fst snd]. split; [now left|exact Hrep].
      * destruct (RA _ _ _ _ Hf HPx) as (i & j & Hrep & Hij & Eb & Et). rewrite app_assoc in Es.
        destruct (dollar_at SL colon AL tg sz s ats l HA HW HC _ _ Es) as (k & Hat & Eb' & Hk). destruct (texts_step l k _ Hat) as (_ & Es').
        assert (S j = k) as Ek by (apply (firstn_same _ HNE); [lia|lia|now rewrite Et, Eb']). subst k.
        apply (ROW i (S j)); [|exact Eb|now rewrite Es', Eb', <- app_assoc]. apply HIff. exists usd, d. split; [reflexivity|]. right. exists j. cbn [fst snd]. split; [reflexivity|]. split; [exact Hrep|now left].
Qed.

Lemma written_char r w c : well_written r w -> In c (concat (SpecWritten.parts_of r w)) -> decimal_digit c = true \/ In c (signs r).
Proof.
  intros (W1 & W2 & W3) H. assert (AD : forall g, all_digits g -> In c g -> decimal_digit c = true) by (intros g (_ & F) Hg; rewrite Forall_forall in F; now apply F).
  unfold SpecWritten.parts_of in H. cbn [concat] in H. rewrite concat_app, !in_app_iff in H. unfold signs. destruct H as [H|[H|H]].
  - left. eauto.
  - rewrite Forall_forall in W2. apply in_concat in H. destruct H as (x & Hx & Hc). apply in_flat_map in Hx. destruct Hx as ((d & g) & Hp & Hx). destruct (W2 _ Hp) as (Hd & Hg). cbn [fst snd] in *.
    destruct Hx as [<-|[<-|[]]]; [destruct Hc as [<-|[]]; right; cbn [In]; tauto|left; eauto].
  - destruct (fraction w) as [fr|]; [|destruct H]. destruct W3 as (W3 & _). cbn [concat app] in H. rewrite app_nil_r in H. destruct H as [<-|H]; [right; cbn [In]; tauto|left; eauto].
Qed.

Lemma number_around r s p c q : no_digit_signs r -> ~ In 36%N (signs r) -> s = p ++ c :: q -> ascii_digit c ->
  exists b t1 t2 x, In (b, t1 ++ c :: t2, x) (numbers_in r s) /\ p = b ++ t1
    /\ ~ In 36%N (t1 ++ c :: t2) /\ exists a, q = t2 ++ a /\ ~ starts_in a ascii_digit.
Proof.
  intros HN HD Es Hc. assert (HS0 : state_ok r Nothing []) by (intros C; now apply ends_in_nil in C).
  assert (Hc' := Hc). apply digit_iff in Hc'. destruct (digit_found r p Nothing [] c q HS0 Hc') as (b & t1 & t2 & x & Hx & Ep). rewrite <- Es in Hx. cbn [app] in Ep.
  exists b, t1, t2, x. split; [exact Hx|]. split; [exact Ep|]. pose proof (found_good r HN s Nothing [] HS0) as FG. rewrite Forall_forall in FG. destruct (FG _ Hx) as (a & Ea & _ & Na & w & W1 & W2 & _).
  cbn [app] in Ea. split.
  - rewrite W2. intros C. apply (written_char r w 36%N W1) in C. destruct C as [C|C]; [discriminate|contradiction].
  - exists a. split; [|now rewrite dig_starts]. rewrite Es, Ep, <- !app_assoc in Ea. apply app_inv_head in Ea. rewrite <- app_comm_cons in Ea. apply app_inv_head in Ea. now injection Ea.
Qed.

(** C93: no price is overlooked. *)
Lemma thm_C93_dollars :
  forall (SL : SegmenterLaws) colon (AL : AsciiLaws colon) tS tC (usd euro : den tS) (f : den tS * Decimal -> den tC) tg sz s ats l parse r id1 id2 id3 l1 l2 l3 crows,
    ascii s -> digits_apart s -> no_digit_signs r -> plain_decimal r -> ~ In 36%N (signs r) -> Forall wf_attribute ats ->
    NoDup [TChar; TTextTag; TAmount; tS; tC] ->
    (forall t, In t [TChar; TTextTag; TAmount; tS; tC] -> none_of t [InText s ats]) ->
    create_line_from_input_tokens tg [InText s ats] sz = Ok l ->
    run id1 l (currency_symbol_resolver tS usd euro) = Ok l1 ->
    run id2 l1 (amount_go parse r) = Ok l2 ->
    run id3 l2 (currency_amount_resolver tS TAmount tC f) = Ok l3 -> query l3 tC = Ok crows ->
    (forall p c q, s = p ++ dollar ++ c :: q -> ascii_digit c ->
       exists t d, reported_on l crows p (dollar ++ c :: t) (f (usd, d)))
    /\ (forall p c q, s = p ++ c :: dollar ++ q -> ascii_digit c ->
       exists b t d, p = b ++ t /\ reported_on l crows b ((t ++ [c]) ++ dollar) (f (usd, d))).
Proof.
  intros SL colon AL tS tC usd euro f tg sz s ats l parse r id1 id2 id3 l1 l2 l3 crows HA HD HN HP HS HW ND HNone HC R1 R2 R3 Qc.
  destruct (thm_C93_prices SL colon AL tS tC usd euro f tg sz s ats l parse r id1 id2 id3 l1 l2 HA HD HN HP HW ND HNone HC R1 R2) as (l3' & crows' & R3' & _ & Qc' & _ & HIff).
  rewrite R3 in R3'. injection R3' as <-. rewrite Qc in Qc'. injection Qc' as <-.
  assert (PA : forall x, In x (numbers_in r s) -> exists d, parse (snd x) = Some d).
  { assert (HW' : Forall wf_input [InText s ats]) by (constructor; [exact HW|constructor]). assert (HT : Forall is_text [InText s ats]) by (constructor; [exact I|constructor]).
    destruct (thm_C64_currency tS tC usd euro f tg sz _ l parse r id1 id2 id3 l1 l2 HW' HT ND HNone HC R1 R2) as (_ & la & _ & _ & _ & _ & _ & Ra & _).
    assert (HNone3 : forall t, In t [TTextTag; TChar; TAmount] -> none_of t [InText s ats]) by (intros t Ht; apply HNone; cbn [In] in *; tauto).
    destruct (thm_C90_amounts SL colon AL tg sz s ats l parse r id2 HA HD HN HP HW HNone3 HC) as [_ HRef].
    intros x Hx. destruct (parse (snd x)) as [d|] eqn:E; [eauto|]. destruct HRef as (pn & EP); [eauto|congruence]. }
  split.
  - intros p c q Es Hc. rewrite app_assoc in Es. destruct (number_around r s _ c q HN HS Es Hc) as (b & t1 & t2 & x & Hx & Ep & NI & _).
    assert (t1 = []) as ->.
    { destruct t1 as [|c0 t0] eqn:E1; [reflexivity|exfalso]. assert (N : c0 :: t0 <> []) by discriminate. destruct (exists_last N) as (z & e & Ez). rewrite Ez, app_assoc in Ep. apply app_inj_tail in Ep. destruct Ep as [_ <-].
      apply NI. rewrite Ez. rewrite !in_app_iff. left; right. now left. }
    rewrite app_nil_r in Ep. subst b. destruct (PA _ Hx) as (d & Hd). exists t2, d. apply HIff. exists d. split; [reflexivity|]. now apply dollar_first with (spells := x).
  - intros p c q Es Hc. destruct (number_around r s _ c _ HN HS Es Hc) as (b & t1 & t2 & x & Hx & Ep & NI & a & Ea & Na).
    assert (t2 = []) as ->.
    { destruct t2 as [|c0 t0] eqn:E1; [reflexivity|exfalso]. injection Ea as <- _. apply NI. rewrite in_app_iff. right. right. now left. }
    cbn [app] in Ea. destruct (PA _ Hx) as (d & Hd). exists b, t1, d. split; [exact Ep|]. apply HIff. exists d. split; [reflexivity|]. apply dollar_last with (spells := x) (after := q); [exact Hx|exact Hd|].
    rewrite Es, Ep, <- !app_assoc. reflexivity.
Qed.
End Main.
