(** Numbers as they are written are read back (C79). *)

From Verif Require Export ThmJoin ThmWords SpecWritten.

Section ThmWritten.
Context {UC : Unicode} {U : UserTypes}.

Lemma digits_at_number tg sz input l i :
  Forall wf_input input -> create_line_from_input_tokens tg input sz = Ok l ->
  (digits_at (ll_tokens l) i <-> number_at (ll_tokens l) i).
Proof.
  intros HW HC. split.
  - intros (s & (tok & tag & Hn & Et) & HD). exists tok, s. split; [exact Hn|].
    pose proof (thm_C05_natn tg sz input l tok s tag HW HC (nth_error_In _ _ Hn) Et) as T. apply T in HD. now subst.
  - intros (tok & s & Hn & Et). exists s. split; [now exists tok, NATN|].
    now apply (thm_C05_natn tg sz input l tok s NATN HW HC (nth_error_In _ _ Hn) Et).
Qed.

Lemma text_number tg sz input l lg i s :
  Forall wf_input input -> create_line_from_input_tokens tg input sz = Ok l -> plain TTextTag l lg ->
  text_at (ll_tokens l) i s -> all_digits s -> number l lg i s.
Proof.
  intros HW HC PT Ht HD. apply (number_plain l lg i s PT). split; [exact Ht|].
  apply (digits_at_number tg sz input l i HW HC). now exists s.
Qed.

Lemma texts_at_app toks k a b : texts_at toks k (a ++ b) -> texts_at toks k a /\ texts_at toks (k + length a) b.
Proof.
  intros H. split; intros i s E.
  - apply H. rewrite nth_error_app1; [exact E|]. apply nth_error_Some. congruence.
  - rewrite <- Nat.add_assoc. apply H. rewrite nth_error_app2; [|lia]. rewrite <- E. f_equal. lia.
Qed.

Lemma texts_between toks k texts : texts <> [] -> texts_at toks k texts ->
  text_between toks k (k + length texts - 1) = concat texts.
Proof.
  intros HN HT. unfold text_between. replace (S (k + length texts - 1) - k) with (length texts) by (destruct texts; [easy|cbn [length]; lia]).
  clear HN. revert k HT. induction texts as [|p ps IH]; intros k HT; [reflexivity|].
  cbn [length seq flat_map concat]. rewrite (IH (S k)).
  - f_equal. destruct (HT 0 p eq_refl) as (tok & tag & Hn & Et). rewrite Nat.add_0_r in Hn. rewrite Hn. unfold token_str. now rewrite Et.
  - intros i s E. specialize (HT (S i) s E). now replace (k + S i) with (S k + i) in HT by lia.
Qed.

Section Line.
Context (l : LLLine) (lg : list entry) (r : AmountResolver).
Context (HNum : forall i s, text_at (ll_tokens l) i s -> all_digits s -> number l lg i s).
Context (PC : plain TChar l lg).

Lemma text_char i c cs : text_at (ll_tokens l) i [c] -> In c cs -> has_char lg cs i.
Proof. intros Ht Hc. apply (has_char_plain l lg _ _ PC). now exists c. Qed.

Lemma more_groups_at k : forall more e text,
  groups_at l lg r k e text ->
  Forall (fun p => In (fst p) (delimiters r) /\ all_digits (snd p)) more ->
  texts_at (ll_tokens l) (e + 1) (flat_map (fun p => [[fst p]; snd p]) more) ->
  groups_at l lg r k (e + 2 * length more) (text ++ concat (map snd more)).
Proof.
  induction more as [|[c g] more IH]; intros e text HG HF HT.
  - cbn [length map concat]. now rewrite Nat.mul_0_r, Nat.add_0_r, app_nil_r.
  - inversion HF as [|? ? [Hc Hg] HF']; subst. cbn [fst snd flat_map] in *.
    change ([[c]; g] ++ ?x) with ([c] :: g :: x) in HT.
    cbn [map concat length snd]. rewrite app_assoc. replace (e + 2 * S (length more)) with (e + 2 + 2 * length more) by lia.
    apply IH; [|assumption|].
    + apply G_more; [exact HG| |].
      * apply (text_char _ c); [|exact Hc]. specialize (HT 0 [c] eq_refl). now rewrite Nat.add_0_r in HT.
      * apply HNum; [|exact Hg]. specialize (HT 1 g eq_refl). now replace (e + 1 + 1) with (e + 2) in HT by lia.
    + intros i s E. specialize (HT (S (S i)) s E). now replace (e + 1 + S (S i)) with (e + 2 + 1 + i) in HT by lia.
Qed.

Lemma flat_pairs_length (more : list (char * str)) : length (flat_map (fun p => [[fst p]; snd p]) more) = 2 * length more.
Proof. induction more as [|p more IH]; [reflexivity|]. cbn [flat_map length app]. rewrite IH. lia. Qed.

Lemma parts_length w : length (parts_of r w) = 1 + 2 * length (more_groups w) + match fraction w with Some _ => 2 | None => 0 end.
Proof. unfold parts_of. cbn [length]. rewrite app_length, flat_pairs_length. destruct (fraction w); cbn [length]; lia. Qed.

Lemma written_groups w k : well_written r w -> texts_at (ll_tokens l) k (parts_of r w) ->
  groups_at l lg r k (k + 2 * length (more_groups w)) (first_group w ++ concat (map snd (more_groups w)))
  /\ forall f, fraction w = Some f ->
       text_at (ll_tokens l) (k + 2 * length (more_groups w) + 1) [decimal r] /\ number l lg (k + 2 * length (more_groups w) + 2) f.
Proof.
  intros (D1 & D2 & D3) HT. unfold parts_of in HT.
  change (first_group w :: ?x) with ([first_group w] ++ x) in HT.
  apply texts_at_app in HT. destruct HT as [T1 HT]. cbn [length] in HT. apply texts_at_app in HT. destruct HT as [T2 T3].
  rewrite flat_pairs_length in T3. split.
  - apply more_groups_at; auto. constructor. apply HNum; [|exact D1]. specialize (T1 0 _ eq_refl). now rewrite Nat.add_0_r in T1.
  - intros f Ef. rewrite Ef in *. destruct D3 as [D3 D4]. split.
    + specialize (T3 0 _ eq_refl). now replace (k + 1 + 2 * length (more_groups w) + 0) with (k + 2 * length (more_groups w) + 1) in T3 by lia.
    + apply HNum; [|exact D3]. specialize (T3 1 _ eq_refl).
      now replace (k + 1 + 2 * length (more_groups w) + 1) with (k + 2 * length (more_groups w) + 2) in T3 by lia.
Qed.

Lemma sign_iff i : char_at (ll_tokens l) (signs r) i <-> is_delimiter lg r i \/ is_decimal lg r i.
Proof.
  unfold is_delimiter, is_decimal. rewrite !(has_char_plain l lg _ _ PC). unfold char_at, signs. split.
  - intros (c & A & [<-|B]); [right|left]; eexists; split; eauto. now left.
  - intros [(c & A & B)|(c & A & [<-|[]])]; eexists; split; eauto; [now right|now left].
Qed.

(** The amount that starts where a written number starts. *)
Lemma written_amount w k e u text : well_written r w -> texts_at (ll_tokens l) k (parts_of r w) ->
  (forall i, digits_at (ll_tokens l) i <-> is_number l lg i) ->
  (fraction w = None -> ends_apart (ll_tokens l) r (k + 2 * length (more_groups w))) ->
  amount_at l lg r k e u text ->
  e + 1 = k + length (parts_of r w)
  /\ ((fraction w = None /\ sign_after (ll_tokens l) r e /\ text = denoted w ++ point)
      \/ (~ (fraction w = None /\ sign_after (ll_tokens l) r e) /\ text = denoted w)).
Proof.
  intros HW HT HDig HE HAm. destruct (written_groups w k HW HT) as (HG & HFr). rewrite parts_length. unfold denoted.
  destruct (fraction w) as [f|] eqn:Ef.
  - destruct (HFr f eq_refl) as (F1 & F2). destruct HW as (_ & _ & HW). rewrite Ef in HW. destruct HW as (_ & HW).
    assert (A : amount_at l lg r k (k + 2 * length (more_groups w) + 2) (k + 2 * length (more_groups w) + 2)
      ((first_group w ++ concat (map snd (more_groups w))) ++ point ++ f)).
    { apply A_decimal; auto.
      - intros C. unfold is_delimiter in C. rewrite (has_char_plain l lg _ _ PC) in C. destruct C as (c & C1 & C2).
        pose proof (text_at_fun _ _ _ _ F1 C1) as E. injection E as <-. auto.
      - apply (text_char _ (decimal r)); [assumption|now left]. }
    destruct (amount_fun _ _ _ _ _ _ _ _ _ _ A HAm) as (<- & _ & <-). split; [lia|]. right. rewrite <- app_assoc.
    split; [|reflexivity]. intros [C _]. discriminate.
  - destruct (HE eq_refl) as (E1 & E2). rewrite sign_iff, !HDig in E2. rewrite HDig in E1. rewrite app_nil_r.
    assert (HEq : forall e0 t0, groups_at l lg r k e0 t0 -> ~ (is_delimiter lg r (e0 + 1) /\ is_number l lg (e0 + 2)) ->
       e0 = k + 2 * length (more_groups w) /\ t0 = first_group w ++ concat (map snd (more_groups w))).
    { intros e0 t0 G0 N0. apply (groups_end_fun l lg r k); split; auto. tauto. }
    unfold sign_after. rewrite <- !(has_char_plain l lg _ _ PC).
    destruct HAm as [e t G0 Hr Hnd Hd Hn | e t G0 Hd Hn | e t1 t2 G0 Hnd Hd Hn | e t G0 Hnd Hd Hn | e t1 t2 G0 Hr Hnd Hd Hn];
      destruct (HEq _ _ G0 ltac:(tauto)) as (-> & ->); unfold is_delimiter, is_decimal in *.
    + split; [lia|]. right. tauto.
    + split; [lia|]. right. tauto.
    + exfalso. apply E2. split; [tauto|]. eexists; eauto.
    + split; [lia|]. left. tauto.
    + exfalso. apply E1. eexists; eauto.
Qed.
End Line.

(** C79: among other tokens. *)
Lemma thm_C79_within :
  forall tg sz input l parse r id l' w k,
    Forall wf_input input -> none_of TTextTag input -> none_of TChar input -> none_of TAmount input ->
    create_line_from_input_tokens tg input sz = Ok l -> no_digit_signs r ->
    run id l (amount_go parse r) = Ok l' ->
    well_written r w -> texts_at (ll_tokens l) k (parts_of r w) -> starts_apart (ll_tokens l) r k ->
    (fraction w = None -> ends_apart (ll_tokens l) r (k + length (parts_of r w) - 1)) ->
    exists rows d text, query l' TAmount = Ok rows
      /\ In ((k, k + length (parts_of r w) - 1), concat (parts_of r w), [d]) rows /\ parse text = Some d
      /\ ((fraction w = None /\ sign_after (ll_tokens l) r (k + length (parts_of r w) - 1) /\ text = denoted w ++ point)
          \/ (~ (fraction w = None /\ sign_after (ll_tokens l) r (k + length (parts_of r w) - 1)) /\ text = denoted w)).
Proof.
  intros tg sz input l parse r id l' w k HW HT HCh HA HC HD HR HWr HTx HSt HEn.
  destruct (thm_C42_created tg sz input l parse r id l' HW HT HCh HA HC HD HR) as (rows & EQ & H42).
  destruct (amount_rows tg sz input l parse r id l' HW HT HCh HA HC HD HR) as (lg & out & H & PT & PC & AP & AM & HS & HB & EQ').
  rewrite EQ' in EQ. injection EQ as <-.
  assert (HNum : forall i s, text_at (ll_tokens l) i s -> all_digits s -> number l lg i s)
    by (intros; eapply text_number; eauto).
  assert (HDig : forall i, digits_at (ll_tokens l) i <-> is_number l lg i).
  { intros i. rewrite (is_number_plain l lg i PT). eapply digits_at_number; eauto. }
  destruct (written_groups l lg r HNum PC w k HWr HTx) as (HG & _).
  assert (Hk : is_number l lg k) by apply (groups_last l lg r _ _ _ HG).
  destruct (thm_C40_covered parse r l lg out k H AM AP Hk) as ([[s e] d] & Hx & Hc & _). cbn [fst snd] in Hc.
  assert (s = k) as ->.
  { destruct (Nat.eq_dec s k) as [|Hne]; [assumption|exfalso].
    specialize (H42 s e _ [d] (in_map (row_of (t:=TAmount) (ll_tokens l)) out ((s, e), d) Hx)). destruct H42 as (H42 & _).
    destruct (HB _ _ _ Hx) as (_ & Hs & _).
    assert (HI : forall n i, k - i <= n -> s <= i < k -> is_number l lg i -> False).
    { induction n as [|n IH]; intros i Hn Hi HNi; [lia|].
      destruct (H42 i ltac:(lia) ltac:(now apply (is_number_plain l lg i PT))) as [(A & B & C)|(A & B)].
      - apply (is_number_plain l lg _ PT) in B.
        destruct (Nat.eq_dec (i + 1) k) as [E|E].
        + rewrite E in A. apply (sign_iff l lg r PC) in A. apply AP in Hk. tauto.
        + destruct (Nat.eq_dec (i + 2) k) as [E'|E'].
          * apply (proj2 HSt i); [lia|]. rewrite HDig. auto.
          * apply (IH (i + 2)); auto; lia.
      - apply (is_number_plain l lg _ PT) in A. assert (i + 1 = k) by lia. apply (proj1 HSt i); [lia|]. now apply HDig. }
    apply (HI (k - s) s); auto; lia. }
  destruct (thm_C41_value parse r l lg out k e d AM Hx) as (u & text & HAt & HPs).
  destruct (written_amount l lg r HNum PC w k e u text HWr HTx HDig) as (E1 & E2); [|exact HAt|].
  { intros Ef. specialize (HEn Ef). rewrite parts_length, Ef in HEn.
    now replace (k + (1 + 2 * length (more_groups w) + 0) - 1) with (k + 2 * length (more_groups w)) in HEn by lia. }
  replace (k + length (parts_of r w) - 1) with e in * by lia.
  exists (map (row_of (t:=TAmount) (ll_tokens l)) out), d, text. split; [exact EQ'|]. split; [|auto].
  apply in_map_iff. exists ((k, e), d). split; [|exact Hx]. unfold row_of. cbn [fst snd]. do 2 f_equal.
  replace e with (k + length (parts_of r w) - 1) by lia. apply texts_between; [discriminate|exact HTx].
Qed.

(** ** A text that is only a number *)

Lemma Forall2_inv_map {A B C} (R : B -> C -> Prop) (f : A -> B) : forall xs ys, Forall2 R (map f xs) ys -> Forall2 (fun x y => R (f x) y) xs ys.
Proof.
  induction xs as [|x xs IH]; intros ys H; inversion H; subst; constructor; auto.
Qed.

(** Digit groups and single signs, no two groups next to each other. *)
Definition atom (s : str) : Prop := all_digits s \/ exists c, s = [c] /\ decimal_digit c = false /\ u_alphabetic c = false.
Fixpoint alternating (xs : list str) : Prop :=
  match xs with
  | a :: ((b :: _) as xs') => ~ (all_digits a /\ all_digits b) /\ alternating xs'
  | _ => True
  end.

Lemma alternating_app a b : alternating (a ++ b) -> alternating a /\ alternating b.
Proof.
  induction a as [|x a IH]; intros H; [now split|]. destruct a as [|y a].
  - cbn [app] in H. split; [exact I|]. destruct b as [|z b]; [exact I|]. apply H.
  - change ((x :: y :: a) ++ b) with (x :: (y :: a ++ b)) in H. cbn [alternating] in H. destruct H as [H1 H2].
    destruct (IH H2) as [A B]. split; [|exact B]. cbn [alternating]. split; assumption.
Qed.

Definition labelled (s : str) : str * TextTag :=
  (s, match s with c :: _ => if decimal_digit c then NATN else PUNC | [] => PUNC end).

Lemma labelled_natn s : atom s -> (snd (labelled s) = NATN <-> all_digits s) /\ good_piece (labelled s) /\ (snd (labelled s) = NATN \/ snd (labelled s) = PUNC).
Proof.
  intros [[HN HD]|(c & -> & Hd & Ha)].
  - destruct s as [|c s]; [easy|]. inversion HD as [|? ? Hc HD']; subst. unfold labelled, good_piece. cbn [fst snd]. rewrite Hc. cbn.
    repeat split; auto; congruence.
  - unfold labelled, good_piece. cbn [fst snd]. rewrite Hd. cbn. split; [|split; [eauto|auto]].
    split; [discriminate|]. intros [_ H]. inversion H; congruence.
Qed.

Lemma labelled_pieces sg : Forall atom sg -> alternating sg ->
  Forall good_piece (map labelled sg) /\ maximal (map labelled sg) /\ concat (map fst (map labelled sg)) = concat sg.
Proof.
  intros HF HA. split; [|split].
  - apply Forall_map. eapply Forall_impl; [|exact HF]. intros s Hs. now apply labelled_natn.
  - induction HF as [|a sg Ha HF IH]; [exact I|]. destruct sg as [|b sg]; [exact I|].
    destruct HA as [H1 H2]. inversion HF as [|? ? Hb _]; subst. specialize (IH H2).
    change (map labelled (a :: b :: sg)) with (labelled a :: map labelled (b :: sg)).
    change (map labelled (b :: sg)) with (labelled b :: map labelled sg) in *. split; [|exact IH].
    intros E. destruct (labelled_natn a Ha) as (A1 & _ & [A3|A3]); [|exact A3].
    exfalso. apply H1. split; [now apply A1|]. apply (labelled_natn b Hb). congruence.
  - rewrite map_map. f_equal. rewrite <- (map_id sg) at 2. now apply map_ext.
Qed.

Lemma segment_texts sg ps : Forall atom sg -> alternating sg ->
  ((exists g rest, sg = g :: rest /\ all_digits g) \/ exists c, sg = [[c]]) ->
  segment_cut (concat sg) ps -> map fst ps = sg.
Proof.
  intros HF HA HS (c & w & Ew & HC).
  destruct HC as [(Hd & G & M & E)|(Hd & tag & -> & _)].
  - destruct (labelled_pieces sg HF HA) as (G' & M' & E').
    rewrite (thm_C08_unique _ ps (map labelled sg) G M E G' M' E'), map_map. rewrite <- (map_id sg) at 2. now apply map_ext.
  - destruct HS as [(g & rest & -> & [Hn Hg])|(c' & ->)]; [|reflexivity].
    destruct g as [|x g]; [easy|]. cbn [concat app] in Ew. injection Ew as -> _. inversion Hg; congruence.
Qed.

Lemma cut_texts segments : forall pss, Forall atom (concat segments) -> alternating (concat segments) ->
  Forall (fun sg => (exists g rest, sg = g :: rest /\ all_digits g) \/ exists c, sg = [[c]]) segments ->
  Forall2 segment_cut (map (@concat _) segments) pss -> map fst (concat pss) = concat segments.
Proof.
  induction segments as [|sg segments IH]; intros pss HF HA HS HC; inversion HC as [|? ps ? pss' H1 H2]; subst; [reflexivity|].
  cbn [concat] in *. apply Forall_app in HF. destruct HF as [F1 F2]. apply alternating_app in HA. destruct HA as [A1 A2].
  inversion HS as [|? ? S1 S2]; subst. rewrite map_app, (IH pss'); auto. f_equal. now apply segment_texts.
Qed.

Lemma parts_atoms r w : well_written r w -> no_digit_signs r -> Forall (fun c => u_alphabetic c = false) (signs r) ->
  Forall atom (parts_of r w) /\ alternating (parts_of r w).
Proof.
  intros (D1 & D2 & D3) HD HAl. rewrite Forall_forall in HAl. unfold no_digit_signs in HD. rewrite Forall_forall in HD.
  assert (HSg : forall c, In c (signs r) -> atom [c]) by (intros c Hc; right; exists c; auto).
  assert (HSn : forall c, In c (signs r) -> ~ all_digits [c]) by (intros c Hc [_ C]; inversion C; rewrite HD in *; [discriminate|assumption]).
  assert (HT : Forall atom (match fraction w with Some f => [[decimal r]; f] | None => [] end)
               /\ forall x, alternating (x :: match fraction w with Some f => [[decimal r]; f] | None => [] end)).
  { destruct (fraction w) as [f|].
    - destruct D3 as [D3 _]. split.
      + constructor; [apply HSg; now left|]. constructor; [now left|constructor].
      + intros x. cbn [alternating]. assert (~ all_digits [decimal r]) by (apply HSn; now left). tauto.
    - split; [constructor|]. intros x. exact I. }
  destruct HT as [T1 T2]. unfold parts_of. split.
  - constructor; [now left|]. apply Forall_app. split; [|exact T1]. clear - D2 HSg.
    induction D2 as [|[c g] more [Hc Hg] D2 IH]; [constructor|]. cbn [flat_map fst snd app] in *.
    constructor; [apply HSg; now right|]. constructor; [now left|assumption].
  - assert (HG : forall x, alternating (x :: flat_map (fun p => [[fst p]; snd p]) (more_groups w)
                 ++ match fraction w with Some f => [[decimal r]; f] | None => [] end)).
    { clear D1. induction D2 as [|[c g] more [Hc Hg] D2 IH]; intros x; [apply T2|].
      cbn [flat_map fst snd app] in *. cbn [alternating]. assert (~ all_digits [c]) by (apply HSn; now right).
      split; [tauto|]. split; [tauto|]. apply IH. }
    apply HG.
Qed.

(** C79: a text that is a written number. *)
Lemma thm_C79_alone :
  forall tg sz l parse r id w d ats,
    well_written r w -> no_digit_signs r -> Forall (fun c => u_alphabetic c = false) (signs r) ->
    cut_between (parts_of r w) (u_words (concat (parts_of r w))) ->
    Forall wf_attribute ats ->
    (forall t, In t [TTextTag; TChar; TAmount] -> none_of t [InText (concat (parts_of r w)) ats]) ->
    create_line_from_input_tokens tg [InText (concat (parts_of r w)) ats] sz = Ok l ->
    parse (denoted w) = Some d ->
    token_texts l = parts_of r w
    /\ exists l', run id l (amount_go parse r) = Ok l'
       /\ query l' TAmount = Ok [((0, length (parts_of r w) - 1), concat (parts_of r w), [d])].
Proof.
  intros tg sz l parse r id w d ats HWr HD HAl (segments & E1 & E2 & HS) HAt HNo HC HP.
  set (text := concat (parts_of r w)) in *.
  assert (HW : Forall wf_input [InText text ats]) by (constructor; [exact HAt|constructor]).
  destruct (parts_atoms r w HWr HD HAl) as (P1 & P2).
  destruct (create_facts tg sz _ l HW HC) as (groups & H1 & _ & _ & HT & _).
  inversion H1 as [|? g ? gs Hg H1']; subst. inversion H1'; subst. cbn [input_ltokens] in Hg.
  apply thm_C05_tags in Hg. destruct Hg as (pss & Hp & Em). rewrite E2 in Hp.
  assert (ET : map token (ll_tokens l) = map (fun p => LText (fst p) (snd p)) (concat pss)).
  { rewrite HT, layout_by_tokens. cbn [concat]. now rewrite app_nil_r. }
  assert (EX : token_texts l = parts_of r w).
  { unfold token_texts. rewrite <- (map_map token ltext), ET, map_map. cbn [ltext].
    rewrite <- E1. rewrite <- (cut_texts segments pss); [now apply map_ext| | |exact HS|exact Hp]; now rewrite E1. }
  split; [exact EX|].
  assert (HTx : texts_at (ll_tokens l) 0 (parts_of r w)).
  { intros i s E. cbn [Nat.add]. rewrite <- EX in E. unfold token_texts in E. rewrite nth_error_map in E.
    destruct (nth_error (ll_tokens l) i) as [tok|] eqn:En; [|discriminate]. cbn [option_map] in E.
    assert (HI : In (token tok) (map token (ll_tokens l))) by (apply in_map; now apply nth_error_In in En).
    rewrite ET in HI. apply in_map_iff in HI. destruct HI as (p & Ep & _). rewrite <- Ep in E. cbn [ltext] in E. injection E as <-.
    exists tok, (snd p). auto. }
  assert (HL : length (ll_tokens l) = length (parts_of r w)) by (rewrite <- EX; unfold token_texts; now rewrite map_length).
  destruct (created_fresh tg sz _ l HW HC) as (lg & H & HPl & HF).
  assert (PT : plain TTextTag l lg) by (apply HPl, HNo; now left).
  assert (PC : plain TChar l lg) by (apply HPl, HNo; right; now left).
  assert (HNum : forall i s, text_at (ll_tokens l) i s -> all_digits s -> number l lg i s)
    by (intros; eapply text_number; eauto).
  destruct (written_groups l lg r HNum PC w 0 HWr HTx) as (HG & HFr). cbn [Nat.add] in *.
  assert (OutC : forall i cs, length (ll_tokens l) <= i -> ~ has_char lg cs i).
  { intros i cs Hi C. apply (has_char_plain l lg _ _ PC) in C. destruct C as (c & (tok & tag & Hn & _) & _).
    assert (i < length (ll_tokens l)) by (apply nth_error_Some; congruence). lia. }
  assert (OutN : forall i, length (ll_tokens l) <= i -> ~ is_number l lg i).
  { intros i Hi (s & tok & tag & Hn & _). assert (i < length (ll_tokens l)) by (apply nth_error_Some; congruence). lia. }
  assert (AM : amounts l lg r parse 0 [((0, length (parts_of r w) - 1), d)]).
  { pose proof (parts_length r w) as EL.
    apply (AS_some _ _ _ _ _ 0 (length (parts_of r w) - 1) (length (parts_of r w) - 1) (denoted w)).
    - split; [lia|]. split; [|intros; lia]. apply (groups_last l lg r _ _ _ HG).
    - unfold denoted. destruct (fraction w) as [f|] eqn:Ef.
      + destruct (HFr f eq_refl) as (F1 & F2). destruct HWr as (_ & _ & HWr). rewrite Ef in HWr. destruct HWr as (_ & HWr).
        replace (length (parts_of r w) - 1) with (2 * length (more_groups w) + 2) by lia. rewrite app_assoc. apply A_decimal; auto.
        * intros C. unfold is_delimiter in C. rewrite (has_char_plain l lg _ _ PC) in C. destruct C as (c & C1 & C2).
          pose proof (text_at_fun _ _ _ _ F1 C1) as E. injection E as <-. auto.
        * apply (text_char l lg PC _ (decimal r)); [assumption|now left].
      + replace (length (parts_of r w) - 1) with (2 * length (more_groups w)) by lia. rewrite app_nil_r. apply A_groups; auto.
        * intros C. lia.
        * apply OutC. lia.
        * apply OutC. lia.
        * apply OutN. lia.
    - exact HP.
    - constructor. intros i Hi. apply OutN. lia. }
  destruct (amounts_run parse r id l lg _ H AM) as (l' & HR & ET' & H'). exists l'. split; [exact HR|].
  rewrite (fresh_query (t := TAmount) l' lg _ H' (HF TAmount ltac:(discriminate) ltac:(discriminate)
    (HNo _ (or_intror (or_intror (or_introl eq_refl)))))).
  - cbn [map fst snd]. rewrite ET'. do 4 f_equal. replace (length (parts_of r w) - 1) with (0 + length (parts_of r w) - 1) by lia.
    apply texts_between; [discriminate|exact HTx].
  - repeat constructor. intros [].
  - intros rg v [E|[]]. injection E as <- _. cbn. lia.
Qed.

End ThmWritten.
