(** Further theorems: which characters are tagged PUNC (C06), numbers in groups
    without a fraction, and the french preset (C43). *)

From Verif Require Export ThmAmount ThmClause.

Section ThmMore.
Context {UC : Unicode} {U : UserTypes}.

(** A token of a created line is a piece of a segment of one of the texts. *)
Lemma created_piece tg sz input l tok s tag :
  Forall wf_input input -> create_line_from_input_tokens tg input sz = Ok l ->
  In tok (ll_tokens l) -> token tok = LText s tag ->
  exists text ats w ps, In (InText text ats) input /\ In w (u_words text) /\ segment_cut w ps /\ In (s, tag) ps.
Proof.
  intros HW H Hin Et.
  destruct (create_facts tg sz input l HW H) as (groups & H1 & H2 & H3 & HT & _).
  assert (Hin' : In (LText s tag) (map fst (concat groups))).
  { rewrite <- (layout_by_tokens (wadd tg) 0 0%N), <- HT, <- Et. now apply in_map. }
  apply in_map_iff in Hin'. destruct Hin' as ([t n] & Ef & Hin'). simpl in Ef. subst t.
  apply in_concat in Hin'. destruct Hin' as (g & Hg & Hin').
  assert (Hx : exists it, In it input /\ input_ltokens sz it = Ok g).
  { clear - H1 Hg. induction H1 as [|it g0 input groups E H1 IH]; simpl in Hg; [easy|].
    destruct Hg as [<-|Hg].
    - exists it. split; [now left | exact E].
    - destruct (IH Hg) as (it' & A & B). exists it'. split; [now right | exact B]. }
  destruct Hx as (it & Hi & Hit). destruct it as [text ats | size ats]; simpl in Hit.
  - apply thm_C05_tags in Hit. destruct Hit as (pss & Hp & Em).
    assert (In (s, tag) (concat pss)) as Hc.
    { assert (In (LText s tag) (map fst g)) as Hm by (apply in_map_iff; exists (LText s tag, n); auto).
      rewrite Em in Hm. apply in_map_iff in Hm. destruct Hm as ([s' tag'] & E & Hm).
      simpl in E. inversion E; subst. exact Hm. }
    apply in_concat in Hc. destruct Hc as (ps & Hps & Hc).
    assert (exists w, In w (u_words text) /\ segment_cut w ps) as (w & Hw & Hcut).
    { clear - Hp Hps. induction Hp as [|w ps0 ws pss C Hp IH]; simpl in Hps; [easy|].
      destruct Hps as [<-|Hps].
      - exists w. split; [now left | exact C].
      - destruct (IH Hps) as (w' & A & B). exists w'. split; [now right | exact B]. }
    exists text, ats, w, ps. auto.
  - inversion Hit; subst. destruct Hin' as [E|[]]. discriminate.
Qed.

(** C06: a token tagged PUNC is one character, either of the documented list or
    any character that is neither digit nor letter, inside a segment that starts
    with a digit. *)
Lemma thm_C06_exact :
  forall tg sz input l tok s,
    Forall wf_input input -> create_line_from_input_tokens tg input sz = Ok l ->
    In tok (ll_tokens l) -> token tok = LText s PUNC ->
    exists c, s = [c]
      /\ (documented_punctuation c
          \/ (decimal_digit c = false /\ u_alphabetic c = false
              /\ exists text ats d w, In (InText text ats) input /\ In (d :: w) (u_words text)
                   /\ decimal_digit d = true /\ In c w)).
Proof.
  intros tg sz input l tok s HW H Hin Et.
  destruct (created_piece tg sz input l tok s PUNC HW H Hin Et) as (text & ats & w & ps & Hi & Hw & Hc & Hp).
  destruct Hc as (d & w' & -> & [(Hd & HG & _ & HC) | (Hd & tag & -> & HT)]).
  - rewrite Forall_forall in HG. specialize (HG _ Hp). simpl in HG. destruct HG as (c & E & Hc1 & Hc2).
    simpl in E. subst s. exists c. split; auto. right. split; auto. split; auto.
    exists text, ats, d, w'. repeat (split; [assumption|]).
    assert (Hin2 : In c (d :: w')).
    { rewrite <- HC. apply in_concat. exists [c]. split; [|now left]. apply in_map_iff. exists ([c], PUNC). auto. }
    destruct Hin2 as [->|]; [congruence|assumption].
  - destruct Hp as [E|[]]. inversion E; subst. destruct HT as (_ & (HP & _) & _).
    destruct HP as [_ (c & Ec & Hdoc)]; auto. exists c. auto.
Qed.

(** C06 as documented, for texts of which no segment starts with a digit. *)
Lemma thm_C06_documented_partial :
  forall tg sz input l tok s,
    Forall wf_input input -> create_line_from_input_tokens tg input sz = Ok l ->
    (forall text ats d w, In (InText text ats) input -> In (d :: w) (u_words text) -> decimal_digit d = false) ->
    In tok (ll_tokens l) -> token tok = LText s PUNC -> one_punctuation s.
Proof.
  intros tg sz input l tok s HW H HD Hin Et.
  destruct (thm_C06_exact tg sz input l tok s HW H Hin Et) as (c & -> & [Hd | (_ & _ & text & ats & d & w & H1 & H2 & H3 & _)]).
  - exists c. auto.
  - specialize (HD _ _ _ _ H1 H2). congruence.
Qed.

(** C43: the texts that french() parses have no fraction: its decimal sign is one of
    its delimiters. *)
Lemma thm_C43_french_integers :
  forall l lg s e u text,
    History l lg -> plain TTextTag l lg -> amount_at l lg amount_french s e u text -> all_digits text.
Proof.
  intros l lg s e u text H HP HA.
  assert (HG : forall e t, groups_at l lg amount_french s e t -> all_digits t).
  { intros e0 t0. induction 1 as [t Hn | e1 t1 t2 HG IH Hd Hn].
    - eapply plain_number; eauto.
    - apply all_digits_app; auto. eapply plain_number; eauto. }
  assert (HX : forall i, is_decimal lg amount_french i -> is_delimiter lg amount_french i).
  { intros i (c & Hc & [E|[]]). exists c. split; auto. simpl in E. subst c. simpl. auto. }
  destruct HA as [e t HA | e t HA Hd | e t1 t2 HA Hnd Hd Hn | e t HA Hnd Hd | e t1 t2 HA Hr Hnd Hd Hn]; eauto.
  - exfalso. auto.
  - exfalso. auto.
  - apply all_digits_app; eauto. eapply plain_number; eauto.
Qed.

(** C43: a whole line that is a number in groups is one amount. *)
Lemma thm_C43_grouped_integer :
  forall parse r id l lg gs d,
    History l lg -> grouped_integer l lg r gs -> parse (concat gs) = Some d ->
    amounts l lg r parse 0 [((0, 2 * length gs - 2), d)]
    /\ runs_to id l lg (amount_go parse r) [((0, 2 * length gs - 2), d)].
Proof.
  intros parse r id l lg gs d H (HN & HL & HG & HD) HX.
  assert (HA : amounts l lg r parse 0 [((0, 2 * length gs - 2), d)]).
  { assert (HC : forall k, k < length gs -> groups_at l lg r 0 (2 * k) (concat (firstn (S k) gs))).
    { induction k as [|k IH]; intros Hk.
      - destruct gs as [|g gs]; [easy|]. simpl. rewrite app_nil_r. constructor. now apply (HG 0).
      - destruct (nth_error_lt gs (S k) Hk) as (g & Eg). replace (2 * S k) with (2 * k + 2) by lia.
        assert (EF : firstn (S (S k)) gs = firstn (S k) gs ++ [g]).
        { now apply firstn_snoc. }
        rewrite EF, concat_app. simpl (concat [g]). rewrite app_nil_r. apply G_more.
        + apply IH. lia.
        + apply HD. lia.
        + replace (2 * k + 2) with (2 * S k) by lia. apply HG. auto. }
    destruct gs as [|g0 gs0] eqn:Egs; [easy|]. rewrite <- Egs in *. set (m := length gs - 1).
    assert (Hm : S m = length gs) by (unfold m; rewrite Egs; simpl; lia).
    specialize (HC m). rewrite Hm, firstn_all in HC.
    replace (2 * length gs - 2) with (2 * m) by lia.
    eapply (AS_some _ _ _ _ _ 0 (2 * m) (2 * m)).
    - split; [lia|]. split; [|intros; lia]. exists g0. apply (HG 0). now rewrite Egs.
    - apply A_groups.
      + apply HC. lia.
      + intros C. lia.
      + intros C. apply (has_char_lt l lg H) in C. lia.
      + intros C. apply (has_char_lt l lg H) in C. lia.
      + intros C. apply is_number_lt in C. lia.
    - exact HX.
    - constructor. intros i Hi C. apply is_number_lt in C. lia. }
  split; auto. now apply amounts_run.
Qed.

End ThmMore.
