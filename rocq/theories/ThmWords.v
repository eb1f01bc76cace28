(** White space matching, tokens given again as inputs, tags by text (C75-C77). *)

From Verif Require Export ThmEnd SpecWords.

Section ThmWords.
Context {UC : Unicode} {U : UserTypes}.

(** ** C75 *)

Lemma single_starting t lg i : single lg t -> starting_at t i lg = map (fun v => (v, i)) (values_on t (i, i) lg).
Proof.
  intros HS. unfold starting_at, values_on. rewrite map_filter_map. apply filter_map_ext_in. intros [[a b] v] Hin.
  apply HS in Hin. cbn [fst snd] in *. subst b. unfold range_eqb. cbn [fst snd]. destruct (Nat.eqb_spec a i); cbn; congruence.
Qed.

Lemma single_ending t lg i : single lg t -> ending_at t i lg = map (fun v => (v, i)) (values_on t (i, i) lg).
Proof.
  intros HS. unfold ending_at, values_on. rewrite map_filter_map. apply filter_map_ext_in. intros [[a b] v] Hin.
  apply HS in Hin. cbn [fst snd] in *. subst b. unfold range_eqb. cbn [fst snd]. destruct (Nat.eqb_spec a i); cbn; congruence.
Qed.

Lemma runs_of_others_matcher t l l' : runs_of_others t l l' -> forall lg, History l lg ->
  forall A (m : matcher A) d, (forall t', t' <> t -> lib_matcher (fun t0 => t0 <> t') false A m) -> m d l' = m d l.
Proof.
  induction 1 as [l|l t' id r l1 l2 Hne HR _ IH]; intros lg H A m d HM; [reflexivity|].
  destruct (thm_C12_no_interference t' id l lg r l1 H HR) as (_ & HE & _).
  rewrite <- (HE A m d (HM t' Hne)).
  destruct (history_run id l lg r l1 H HR) as (lg' & H'). now apply (IH lg').
Qed.

Lemma thm_C75_whitespace :
  forall tg sz input l l' i,
    Forall wf_input input -> none_of TTextTag input -> create_line_from_input_tokens tg input sz = Ok l ->
    runs_of_others TTextTag l l' -> i < length (ll_tokens l) ->
    (tag_at (ll_tokens l) i SPACE -> x_whitespace (Fwd i) l' = Ok [(tt, i)] /\ x_whitespace (Bwd i) l' = Ok [(tt, i)])
    /\ (~ tag_at (ll_tokens l) i SPACE -> x_whitespace (Fwd i) l' = Ok [] /\ x_whitespace (Bwd i) l' = Ok []).
Proof.
  intros tg sz input l l' i HW HT HC HR Hi. destruct (created_fresh tg sz input l HW HC) as (lg & H & HP & _).
  assert (HX : forall d, x_whitespace d l' = x_whitespace d l).
  { intros d. apply (runs_of_others_matcher TTextTag l l' HR lg H). intros t' Ht. apply LM_attr_eq. congruence. }
  rewrite !HX. clear HX HR l'. pose proof (HP _ HT) as PT. pose proof (plain_single _ _ _ PT) as ST.
  destruct (thm_C15_attr_eq l lg TTextTag TextTag_eqb SPACE i H Hi) as ((mf & Ef & Pf) & (mb & Eb & Pb)).
  rewrite (single_starting _ _ _ ST) in Pf. rewrite (single_ending _ _ _ ST) in Pb. unfold x_whitespace. rewrite Ef, Eb.
  destruct (nth_error (ll_tokens l) i) as [tok|] eqn:En; [|apply nth_error_None in En; lia].
  rewrite (plain_values TTextTag l lg i tok (or_introl eq_refl) PT En) in Pf, Pb.
  assert (HV : values_on TTextTag (i, i) (token_entries i (token tok)) = match token tok with LText _ tag => [tag] | LValue => [] end).
  { unfold values_on. destruct (token tok) as [[|c [|]] tag|]; simpl; rewrite ?range_eqb_refl; reflexivity. }
  rewrite HV in Pf, Pb. clear HV Ef Eb. split.
  - intros (tok' & text & En' & Et). assert (tok' = tok) by congruence. subst tok'. rewrite Et in Pf, Pb. cbn in Pf, Pb.
    apply Permutation_sym, Permutation_length_1_inv in Pf. apply Permutation_sym, Permutation_length_1_inv in Pb. now subst.
  - intros HS. destruct (token tok) as [text tag|] eqn:Et.
    + assert (tag <> SPACE) by (intros ->; apply HS; exists tok, text; auto).
      destruct tag; cbn in Pf, Pb; try congruence; apply Permutation_sym, Permutation_nil in Pf; apply Permutation_sym, Permutation_nil in Pb; now subst.
    + cbn in Pf, Pb. apply Permutation_sym, Permutation_nil in Pf; apply Permutation_sym, Permutation_nil in Pb; now subst.
Qed.

(** ** C77 *)

Lemma created_piece tg sz input l tok s tag :
  Forall wf_input input -> create_line_from_input_tokens tg input sz = Ok l ->
  In tok (ll_tokens l) -> token tok = LText s tag -> exists w ps, segment_cut w ps /\ In (s, tag) ps.
Proof.
  intros HW H Hin Et. destruct (create_facts tg sz input l HW H) as (groups & H1 & H2 & H3 & HT & _).
  assert (Hin' : In (LText s tag) (map fst (concat groups))).
  { rewrite <- (layout_by_tokens (wadd tg) 0 0%N), <- HT, <- Et. now apply in_map. }
  apply in_map_iff in Hin'. destruct Hin' as ([t n] & Ef & Hin'). simpl in Ef. subst t.
  apply in_concat in Hin'. destruct Hin' as (g & Hg & Hin').
  assert (exists it, input_ltokens sz it = Ok g) as (it & Hit).
  { clear - H1 Hg. induction H1; simpl in Hg; [easy|]. destruct Hg as [<-|Hg]; eauto. }
  destruct it as [text ats|size ats]; simpl in Hit; [|injection Hit as <-; destruct Hin' as [E|[]]; discriminate].
  apply thm_C05_tags in Hit. destruct Hit as (pss & Hp & Em).
  assert (Hc : In (s, tag) (concat pss)).
  { assert (Hm : In (LText s tag) (map fst g)) by (apply in_map_iff; exists (LText s tag, n); auto).
    rewrite Em in Hm. apply in_map_iff in Hm. destruct Hm as ([s' tag'] & E & Hm). simpl in E. inversion E; subst. exact Hm. }
  apply in_concat in Hc. destruct Hc as (ps & Hps & Hc).
  clear - Hp Hps Hc. induction Hp; simpl in Hps; [easy|]. destruct Hps as [<-|Hps]; eauto.
Qed.

Lemma in_enumerate_from {A} (xs : list A) : forall k i x, In (i, x) (enumerate_from k xs) <-> k <= i /\ nth_error xs (i - k) = Some x.
Proof.
  induction xs as [|y xs IH]; intros k i x; cbn [enumerate_from In].
  - split; [easy|]. intros (_ & E). destruct (i - k); discriminate.
  - rewrite IH. split.
    + intros [E|(Hk & E)].
      * injection E as <- <-. rewrite Nat.sub_diag. auto.
      * split; [lia|]. replace (i - k) with (S (i - S k)) by lia. exact E.
    + intros (Hk & E). destruct (Nat.eq_dec i k) as [->|Hn].
      * left. rewrite Nat.sub_diag in E. injection E as ->. reflexivity.
      * right. split; [lia|]. replace (i - k) with (S (i - S k)) in E by lia. exact E.
Qed.

Lemma in_enumerate {A} (xs : list A) i x : In (i, x) (enumerate_from 0 xs) <-> nth_error xs i = Some x.
Proof. rewrite in_enumerate_from, Nat.sub_0_r. split; [tauto|]. intros H. split; [lia|exact H]. Qed.

Section Tables.
Context (TL : TableLaws) (CL : CharLaws).

Lemma punctuation_no_digit c : documented_punctuation c -> decimal_digit c = false.
Proof. unfold documented_punctuation. simpl. intros H. repeat (destruct H as [<-|H]; [reflexivity|]). easy. Qed.

(** What a piece says about its tag. *)
Definition tag_facts (s : str) (tag : TextTag) : Prop :=
  (tag = NATN <-> s <> [] /\ Forall (fun c => decimal_digit c = true) s)
  /\ (tag = WORD <-> word_like s)
  /\ (one_punctuation s -> tag = PUNC)
  /\ (tag = PUNC -> exists c, s = [c] /\ decimal_digit c = false /\ u_alphabetic c = false)
  /\ (tag = SPACE -> all_space s)
  /\ (all_space s -> tag = SPACE \/ tag = PUNC)
  /\ s <> [].

Lemma piece_tag_facts w ps s tag : segment_cut w ps -> In (s, tag) ps -> tag_facts s tag.
Proof.
  intros HC Hin. pose proof (segment_cut_natn w ps s tag HC Hin) as HN. unfold tag_facts.
  destruct HC as (c & w' & -> & [(Hd & G & _ & _)|(Hd & tag' & -> & (DS & DP & DW & DY & DN))]).
  - rewrite Forall_forall in G. specialize (G _ Hin). unfold good_piece in G; cbn [fst snd] in G. destruct tag; try easy.
    + destruct G as (Gn & G). destruct s as [|x s]; [easy|]. inversion G as [|? ? Gx G']; subst.
      split; [exact HN|]. split; [|split; [|split; [|split; [|split]]]]; try discriminate.
      * split; [discriminate|]. intros (c0 & s' & E & Ha & _). injection E as <- <-. rewrite (digit_not_alphabetic CL x Gx) in Ha. discriminate.
      * intros (c0 & E & Hp). injection E as <- ->. apply punctuation_no_digit in Hp. congruence.
      * intros HS. inversion HS as [|? ? Hx _]; subst. rewrite (digit_not_whitespace CL x Gx) in Hx. discriminate.
    + destruct G as (x & -> & Gd & Ga).
      split; [exact HN|]. split; [|split; [|split; [|split; [|split]]]]; try discriminate; try auto.
      * split; [discriminate|]. intros (c0 & s' & E & Ha & _). injection E as <- <-. congruence.
      * intros _. exists x. auto.
    + destruct G as (Gn & G). destruct s as [|x s]; [easy|]. inversion G as [|? ? (Gx & Gy) G']; subst.
      split; [exact HN|]. split; [|split; [|split; [|split; [|split]]]]; try discriminate.
      * split; [|reflexivity]. intros _. exists x, s. split; [reflexivity|]. split; [exact Gy|].
        eapply Forall_impl; [|exact G']. intros a (_ & Ha). now left.
      * intros (c0 & E & Hp). injection E as <- ->. apply (punctuation_apart TL) in Hp. destruct Hp. congruence.
      * intros HS. inversion HS as [|? ? Hx _]; subst. rewrite (letter_not_whitespace TL x Gy) in Hx. discriminate.
  - destruct Hin as [E|[]]. injection E as <- <-.
    assert (PS : one_punctuation (c :: w') -> ~ all_space (c :: w')).
    { intros (x & E & Hp) HS. injection E as <- ->. inversion HS as [|? ? Hx _]; subst. apply (punctuation_apart TL) in Hp. destruct Hp. congruence. }
    assert (WS : word_like (c :: w') -> ~ all_space (c :: w') /\ ~ one_punctuation (c :: w')).
    { intros (x & r & E & Ha & _). injection E as <- <-. split.
      - intros HS. inversion HS as [|? ? Hx _]; subst. rewrite (letter_not_whitespace TL c Ha) in Hx. discriminate.
      - intros (x & E & Hp). injection E as <- _. apply (punctuation_apart TL) in Hp. destruct Hp. congruence. }
    split; [exact HN|]. split; [|split; [|split; [|split; [|split]]]].
    + rewrite DW. split; [tauto|]. intros X. destruct (WS X). tauto.
    + intros X. apply DP. auto.
    + intros X. apply DP in X. destruct X as (_ & x & E & Hp). injection E as <- ->. exists c. split; [reflexivity|]. split; [exact Hd|]. apply (punctuation_apart TL). exact Hp.
    + apply DS.
    + intros X. left. now apply DS.
    + discriminate.
Qed.

Lemma tags_by_text :
  forall tg sz input l tok s tag,
    Forall wf_input input -> create_line_from_input_tokens tg input sz = Ok l ->
    In tok (ll_tokens l) -> token tok = LText s tag ->
    (tag = NATN <-> s <> [] /\ Forall (fun c => decimal_digit c = true) s)
    /\ (tag = WORD <-> word_like s)
    /\ (one_punctuation s -> tag = PUNC)
    /\ (tag = PUNC -> exists c, s = [c] /\ decimal_digit c = false /\ u_alphabetic c = false)
    /\ (tag = SPACE -> all_space s)
    /\ (all_space s -> tag = SPACE \/ tag = PUNC).
Proof.
  intros tg sz input l tok s tag HW H Hin Et. destruct (created_piece tg sz input l tok s tag HW H Hin Et) as (w & ps & HC & Hp).
  destruct (piece_tag_facts w ps s tag HC Hp) as (A1 & A2 & A3 & A4 & A5 & A6 & _). auto 7.
Qed.

Lemma parts_of_speech_by_text :
  forall tg sz input l id dict noun,
    Forall wf_input input -> none_of TTextTag input -> none_of TPos input ->
    create_line_from_input_tokens tg input sz = Ok l ->
    exists l' rows, run id l (pos_go dict noun) = Ok l' /\ query l' TPos = Ok rows
      /\ forall a b text tags, In ((a, b), text, tags) rows <->
           a = b /\ text_at (ll_tokens l) a text /\ word_like text /\ tags <> []
           /\ ((dict (u_lower text) = Some tags) \/ (dict (u_lower text) = None /\ tags = [noun])).
Proof.
  intros tg sz input l id dict noun HW HT HN HC.
  destruct (thm_C50_created tg sz input l id dict noun HW HT HN HC) as (l' & E & Q). exists l'. eexists. split; [exact E|].
  split; [exact Q|]. intros a b text tags. unfold rows_by. rewrite in_filter_map. split.
  - intros ([i tok] & Hin & Ef). apply in_enumerate in Hin. destruct (token tok) as [s tag|] eqn:Et; [|discriminate].
    pose proof (tags_by_text tg sz input l tok s tag HW HC (nth_error_In _ _ Hin) Et) as (_ & W & _).
    destruct tag; try discriminate. apply proj1 in W. specialize (W eq_refl).
    destruct (dict (u_lower s)) as [[|x xs]|] eqn:Ed; try discriminate; injection Ef as <- <- <- <-; rewrite Ed;
      (split; [reflexivity|]); (split; [exists tok, WORD; auto|]); (split; [exact W|]); (split; [discriminate|]); auto.
  - intros (<- & (tok & tag & Hn & Et) & W & Ht & HD). exists (a, tok). split; [now apply in_enumerate|].
    pose proof (tags_by_text tg sz input l tok text tag HW HC (nth_error_In _ _ Hn) Et) as (_ & W' & _). apply W' in W. subst tag.
    rewrite Et. destruct HD as [->|[-> ->]]; [destruct tags; [easy|reflexivity]|reflexivity].
Qed.

(** ** C76 *)

(** The tag the text of a piece gets when it is a segment of its own. *)
Lemma piece_again w ps s tag : segment_cut w ps -> In (s, tag) ps ->
  exists tag', segment_pieces s [(s, tag')]
    /\ (tag' = tag <-> (tag = PUNC -> one_punctuation s))
    /\ (tag' <> tag -> (tag' = SPACE /\ all_space s) \/ (tag' = SYMB /\ ~ all_space s)).
Proof.
  intros HC Hin. pose proof (piece_tag_facts w ps s tag HC Hin) as (F1 & F2 & F3 & F4 & F5 & F6 & F7).
  destruct s as [|c s']; [easy|]. unfold segment_pieces. destruct (decimal_digit c) eqn:Ed.
  - exists NATN.
    assert (HT : tag = NATN).
    { destruct HC as (c1 & w' & -> & [(Hd & G & _ & _)|(Hd & tag1 & -> & _)]).
      - rewrite Forall_forall in G. specialize (G _ Hin). unfold good_piece in G. cbn [fst snd] in G. destruct tag; try easy.
        + destruct G as (x & E & Gd & _). injection E as <- ->. congruence.
        + destruct G as (_ & G). inversion G as [|? ? (G1 & _) _]; congruence.
      - destruct Hin as [E|[]]. injection E as <- <- <-. congruence. }
    subst tag. destruct (proj1 F1 eq_refl) as (_ & HD). split; [|split; [|congruence]].
    + split; [|split; [|split]].
      * apply forallb_forall. intros x Hx. rewrite Forall_forall in HD. specialize (HD x Hx).
        unfold decimal_digit in HD. apply existsb_exists in HD. destruct HD as (y & Hy & E). apply N.eqb_eq in E. subst y.
        simpl in Hy. repeat (destruct Hy as [<-|Hy]; [reflexivity|]). easy.
      * constructor; [|constructor]. cbn. split; [discriminate|exact HD].
      * exact I.
      * cbn. now rewrite app_nil_r.
    + split; [discriminate|reflexivity].
  - exists (get_unicode_word_tag (c :: s')). split; [reflexivity|].
    pose proof (get_tag_documented (c :: s')) as HD. set (tag' := get_unicode_word_tag (c :: s')) in *.
    destruct HD as (DS & DP & DW & DY & DN).
    assert (N1 : tag <> NATN).
    { intros E. apply F1 in E. destruct E as (_ & E). inversion E; congruence. }
    assert (PS : one_punctuation (c :: s') -> ~ all_space (c :: s')).
    { intros (x & E & Hp) HS. injection E as <- ->. inversion HS as [|? ? Hx _]; subst. apply (punctuation_apart TL) in Hp. destruct Hp. congruence. }
    assert (WS : word_like (c :: s') -> ~ all_space (c :: s') /\ ~ one_punctuation (c :: s')).
    { intros (x & r & E & Ha & _). injection E as <- <-. split.
      - intros HS. inversion HS as [|? ? Hx _]; subst. rewrite (letter_not_whitespace TL c Ha) in Hx. discriminate.
      - intros (x & E & Hp). injection E as <- _. apply (punctuation_apart TL) in Hp. destruct Hp. congruence. }
    destruct tag; try congruence.
    + destruct (F4 eq_refl) as (x & E & _ & Ha). injection E as <- ->.
      assert (NW : ~ word_like [c]) by (intros (x & r & E & Hx & _); injection E as <- <-; congruence).
      split.
      * split; [intros E _; apply DP; exact E|]. intros X. apply DP. specialize (X eq_refl). auto.
      * intros Hne. destruct tag' eqn:Et'; try congruence.
        -- right. split; [reflexivity|]. now apply DY.
        -- left. split; [reflexivity|]. now apply DS.
        -- exfalso. apply NW. now apply DW.
    + assert (tag' = SYMB) as ->; [|split; [split; [discriminate|reflexivity]|congruence]].
      apply DY. split; [intros X; destruct (F6 X); discriminate|]. split; [intros X; specialize (F3 X); discriminate|].
      intros X. apply F2 in X. discriminate.
    + assert (tag' = SPACE) as ->; [|split; [split; [discriminate|reflexivity]|congruence]]. apply DS. now apply F5.
    + assert (tag' = WORD) as ->; [|split; [split; [discriminate|reflexivity]|congruence]]. apply DW.
      pose proof (proj1 F2 eq_refl) as X. destruct (WS X). tauto.
Qed.

Lemma segment_pieces_fun w ps qs : segment_pieces w ps -> segment_pieces w qs -> ps = qs.
Proof.
  destruct w as [|c w]; [easy|]. unfold segment_pieces. destruct (decimal_digit c); [|congruence].
  intros (_ & G1 & M1 & E1) (_ & G2 & M2 & E2). apply pieces_unique; auto. congruence.
Qed.

Lemma own_segment_tokens sz s tag : u_words s = [s] -> segment_pieces s [(s, tag)] ->
  create_tokens_for_string sz s = Ok [(LText s tag, sz s)].
Proof.
  intros EW HP. unfold create_tokens_for_string. rewrite EW. cbn [foldM].
  assert (HO : s <> [] /\ match s with c :: _ => decimal_digit c = true -> str_is_ascii s = true | [] => True end).
  { unfold segment_pieces in HP. destruct s as [|c s]; [easy|]. split; [discriminate|]. intros Hd. rewrite Hd in HP. apply HP. }
  destruct HO as (H1 & H2). destruct (tokens_of_segment_ok sz [] s H1 H2) as (ps & Hps & ->).
  rewrite (segment_pieces_fun _ _ _ Hps HP). reflexivity.
Qed.

Lemma groups_again sz texts groups :
  Forall2 (fun it g => input_ltokens sz it = Ok g) (texts_as_input texts) groups ->
  exists pieces, concat groups = map (piece_token sz) pieces /\ Forall (fun p => exists w ps, segment_cut w ps /\ In p ps) pieces.
Proof.
  revert groups. induction texts as [|s texts IH]; intros groups H; inversion H as [|? g ? gs Hg Hgs]; subst.
  - exists []. split; [reflexivity|constructor].
  - destruct (IH _ Hgs) as (pieces & E & F). cbn [input_ltokens] in Hg. apply create_tokens_inv in Hg. destruct Hg as (pss & Hp & ->).
    exists (concat pss ++ pieces). cbn [concat]. rewrite map_app, E. split; [reflexivity|]. apply Forall_app. split; [|exact F].
    apply Forall_forall. intros p Hin. apply in_concat in Hin. destruct Hin as (ps & Hps & Hin).
    clear - Hp Hps Hin. induction Hp as [|w qs ws qss Hq Hp IH]; simpl in Hps; [easy|]. destruct Hps as [<-|Hps]; [|auto].
    exists w, qs. split; [now apply segment_pieces_cut|exact Hin].
Qed.

Lemma layout_same_but_tag sz : forall ps qs add i k,
  Forall2 (fun p q => fst q = fst p /\ (snd q = snd p <-> (snd p = PUNC -> one_punctuation (fst p)))
     /\ (snd q <> snd p -> (snd q = SPACE /\ all_space (fst p)) \/ (snd q = SYMB /\ ~ all_space (fst p)))) ps qs ->
  Forall2 same_but_tag (layout_by add i k (map (piece_token sz) ps)) (layout_by add i k (map (piece_token sz) qs)).
Proof.
  induction ps as [|[s tag] ps IH]; intros qs add i k H; inversion H as [|? [s' tag'] ? qs' (E & X & Y) H']; subst; [constructor|].
  cbn [fst snd] in *. subst s'. cbn [map piece_token fst snd layout_by]. constructor; [|now apply IH].
  unfold same_but_tag. cbn [token_idx pos_starts_at pos_ends_at token]. repeat (split; [reflexivity|]). exists s, tag, tag'. auto.
Qed.

Lemma tokens_again :
  forall tg sz texts l,
    create_line_from_input_tokens tg (texts_as_input texts) sz = Ok l ->
    (forall s, In s (token_texts l) -> u_words s = [s]) ->
    exists l', create_line_from_input_tokens tg (texts_as_input (token_texts l)) sz = Ok l'
      /\ Forall2 same_but_tag (ll_tokens l) (ll_tokens l').
Proof.
  intros tg sz texts l HC HU.
  assert (WF : forall ts, Forall wf_input (texts_as_input ts)).
  { intros ts. unfold texts_as_input. apply Forall_map, Forall_forall. intros s _. constructor. }
  destruct (create_facts tg sz _ l (WF texts) HC) as (groups & H1 & H2 & H3 & HT & _).
  destruct (groups_again sz texts groups H1) as (pieces & EP & FP). rewrite EP in *.
  assert (ETX : token_texts l = map fst pieces).
  { unfold token_texts. rewrite <- (map_map token ltext), HT, layout_by_tokens, !map_map. apply map_ext. intros [s tag]. reflexivity. }
  assert (HQ : exists qs, Forall2 (fun p q => segment_pieces (fst p) [q] /\ fst q = fst p /\ (snd q = snd p <-> (snd p = PUNC -> one_punctuation (fst p)))
     /\ (snd q <> snd p -> (snd q = SPACE /\ all_space (fst p)) \/ (snd q = SYMB /\ ~ all_space (fst p)))) pieces qs).
  { clear - FP TL CL. induction FP as [|[s tag] pieces (w & ps & HC & Hin) FP (qs & IH)]; [exists []; constructor|].
    destruct (piece_again w ps s tag HC Hin) as (tag' & A & B & C). exists ((s, tag') :: qs). constructor; [cbn; auto|exact IH]. }
  destruct HQ as (qs & HQ).
  assert (HG : Forall2 (fun it g => input_ltokens sz it = Ok g) (texts_as_input (token_texts l)) (map (fun q => [piece_token sz q]) qs)).
  { rewrite ETX in *. clear - HQ HU. induction HQ as [|[s tag] [s' tag'] ps qs (A & E & _) HQ IH]; [constructor|].
    cbn [fst] in *. subst s'. cbn [map texts_as_input]. constructor; [|apply IH; intros x Hx; apply HU; now right].
    cbn [input_ltokens]. apply own_segment_tokens; [apply HU; now left|exact A]. }
  assert (EG : concat (map (fun q => [piece_token sz q]) qs) = map (piece_token sz) qs).
  { clear. induction qs as [|q qs IH]; [reflexivity|]. cbn [map concat app]. now rewrite IH. }
  assert (ES : total (map (piece_token sz) qs) = total (map (piece_token sz) pieces)).
  { clear - HQ. induction HQ as [|[s tag] [s' tag'] ps qs (_ & E & _) HQ IH]; [reflexivity|]. cbn [fst] in E. subst s'. cbn [map piece_token fst snd total]. now rewrite IH. }
  destruct (create_ok tg sz (texts_as_input (token_texts l)) (map (fun q => [piece_token sz q]) qs) (WF _) HG) as (l' & E' & HT' & _).
  - apply Forall_map, Forall_forall. discriminate.
  - rewrite EG. destruct H3 as [H3|[H3|H3]]; [now left| |right; right; rewrite ES; exact H3].
    right. left. destruct pieces; [|discriminate]. now inversion HQ.
  - exists l'. split; [exact E'|]. rewrite HT, HT', EG. apply layout_same_but_tag.
    eapply Forall2_weaken; [|exact HQ]. cbn. tauto.
Qed.

End Tables.

Lemma thm_C77_tags :
  forall (TL : TableLaws) (CL : CharLaws) tg sz input l tok s tag,
    Forall wf_input input -> create_line_from_input_tokens tg input sz = Ok l ->
    In tok (ll_tokens l) -> token tok = LText s tag ->
    (tag = NATN <-> s <> [] /\ Forall (fun c => decimal_digit c = true) s)
    /\ (tag = WORD <-> word_like s)
    /\ (one_punctuation s -> tag = PUNC)
    /\ (tag = PUNC -> exists c, s = [c] /\ decimal_digit c = false /\ u_alphabetic c = false)
    /\ (tag = SPACE -> all_space s)
    /\ (all_space s -> tag = SPACE \/ tag = PUNC).
Proof. exact tags_by_text. Qed.

Lemma thm_C77_parts_of_speech :
  forall (TL : TableLaws) (CL : CharLaws) tg sz input l id dict noun,
    Forall wf_input input -> none_of TTextTag input -> none_of TPos input ->
    create_line_from_input_tokens tg input sz = Ok l ->
    exists l' rows, run id l (pos_go dict noun) = Ok l' /\ query l' TPos = Ok rows
      /\ forall a b text tags, In ((a, b), text, tags) rows <->
           a = b /\ text_at (ll_tokens l) a text /\ word_like text /\ tags <> []
           /\ ((dict (u_lower text) = Some tags) \/ (dict (u_lower text) = None /\ tags = [noun])).
Proof. exact parts_of_speech_by_text. Qed.

Lemma thm_C76_again :
  forall (TL : TableLaws) (CL : CharLaws) tg sz texts l,
    create_line_from_input_tokens tg (texts_as_input texts) sz = Ok l ->
    (forall s, In s (token_texts l) -> u_words s = [s]) ->
    exists l', create_line_from_input_tokens tg (texts_as_input (token_texts l)) sz = Ok l'
      /\ Forall2 same_but_tag (ll_tokens l) (ll_tokens l').
Proof. exact tokens_again. Qed.

End ThmWords.
