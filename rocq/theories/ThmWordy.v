(** Proofs about texts of words and marks (C94). *)

From Verif Require Export SpecWordy ThmKeys ThmSentence.

Section C94.
Context {UC : Unicode} {U : UserTypes}.

(** The tokens of the text of a chain of items. *)
Lemma items_tokens (SL : SegmenterLaws) colon (AL : AsciiLaws colon) tg sz its ats l : block (fun x => x <> IG) its -> Forall (item_ok colon) its -> Forall wf_attribute ats ->
  create_line_from_input_tokens tg [InText (text_of its) ats] sz = Ok l ->
  map token (ll_tokens l) = map (fun p : str * TextTag => LText (fst p) (snd p)) (map (fun x => (item_text x, item_tag x)) its).
Proof.
  intros HB HO HW HC. pose proof (items_plain colon its HB HO) as HP.
  destruct (text_pieces SL tg sz (text_of its) ats l HW HC) as (qs & ET0 & ES0 & HT0).
  assert (NE : Forall (fun t => ltext (token t) <> []) (ll_tokens l)).
  { apply (proj1 (Forall_map token (fun t => ltext t <> []) (ll_tokens l))). rewrite ET0. apply Forall_map. apply Forall_forall. intros [t tag] Hq. cbn. apply in_split in Hq. destruct Hq as (q1 & q2 & Eq).
    pose proof (HT0 q1 t tag q2 Eq) as K. apply (thm_C89_plain SL colon AL tg sz _ ats l _ _ _ _ HP HW HC) in K. destruct K as [_ K]. intros ->. destruct tag; cbn [lexeme] in K.
    - destruct K as [K _]. easy.
    - destruct K as (c & K & _). discriminate.
    - destruct K as [(K & _)|(c & K & _)]; [|discriminate]. destruct K as [K _]. inversion K.
    - destruct K as [[K _]|[K|[[K _]|[[K _]|(c & K & _)]]]]; [easy|discriminate..].
    - destruct K as [[K _] _]. inversion K. }
  apply tokens_are; [exact NE| |].
  - rewrite (token_texts_pieces l qs ET0), ES0, map_map. reflexivity.
  - intros ps1 t tag ps2 E. apply map_eq_app in E. destruct E as (i1 & i2' & Ei & <- & E2). apply map_eq_cons in E2. destruct E2 as (x & i2 & -> & Ex & <-). injection Ex as <- <-.
    rewrite !map_map. cbn [fst]. apply (thm_C89_plain SL colon AL tg sz _ ats l _ _ _ _ HP HW HC). split.
    + rewrite Ei, text_of_app. reflexivity.
    + exact (item_lexeme colon its HB HO i1 x i2 Ei).
Qed.

Definition word_saying (p : str * option char) : Saying := mkSaying None [fst p] (snd p).

Lemma wordy_sentence ws : sentence (map word_saying ws) = wordy_text ws.
Proof.
  unfold sentence, wordy_text. rewrite map_map. f_equal.
Qed.

Lemma word_kind_tag colon w : proper_word colon w -> word_kind w = word_tag w.
Proof.
  intros H. replace (word_kind w) with (if forallb digit_b w then NATN else if existsb (fun c => ((c =? 46) || (c =? 58))%N) w then SYMB else WORD) by reflexivity. unfold word_tag. destruct (forallb digit_b w) eqn:ED; [reflexivity|].
  assert (HC : Forall (fun c => ascii_letter c \/ mid_letter colon c) w).
  { destruct H as [H|[_ H]]; [now apply dotted_chars|]. exfalso. assert (K : forallb digit_b w = true); [|congruence]. apply forallb_forall. rewrite Forall_forall in H. intros c Hc. apply digit_b_iff. auto. }
  assert (K : existsb (fun c => ((c =? 46) || (c =? 58))%N) w = negb (forallb (fun c => letter_b c || N.eqb c 39) w)).
  { clear - HC. induction HC as [|c w Hc F IH]; [reflexivity|]. cbn [existsb forallb]. rewrite IH, negb_andb. f_equal.
    destruct Hc as [Hc|Hc].
    - rewrite (proj2 (letter_b_iff c) Hc). cbn [orb negb]. unfold ascii_letter in Hc. apply orb_false_iff. split; apply N.eqb_neq; lia.
    - apply mid_letter_small in Hc. destruct Hc as [<-|[<-|[<-|[]]]]; reflexivity. }
  rewrite K. now destruct (forallb (fun c => letter_b c || N.eqb c 39) w).
Qed.

Lemma wordy_items colon ws : Forall (fun p => proper_word colon (fst p)) ws ->
  map (fun x => (item_text x, item_tag x)) (map fst (sentence_items (map word_saying ws))) = read_as ws.
Proof.
  induction 1 as [|[w c] ws Hw F IH]; [reflexivity|]. cbn [fst] in Hw.
  assert (E1 : map (fun x => (item_text x, item_tag x)) (map fst (part_items (word_saying (w, c)))) = (w, word_kind w) :: match c with Some c => [([c], PUNC)] | None => [] end).
  { rewrite (word_kind_tag colon w Hw). now destruct c. }
  destruct ws as [|q ws].
  - change (sentence_items (map word_saying [(w, c)])) with (part_items (word_saying (w, c))). rewrite E1. cbn [read_as]. now rewrite app_nil_r.
  - unfold sentence_items in *. cbn [map] in *. rewrite gapped_cons. rewrite !map_app. cbn [map fst item_text item_tag]. rewrite E1, IH. cbn [read_as]. destruct q as [w' c']. reflexivity.
Qed.

(** C94: the tokens of a text of words and marks. *)
Lemma thm_C94_tokens :
  forall (SL : SegmenterLaws) colon (AL : AsciiLaws colon) tg sz ws ats l,
    proper_wordy colon ws -> Forall wf_attribute ats ->
    create_line_from_input_tokens tg [InText (wordy_text ws) ats] sz = Ok l ->
    map token (ll_tokens l) = map (fun p => LText (fst p) (snd p)) (read_as ws).
Proof.
  intros SL colon AL tg sz ws ats l (N & F) HW HC.
  assert (FP : Forall (fun p => proper_word colon (fst p)) ws) by (eapply Forall_impl; [|exact F]; now intros p [H _]).
  rewrite <- (wordy_items colon ws FP). set (ps := map word_saying ws).
  assert (TX : text_of (map fst (sentence_items ps)) = wordy_text ws) by (rewrite sentence_items_text; apply wordy_sentence).
  rewrite <- TX in HC. eapply items_tokens; eauto.
  - apply sentence_block; [unfold ps; now destruct ws|]. unfold ps. apply Forall_map. apply Forall_forall. intros p _. discriminate.
  - assert (NK : forall w, no_keyword (mkClauseKeywordResolver [] [] []) w) by (intros w [] H; cbn in H; tauto).
    apply Forall_map. apply (sentence_Forall _ colon (mkClauseKeywordResolver [] [] [])); cbn; auto. unfold ps. apply Forall_map. eapply Forall_impl; [|exact F].
    intros [w c] [Hw Hc]. unfold word_saying. split; [discriminate|]. split; [discriminate|]. cbn [said_words closing fst snd] in *. split; [constructor; [auto|constructor]|]. intros d E. auto.
Qed.

Lemma valued_rows {V} (f : str -> TextTag -> list V) l : forall xs xs1, map token (ll_tokens l) = map (fun p => LText (fst p) (snd p)) (xs1 ++ xs) ->
  Forall2 (piece_row l) (valued f (concat (map fst xs1)) xs)
    (filter_map (fun '(i, tok) => match token tok with LText text tag => match f text tag with [] => None | vs => Some ((i, i), text, vs) end | LValue => None end)
       (enumerate_from (length xs1) (skipn (length xs1) (ll_tokens l)))).
Proof.
  induction xs as [|[t tag] xs IH]; intros xs1 E.
  - assert (L : length (ll_tokens l) = length xs1) by (rewrite <- (map_length token), E, map_length, app_length; cbn; lia). rewrite skipn_all2 by lia. constructor.
  - assert (E' : map token (ll_tokens l) = map (fun p => LText (fst p) (snd p)) ((xs1 ++ [(t, tag)]) ++ xs)) by now rewrite <- app_assoc.
    specialize (IH _ E'). rewrite app_length in IH. cbn [length] in IH. rewrite Nat.add_1_r in IH. rewrite map_app, concat_app in IH. cbn [map fst concat] in IH. rewrite app_nil_r in IH.
    assert (L : length (ll_tokens l) = length xs1 + S (length xs)) by (rewrite <- (map_length token), E, map_length, app_length; reflexivity).
    assert (EN : exists tok, nth_error (ll_tokens l) (length xs1) = Some tok /\ token tok = LText t tag).
    { pose proof (f_equal (fun z => nth_error z (length xs1)) E) as K. cbn beta in K. rewrite !nth_error_map, nth_error_app2, Nat.sub_diag in K by lia. cbn in K.
      destruct (nth_error (ll_tokens l) (length xs1)) as [tok|]; [|discriminate]. exists tok. split; [reflexivity|]. now injection K. }
    destruct EN as (tok & EN & Et). rewrite (ThmJoin.skipn_cons _ _ _ EN). cbn [enumerate_from filter_map valued]. rewrite Et.
    destruct (f t tag) as [|v vs] eqn:Ef; [exact IH|]. cbn [app]. constructor; [|exact IH].
    exists (length xs1). split; [reflexivity|]. split; [lia|]. rewrite (token_texts_pieces l _ E). split.
    + rewrite map_app, <- (map_length fst xs1), firstn_length_app. reflexivity.
    + replace (xs1 ++ (t, tag) :: xs) with ((xs1 ++ [(t, tag)]) ++ xs) by now rewrite <- app_assoc. replace (S (length xs1)) with (length (map fst (xs1 ++ [(t, tag)]))) by (rewrite map_length, app_length; cbn; lia).
      rewrite (map_app fst (xs1 ++ [(t, tag)]) xs), firstn_length_app, map_app, concat_app. cbn [map fst concat]. now rewrite app_nil_r.
Qed.
Lemma valued_rows_by {V} (f : str -> TextTag -> list V) l xs : map token (ll_tokens l) = map (fun p => LText (fst p) (snd p)) xs ->
  Forall2 (piece_row l) (valued f [] xs) (rows_by (ll_tokens l) f).
Proof. intros E. exact (valued_rows f l xs [] E). Qed.

(** C94: part of speech tags. *)
Lemma thm_C94_tags :
  forall (SL : SegmenterLaws) colon (AL : AsciiLaws colon) tg sz ws ats l id dict noun,
    proper_wordy colon ws -> Forall wf_attribute ats ->
    none_of TTextTag [InText (wordy_text ws) ats] -> none_of TPos [InText (wordy_text ws) ats] ->
    create_line_from_input_tokens tg [InText (wordy_text ws) ats] sz = Ok l ->
    exists l' rows, run id l (pos_go dict noun) = Ok l' /\ query l' TPos = Ok rows
      /\ Forall2 (piece_row l) (valued (fun text tag => match tag with WORD => match dict (u_lower text) with Some tags => tags | None => [noun] end | _ => [] end) [] (read_as ws)) rows.
Proof.
  intros SL colon AL tg sz ws ats l id dict noun HP HW N1 N2 HC.
  assert (HW' : Forall wf_input [InText (wordy_text ws) ats]) by (constructor; [exact HW|constructor]).
  destruct (thm_C50_created tg sz _ l id dict noun HW' N1 N2 HC) as (l' & R & Q). eexists. eexists. split; [exact R|]. split; [exact Q|]. apply valued_rows_by. eapply thm_C94_tokens; eauto.
Qed.

(** C94: text matches. *)
Lemma thm_C94_matches :
  forall (SL : SegmenterLaws) colon (AL : AsciiLaws colon) t tg sz ws ats l id (table : list (str * list (den t))),
    proper_wordy colon ws -> Forall wf_attribute ats -> none_of t [InText (wordy_text ws) ats] -> t <> TChar -> t <> TTextTag ->
    create_line_from_input_tokens tg [InText (wordy_text ws) ats] sz = Ok l ->
    (NoDup (map fst table) ->
       exists l' rows, run id l (text_match_go (text_match_new table)) = Ok l' /\ query l' t = Ok rows
         /\ Forall2 (piece_row l) (valued (fun text _ => entry_values (fun k => str_eqb k text) table) [] (read_as ws)) rows)
    /\ exists l' rows, run id l (text_match_go (text_match_new_ci table)) = Ok l' /\ query l' t = Ok rows
         /\ Forall2 (piece_row l) (valued (fun text _ => last_entry_values (fun k => same_ignoring_case k text) table) [] (read_as ws)) rows.
Proof.
  intros SL colon AL t tg sz ws ats l id table HP HW HN N1 N2 HC.
  assert (HW' : Forall wf_input [InText (wordy_text ws) ats]) by (constructor; [exact HW|constructor]).
  assert (HT : map token (ll_tokens l) = map (fun p => LText (fst p) (snd p)) (read_as ws)) by (eapply thm_C94_tokens; eauto). split.
  - intros ND. destruct (thm_C37_created t tg sz _ l id table HW' HN N1 N2 HC ND) as (l' & R & Q). eexists. eexists. split; [exact R|]. split; [exact Q|]. now apply valued_rows_by.
  - destruct (thm_C38_created t tg sz _ l id table HW' HN N1 N2 HC) as (l' & R & Q). eexists. eexists. split; [exact R|]. split; [exact Q|]. now apply valued_rows_by.
Qed.
End C94.
