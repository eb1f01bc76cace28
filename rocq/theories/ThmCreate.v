(** Proofs of the properties of line creation (C01-C09). *)

From Verif Require Export LemTokens LemSize.

Section ThmCreate.
Context {UC : Unicode} {U : UserTypes}.

(** ** Auxiliary: termination of the model functions *)

Lemma bind_fuel {A B} (x : res A) (f : A -> res B) :
  x <> OutOfFuel -> (forall a, f a <> OutOfFuel) -> bind x f <> OutOfFuel.
Proof. destruct x; simpl; auto. discriminate. Qed.

Lemma foldM_fuel {S A} (f : S -> A -> res S) l :
  (forall s a, f s a <> OutOfFuel) -> forall s, foldM f l s <> OutOfFuel.
Proof.
  intros H. induction l as [|a l IH]; simpl; intros s; [discriminate|].
  apply bind_fuel; auto.
Qed.

Lemma expect_fuel {A} p (o : option A) : expect p o <> OutOfFuel.
Proof. destruct o; discriminate. Qed.

Lemma update_nth_fuel {A} p i (f : A -> A) l : update_nth p i f l <> OutOfFuel.
Proof.
  revert i; induction l as [|a l IH]; intros [|i]; simpl; try discriminate.
  apply bind_fuel; auto. discriminate.
Qed.

Lemma map_entry_fuel {K V} (eqk : K -> K -> bool) (m : list (K * V)) k d f :
  (forall v, f v <> OutOfFuel) -> map_entry eqk m k d f <> OutOfFuel.
Proof.
  intros H. induction m as [|[k' v] m IH]; simpl.
  - apply bind_fuel; auto. discriminate.
  - destruct (eqk k' k); apply bind_fuel; auto; discriminate.
Qed.

Lemma attrs_insert_fuel a r t v : attrs_insert a r t v <> OutOfFuel.
Proof.
  unfold attrs_insert. repeat (apply bind_fuel; [try apply update_nth_fuel|intros ?]); try discriminate.
  apply map_entry_fuel. intros tb. apply map_entry_fuel. intros b.
  apply bind_fuel; [apply expect_fuel|discriminate].
Qed.

Lemma attrs_insert_any_fuel a r x : attrs_insert_any a r x <> OutOfFuel.
Proof.
  unfold attrs_insert_any. repeat (apply bind_fuel; [try apply update_nth_fuel|intros ?]); try discriminate.
  apply map_entry_fuel. intros tb. apply map_entry_fuel. intros b. unfold bucket_insert_any.
  apply bind_fuel; [apply expect_fuel|discriminate].
Qed.

Lemma create_fuel tg sz input : create_line_from_input_tokens tg input sz <> OutOfFuel.
Proof.
  unfold create_line_from_input_tokens. apply bind_fuel; [|intros st; apply bind_fuel; [|intros l]].
  - apply foldM_fuel. intros st it. unfold create_step. apply bind_fuel.
    + destruct it; simpl; [|discriminate]. apply foldM_fuel. intros s w.
      unfold tokens_of_segment. destruct w; [discriminate|].
      destruct (is_ascii_digit c); [|discriminate]. destruct (str_is_ascii (c :: w)); discriminate.
    + intros g. destruct g as [|x g]; [discriminate|]. apply bind_fuel.
      * apply foldM_fuel. intros [toks p] [t n]. simpl. apply bind_fuel; [|discriminate].
        unfold add_usize. destruct (p + n <? usize_mod tg)%N; [discriminate|].
        destruct (overflow_checks tg); discriminate.
      * intros [toks p]. apply bind_fuel; [apply expect_fuel|discriminate].
  - unfold line_new. apply bind_fuel; [|discriminate]. apply foldM_fuel.
    intros a [i tok]. simpl. destruct (token tok) as [s tag|]; [|discriminate].
    apply bind_fuel; [|intros; apply attrs_insert_fuel].
    destruct s as [|c [|]]; try discriminate. apply attrs_insert_fuel.
  - apply foldM_fuel. intros l0 [[s e] ats]. unfold add_any_attrs. apply bind_fuel; [|discriminate].
    apply foldM_fuel. intros. apply attrs_insert_any_fuel.
Qed.

(** ** Groups *)

Lemma groups_cut (SL : SegmenterLaws) sz input groups :
  Forall2 (fun it g => input_ltokens sz it = Ok g) input groups ->
  Forall (fun g => g <> []) groups ->
  Forall2 (fun it g => cut_of it (map fst g) /\ sized_by sz it g) input groups.
Proof.
  induction 1 as [|it g input groups H1 H2 IH]; intros HN; [constructor|].
  inversion HN; subst. constructor; auto.
  destruct it as [text ats|size ats]; simpl in *.
  - destruct (create_tokens_cut sz SL text g H1 H3) as (A & B & C & D). auto.
  - inversion H1; subst. auto.
Qed.

Lemma Forall2_map_r {A B C} (P : A -> C -> Prop) (f : B -> C) l l' :
  Forall2 (fun a b => P a (f b)) l l' -> Forall2 P l (map f l').
Proof. induction 1; simpl; constructor; auto. Qed.

Lemma Forall2_weaken {A B} (P Q : A -> B -> Prop) l l' :
  (forall a b, P a b -> Q a b) -> Forall2 P l l' -> Forall2 Q l l'.
Proof. induction 2; constructor; auto. Qed.

Lemma concat_map_map {A B} (f : A -> B) (ls : list (list A)) :
  concat (map (map f) ls) = map f (concat ls).
Proof. now rewrite concat_map. Qed.

(** Everything known about a created line. *)
Lemma create_facts tg sz input l :
  Forall wf_input input ->
  create_line_from_input_tokens tg input sz = Ok l ->
  exists groups, Forall2 (fun it g => input_ltokens sz it = Ok g) input groups
    /\ Forall (fun g => g <> []) groups /\ fits tg 0 (concat groups)
    /\ ll_tokens l = layout_by (wadd tg) 0 0%N (concat groups)
    /\ Repr l (creation_log (map (map fst) groups) input).
Proof.
  intros HW H. destruct (create_inv tg sz input l H) as (groups & H1 & H2 & H3).
  exists groups. destruct (create_ok tg sz input groups HW H1 H2 H3) as (l' & E & T & HR).
  assert (l' = l) by congruence. subst l'. auto.
Qed.

(** C01: the tokens of a line are, in input order, the pieces of the inputs. *)
Lemma thm_C01_no_text_lost :
  forall (SL : SegmenterLaws) tg sz input l,
    Forall wf_input input ->
    create_line_from_input_tokens tg input sz = Ok l ->
    exists groups : list (list LToken),
      map token (ll_tokens l) = concat groups /\ Forall2 cut_of input groups.
Proof.
  intros SL tg sz input l HW H.
  destruct (create_facts tg sz input l HW H) as (groups & H1 & H2 & H3 & HT & _).
  exists (map (map fst) groups). split.
  - now rewrite HT, layout_by_tokens, concat_map_map.
  - apply Forall2_map_r. eapply Forall2_weaken; [|apply (groups_cut SL sz); eauto]. simpl. tauto.
Qed.

(** C02: positions are laid out one after the other, each token having the size
    given by the caller; exactly if the total fits in usize, modulo 2^bits
    otherwise (release build); with overflow checks the total always fits. *)
Lemma thm_C02_positions :
  forall (SL : SegmenterLaws) tg sz input l,
    Forall wf_input input ->
    create_line_from_input_tokens tg input sz = Ok l ->
    exists groups : list (list (LToken * N)),
      Forall2 (fun it g => cut_of it (map fst g) /\ sized_by sz it g) input groups
      /\ ((total (concat groups) < 2 ^ usize_bits tg)%N -> ll_tokens l = layout (concat groups))
      /\ (overflow_checks tg = true -> (total (concat groups) < 2 ^ usize_bits tg)%N)
      /\ (overflow_checks tg = false -> ll_tokens l = layout_mod (2 ^ usize_bits tg) (concat groups)).
Proof.
  intros SL tg sz input l HW H.
  destruct (create_facts tg sz input l HW H) as (groups & H1 & H2 & H3 & HT & _).
  exists groups. fold (usize_mod tg). split; [apply (groups_cut SL sz); auto|]. rewrite HT. split; [|split].
  - intros Hlt. destruct (wadd_fold_exact tg (concat groups) 0 0%N) as [E _]; auto.
  - intros C. destruct H3 as [F|[F|F]]; [congruence| |exact F].
    rewrite F. apply usize_mod_pos.
  - intros _. apply layout_by_ext. intros a b. apply wadd_mod.
    pose proof (usize_mod_pos tg). lia.
Qed.

Lemma layout_by_nth add : forall xs i p k tok,
  nth_error (layout_by add i p xs) k = Some tok ->
  token_idx tok = i + k /\ (k = 0 -> pos_starts_at tok = p)
  /\ (forall tok', nth_error (layout_by add i p xs) (S k) = Some tok' -> pos_starts_at tok' = pos_ends_at tok)
  /\ (exists n, nth_error xs k = Some (token tok, n) /\ pos_ends_at tok = add (pos_starts_at tok) n).
Proof.
  induction xs as [|[t n] xs IH]; simpl; intros i p k tok H; [destruct k; discriminate|].
  destruct k as [|k]; simpl in *.
  - inversion H; subst; simpl. split; [lia|]. split; auto. split; [|eauto].
    intros tok' H'. destruct xs as [|[t' n'] xs]; simpl in H'; [discriminate|].
    inversion H'; subst; reflexivity.
  - destruct (IH _ _ _ _ H) as (A & B & C & D). split; [lia|]. split; [discriminate|]. split; auto.
Qed.

(** The deprecated name: the same texts, kinds and positions. *)
Lemma thm_C02_deprecated :
  forall (SL : SegmenterLaws) tg sz input l,
    Forall wf_input input ->
    create_tokens tg input sz = Ok l ->
    (exists lg, History l lg)
    /\ exists groups : list (list (LToken * N)),
      Forall2 (fun it g => cut_of it (map fst g) /\ sized_by sz it g) input groups
      /\ ((total (concat groups) < 2 ^ usize_bits tg)%N -> ll_tokens l = layout (concat groups))
      /\ (overflow_checks tg = true -> (total (concat groups) < 2 ^ usize_bits tg)%N)
      /\ (overflow_checks tg = false -> ll_tokens l = layout_mod (2 ^ usize_bits tg) (concat groups)).
Proof.
  intros SL tg sz input l HW H. split; [|exact (thm_C02_positions SL tg sz input l HW H)].
  destruct (create_facts tg sz input l HW H) as (groups & H1 & _).
  eexists. eapply H_create; eauto.
Qed.

(** C02 in terms of single tokens: indexes count from 0, the first token starts
    at 0, each next one where the previous ends (this even when positions wrap). *)
Lemma thm_C02_tiling :
  forall tg sz input l i tok,
    Forall wf_input input ->
    create_line_from_input_tokens tg input sz = Ok l ->
    nth_error (ll_tokens l) i = Some tok ->
    token_idx tok = i
    /\ (i = 0 -> pos_starts_at tok = 0%N)
    /\ (forall tok', nth_error (ll_tokens l) (S i) = Some tok' -> pos_starts_at tok' = pos_ends_at tok).
Proof.
  intros tg sz input l i tok HW H Hn.
  destruct (create_facts tg sz input l HW H) as (groups & H1 & H2 & H3 & HT & _).
  rewrite HT in *. apply layout_by_nth in Hn. destruct Hn as (A & B & C & _). auto.
Qed.

(** ** Bytes *)

Lemma utf8_char_len c : length (utf8_char c) = N.to_nat (char_len_utf8 c).
Proof.
  unfold utf8_char, char_len_utf8.
  destruct (c <? 128)%N; [reflexivity|]. destruct (c <? 2048)%N; [reflexivity|].
  destruct (c <? 65536)%N; reflexivity.
Qed.

Lemma utf8_len s : length (utf8 s) = N.to_nat (str_len s).
Proof.
  induction s as [|c s IH]; simpl; auto. unfold utf8 in *; simpl.
  rewrite app_length, IH, utf8_char_len. lia.
Qed.

Lemma utf8_app a b : utf8 (a ++ b) = utf8 a ++ utf8 b.
Proof. apply flat_map_app. Qed.

Lemma str_len_app a b : str_len (a ++ b) = (str_len a + str_len b)%N.
Proof. induction a; simpl; auto. rewrite IHa. lia. Qed.

Lemma layout_text_pos : forall xs i (pre : str) k tok,
  Forall (fun p => snd p = str_len (ltext (fst p))) xs ->
  nth_error (layout_by N.add i (str_len pre) xs) k = Some tok ->
  exists a b, concat (map ltext (map fst xs)) = a ++ ltext (token tok) ++ b
    /\ pos_starts_at tok = str_len (pre ++ a)
    /\ pos_ends_at tok = str_len (pre ++ a ++ ltext (token tok))
    /\ (S k = length xs -> b = []).
Proof.
  induction xs as [|[t n] xs IH]; simpl; intros i pre k tok HF H; [destruct k; discriminate|].
  inversion HF as [|? ? E HF']; subst. simpl in E. destruct k as [|k]; simpl in H.
  - inversion H; subst; simpl. exists [], (concat (map ltext (map fst xs))).
    simpl. rewrite app_nil_r, str_len_app. repeat split; auto.
    intros L. destruct xs; [reflexivity|discriminate].
  - rewrite E in H. rewrite <- str_len_app in H.
    destruct (IH _ _ _ _ HF' H) as (a & b & E1 & E2 & E3 & E4).
    exists (ltext t ++ a), b. rewrite E1, <- !app_assoc. rewrite <- app_assoc in E2, E3.
    repeat split; auto.
Qed.

Lemma skipn_app_exact {A} (l1 l2 : list A) n : n = length l1 -> skipn n (l1 ++ l2) = l2.
Proof. intros ->. rewrite skipn_app, skipn_all, Nat.sub_diag. reflexivity. Qed.

Lemma firstn_app_exact {A} (l1 l2 : list A) n : n = length l1 -> firstn n (l1 ++ l2) = l1.
Proof. intros ->. rewrite firstn_app, firstn_all, Nat.sub_diag. simpl. apply app_nil_r. Qed.

(** C03: on lines of create_line_from_string a token's text is the slice of the
    input's UTF-8 bytes between its two positions, and the last token ends at the
    byte length of the input. *)
Lemma thm_C03_byte_offsets :
  forall (SL : SegmenterLaws) tg s l i tok,
    (str_len s < 2 ^ usize_bits tg)%N ->
    create_line_from_string tg s = Ok l ->
    nth_error (ll_tokens l) i = Some tok ->
    (exists text tag, token tok = LText text tag
      /\ (pos_starts_at tok <= pos_ends_at tok)%N
      /\ utf8 text = firstn (N.to_nat (pos_ends_at tok - pos_starts_at tok))
                            (skipn (N.to_nat (pos_starts_at tok)) (utf8 s)))
    /\ (S i = length (ll_tokens l) -> N.to_nat (pos_ends_at tok) = length (utf8 s)).
Proof.
  intros SL tg s l i tok HS H Hn. unfold create_line_from_string in H.
  destruct (create_facts tg str_len _ l (Forall_cons _ (Forall_nil _ : wf_input (InText s [])) (Forall_nil _)) H)
    as (groups & H1 & H2 & H3 & HT & _).
  pose proof (groups_cut SL _ _ _ H1 H2) as HC.
  inversion HC as [|? g ? gs [HC1 HC2] HC3]; subst. inversion HC3; subst. clear HC HC3.
  simpl in HT, HC1, HC2. rewrite app_nil_r in HT. destruct HC1 as (_ & HC1 & HC3).
  assert (ET : total g = str_len s).
  { rewrite <- HC3. clear -HC2. induction g as [|[t n] g IH]; simpl; auto.
    inversion HC2; subst. simpl in *. rewrite str_len_app. rewrite IH; auto. lia. }
  destruct (wadd_fold_exact tg g 0 0%N) as [E _].
  { simpl. rewrite ET. exact HS. }
  rewrite E in HT. rewrite HT in *.
  change 0%N with (str_len []) in Hn.
  destruct (layout_text_pos g 0 [] i tok HC2 Hn) as (a & b & E1 & E2 & E3 & E4).
  simpl in E2, E3. rewrite HC3 in E1. split.
  - assert (exists text tag, token tok = LText text tag) as (text & tag & Etok).
    { apply layout_by_nth in Hn. destruct Hn as (_ & _ & _ & n & Hn & _).
      rewrite Forall_forall in HC1. destruct (HC1 (token tok)) as (t1 & tag & -> & _); eauto.
      apply in_map_iff. exists (token tok, n). split; auto. eapply nth_error_In; eauto. }
    exists text, tag. rewrite Etok in *. simpl in *. split; auto.
    rewrite E2, E3, str_len_app. split; [lia|].
    rewrite E1, !utf8_app, skipn_app_exact by (symmetry; apply utf8_len).
    rewrite firstn_app_exact; auto. rewrite utf8_len. f_equal. lia.
  - rewrite layout_by_length. intros L. rewrite (E4 L), app_nil_r in E1.
    rewrite E3, <- E1. symmetry. apply utf8_len.
Qed.

(** ** C04 *)


Lemma input_ltokens_acceptable (SL : SegmenterLaws) sz it :
  acceptable it <-> exists g, input_ltokens sz it = Ok g /\ g <> [].
Proof.
  destruct it as [text ats|size ats]; simpl.
  - split.
    + intros [Hne Hw]. unfold create_tokens_for_string.
      destruct (create_tokens_fold_ok sz (u_words text) []) as (pss & Hp & E).
      { apply Forall_forall. intros w Hin. split; auto. now apply (seg_nonempty SL text). }
      eexists; split; [exact E|]. simpl. intros F. apply map_eq_nil in F.
      apply segments_concat in Hp. destruct Hp as (_ & _ & Hp). apply Hp; auto.
      intros F2. apply Hne. now apply (words_nil SL).
    + intros (g & E & Hne). unfold create_tokens_for_string in E. split.
      * intros ->. rewrite (proj2 (words_nil SL []) eq_refl) in E. simpl in E. congruence.
      * apply create_tokens_fold_inv in E. rewrite Forall_forall in E. intros w Hin. now apply E.
  - split; auto. intros _. eexists; split; [reflexivity|discriminate].
Qed.

(** C04: creation panics if some text is empty or has a segment starting with an
    ASCII digit and containing a non-ASCII character; otherwise it succeeds iff
    positions cannot overflow or overflow wraps, and panics else. *)
Lemma thm_C04_rejected :
  forall (SL : SegmenterLaws) tg sz input,
    Forall wf_input input ->
    (~ Forall acceptable input ->
       exists p, create_line_from_input_tokens tg input sz = Panic p)
    /\ (Forall acceptable input ->
       exists groups, Forall2 (fun it g => cut_of it (map fst g) /\ sized_by sz it g) input groups
       /\ ((overflow_checks tg = false \/ (total (concat groups) < 2 ^ usize_bits tg)%N) ->
             exists l, create_line_from_input_tokens tg input sz = Ok l)
       /\ ((overflow_checks tg = true /\ (2 ^ usize_bits tg <= total (concat groups))%N) ->
             exists p, create_line_from_input_tokens tg input sz = Panic p)).
Proof.
  intros SL tg sz input HW.
  assert (P : (forall l, create_line_from_input_tokens tg input sz <> Ok l) ->
              exists p, create_line_from_input_tokens tg input sz = Panic p).
  { intros H. pose proof (create_fuel tg sz input) as HF.
    destruct (create_line_from_input_tokens tg input sz) as [l|p|]; [now specialize (H l)|eauto|easy]. }
  split.
  - intros HA. apply P. intros l H. apply HA.
    destruct (create_inv tg sz input l H) as (groups & H1 & H2 & _).
    clear - SL H1 H2. induction H1 as [|it g input groups Hg H1 IH]; [constructor|].
    inversion H2; subst. constructor; auto. apply (input_ltokens_acceptable SL sz). eauto.
  - intros HA.
    assert (exists groups, Forall2 (fun it g => input_ltokens sz it = Ok g) input groups
                           /\ Forall (fun g => g <> []) groups) as (groups & H1 & H2).
    { clear - SL HA. induction HA as [|it input H HA (groups & IH1 & IH2)].
      - exists []. auto.
      - apply (input_ltokens_acceptable SL sz) in H. destruct H as (g & E & Hne).
        exists (g :: groups). auto. }
    exists groups. split; [apply (groups_cut SL sz); auto|]. fold (usize_mod tg). split.
    + intros HF. destruct (create_ok tg sz input groups HW H1 H2) as (l & E & _); eauto.
      destruct HF as [HF|HF]; [left; auto|right; right; auto].
    + intros [C HT]. apply P. intros l H. destruct (create_inv tg sz input l H) as (groups' & H1' & _ & HF).
      rewrite (groups_fun sz input groups groups' H1 H1') in HT.
      destruct HF as [HF|[HF|HF]]; [congruence| |].
      * rewrite HF in HT. pose proof (usize_mod_pos tg). simpl in HT. lia.
      * simpl in HF. lia.
Qed.

(** ** C05: tags *)

Lemma is_spaces_spec s : is_spaces s = true <-> all_space s.
Proof.
  unfold all_space. induction s as [|c s IH]; simpl.
  - split; auto.
  - destruct (u_whitespace c) eqn:E; simpl.
    + rewrite IH. split; [auto | intros H; now inversion H].
    + split; [discriminate | intros H; inversion H; congruence].
Qed.

Lemma str_len_1 s : str_len s = 1%N -> exists c, s = [c] /\ (c < 128)%N.
Proof.
  assert (forall c, (1 <= char_len_utf8 c)%N /\ (char_len_utf8 c = 1%N -> (c < 128)%N)) as L.
  { intros c. unfold char_len_utf8. destruct (N.ltb_spec c 128); [lia|].
    destruct (c <? 2048)%N; [lia|]. destruct (c <? 65536)%N; lia. }
  destruct s as [|c [|c' s]]; simpl; intros H.
  - discriminate.
  - exists c. split; auto. apply L. lia.
  - pose proof (proj1 (L c)). pose proof (proj1 (L c')). lia.
Qed.

Lemma punc_test_spec s :
  (str_len s =? 1)%N && match s with c :: _ => existsb (N.eqb c) PUNCTUATION | [] => false end = true
  <-> one_punctuation s.
Proof.
  rewrite andb_true_iff, N.eqb_eq. split.
  - intros [H1 H2]. apply str_len_1 in H1. destruct H1 as (c & -> & _).
    apply existsb_exists in H2. destruct H2 as (x & Hx & E). apply N.eqb_eq in E. subst x.
    exists c. split; auto.
  - intros (c & -> & H). unfold documented_punctuation in H. simpl in H. split.
    + repeat (destruct H as [<-|H]; [reflexivity|]). easy.
    + apply existsb_exists. exists c. split; [exact H|apply N.eqb_refl].
Qed.

Lemma is_word_rest_spec s : is_word_rest s = true <->
  Forall (fun c => u_alphabetic c = true \/ In c [39; 45; 8211]%N) s.
Proof.
  induction s as [|c s IH]; simpl.
  - split; auto.
  - destruct (u_alphabetic c) eqn:E.
    + rewrite IH. split; [auto | intros H; now inversion H].
    + destruct ((c =? 39)%N || (c =? 45)%N || (c =? 8211)%N) eqn:E2.
      * rewrite IH. split; [|intros H; now inversion H]. constructor; auto. right.
        rewrite !orb_true_iff, !N.eqb_eq in E2. simpl. intuition.
      * rewrite !orb_false_iff, !N.eqb_neq in E2. split; [discriminate|]. intros H. inversion H; subst.
        destruct H2 as [H2|H2]; [congruence|]. simpl in H2. intuition.
Qed.

Lemma is_word_spec s : is_word s = true <-> word_like s.
Proof.
  unfold word_like. destruct s as [|c s]; simpl.
  - split; [discriminate | intros (c & s' & E & _); discriminate].
  - destruct (u_alphabetic c) eqn:E.
    + rewrite is_word_rest_spec. split.
      * intros H. exists c, s. auto.
      * intros (c0 & s0 & E0 & _ & H). inversion E0; subst; auto.
    + split; [discriminate|]. intros (c0 & s0 & E0 & H & _). inversion E0; subst. congruence.
Qed.

Lemma get_tag_documented w : documented_tag w (get_unicode_word_tag w).
Proof.
  unfold documented_tag, get_unicode_word_tag.
  rewrite <- is_spaces_spec, <- punc_test_spec, <- is_word_spec.
  destruct (is_spaces w); [intuition (try discriminate; try congruence)|].
  destruct ((str_len w =? 1)%N && match w with c :: _ => existsb (N.eqb c) PUNCTUATION | [] => false end);
    [intuition (try discriminate; try congruence)|].
  destruct (is_word w); intuition (try discriminate; try congruence).
Qed.

Lemma segment_pieces_cut w ps : segment_pieces w ps -> segment_cut w ps.
Proof.
  unfold segment_pieces, segment_cut. destruct w as [|c w]; [easy|]. intros H. exists c, w.
  split; auto. destruct (decimal_digit c).
  - left. tauto.
  - right. split; auto. eexists; split; [exact H|]. apply get_tag_documented.
Qed.

(** C05 and C08: the tokens of a text are the pieces of its segments, each with
    its tag: a segment starting with an ASCII digit is cut into maximal runs of
    digits (NATN) and letters (WORD) and single other characters (PUNC), any
    other segment is one token with the documented tag. *)
Lemma thm_C05_tags :
  forall sz s g,
    create_tokens_for_string sz s = Ok g ->
    exists pss, Forall2 segment_cut (u_words s) pss
      /\ map fst g = map (fun p => LText (fst p) (snd p)) (concat pss).
Proof.
  intros sz s g H. apply create_tokens_inv in H. destruct H as (pss & Hp & ->). exists pss. split.
  - eapply Forall2_weaken; [|exact Hp]. apply segment_pieces_cut.
  - now rewrite map_map.
Qed.

Lemma segment_cut_natn w ps s tag : segment_cut w ps -> In (s, tag) ps ->
  (tag = NATN <-> s <> [] /\ Forall (fun c => decimal_digit c = true) s).
Proof.
  intros (c & w' & -> & [(Hd & G & _ & _)|(Hd & tag' & -> & (_ & _ & _ & _ & HN))]) Hin.
  - rewrite Forall_forall in G. specialize (G _ Hin). unfold good_piece in G; simpl in G.
    destruct tag; simpl in G; try easy.
    + split; [discriminate|]. destruct G as (c0 & -> & G & _). intros [_ H]. inversion H; congruence.
    + split; [discriminate|]. destruct G as (Gn & G). intros [_ H]. destruct s; [easy|].
      inversion G as [|? ? [G1 _] _]; inversion H; congruence.
  - destruct Hin as [E|[]]. inversion E; subst. split; [congruence|].
    intros [_ H]. inversion H; congruence.
Qed.

(** C05: a text token is tagged NATN iff it is a non-empty run of ASCII digits. *)
Lemma thm_C05_natn :
  forall tg sz input l tok s tag,
    Forall wf_input input ->
    create_line_from_input_tokens tg input sz = Ok l ->
    In tok (ll_tokens l) -> token tok = LText s tag ->
    (tag = NATN <-> s <> [] /\ Forall (fun c => decimal_digit c = true) s).
Proof.
  intros tg sz input l tok s tag HW H Hin Et.
  destruct (create_facts tg sz input l HW H) as (groups & H1 & H2 & H3 & HT & _).
  assert (Hin' : In (LText s tag) (map fst (concat groups))).
  { rewrite <- (layout_by_tokens (wadd tg) 0 0%N), <- HT, <- Et. now apply in_map. }
  apply in_map_iff in Hin'. destruct Hin' as ([t n] & Ef & Hin'). simpl in Ef. subst t.
  apply in_concat in Hin'. destruct Hin' as (g & Hg & Hin').
  assert (exists it, input_ltokens sz it = Ok g) as (it & Hit).
  { clear - H1 Hg. induction H1; simpl in Hg; [easy|]. destruct Hg as [<-|Hg]; eauto. }
  destruct it as [text ats|size ats]; simpl in Hit.
  - apply thm_C05_tags in Hit. destruct Hit as (pss & Hp & Em).
    assert (In (s, tag) (concat pss)) as Hc.
    { assert (In (LText s tag) (map fst g)) as Hm by (apply in_map_iff; exists (LText s tag, n); auto).
      rewrite Em in Hm. apply in_map_iff in Hm. destruct Hm as ([s' tag'] & E & Hm).
      simpl in E. inversion E; subst. exact Hm. }
    apply in_concat in Hc. destruct Hc as (ps & Hps & Hc).
    assert (exists w, segment_cut w ps) as (w & Hw).
    { clear - Hp Hps. induction Hp; simpl in Hps; [easy|]. destruct Hps as [<-|Hps]; eauto. }
    eapply segment_cut_natn; eauto.
  - inversion Hit; subst. destruct Hin' as [E|[]]. discriminate.
Qed.

(** C08: the cut of a digit-led segment is unique. *)
Lemma thm_C08_unique :
  forall w ps qs,
    Forall good_piece ps -> maximal ps -> concat (map fst ps) = w ->
    Forall good_piece qs -> maximal qs -> concat (map fst qs) = w ->
    ps = qs.
Proof. intros. apply pieces_unique; auto. congruence. Qed.

(** ** Attributes at creation: C05, C07, C09 *)

Lemma input_log_ordered : forall groups input i,
  Forall (fun g => g <> []) groups -> ordered (input_log i groups input).
Proof.
  induction groups as [|g groups IH]; simpl; intros input i H; [constructor|].
  destruct input as [|it input]; [constructor|]. inversion H; subst.
  unfold ordered in *. apply Forall_app. split; auto.
  apply Forall_map. apply Forall_forall. intros a _. simpl. destruct g; [easy|]. simpl. lia.
Qed.

Lemma token_entries_ranges i t e : In e (token_entries i t) -> fst e = (i, i).
Proof.
  destruct t as [s tag|]; simpl; [|easy]. destruct s as [|c [|]]; simpl;
    intuition (subst; reflexivity).
Qed.

Lemma tokens_log_ordered ts : forall i, ordered (tokens_log i ts).
Proof.
  induction ts as [|t ts IH]; simpl; intros i; [constructor|].
  unfold ordered in *. apply Forall_app. split; auto.
  apply Forall_forall. intros [r a] H. apply token_entries_ranges in H. simpl in H. subst r. simpl. lia.
Qed.

Lemma creation_log_ordered groups input :
  Forall (fun g => g <> []) groups -> ordered (creation_log groups input).
Proof.
  intros H. unfold creation_log, ordered. apply Forall_app. split.
  - apply tokens_log_ordered.
  - now apply input_log_ordered.
Qed.

Lemma map_nonempty {A B} (f : A -> B) groups :
  Forall (fun g => g <> []) groups -> Forall (fun g => g <> []) (map (map f) groups).
Proof.
  intros H. apply Forall_map. eapply Forall_impl; [|exact H].
  intros g Hg F. apply map_eq_nil in F. auto.
Qed.


Lemma assigned_input_none t : forall groups input i,
  none_of t input -> assigned t (input_log i groups input) = [].
Proof.
  induction groups as [|g groups IH]; simpl; intros input i H; [reflexivity|].
  destruct input as [|it input]; [reflexivity|].
  rewrite assigned_app, IH; [|intros it' a H1; apply H; now right]. rewrite app_nil_r.
  unfold assigned. apply filter_map_none. intros [r a] Hin. apply in_map_iff in Hin.
  destruct Hin as (x & E & Hx). inversion E; subst. rewrite (H it x); auto. now left.
Qed.

Lemma firsts_id l : NoDup l -> firsts l = l.
Proof.
  induction 1 as [|x l Hx H IH]; simpl; auto. rewrite IH. f_equal.
  rewrite (filter_ext_in _ (fun _ => true)).
  - clear. induction l; simpl; congruence.
  - intros a Ha. apply negb_true_iff, range_eqb_neq. congruence.
Qed.


Lemma enumerate_In {A} (l : list A) i k a :
  In (k, a) (enumerate_from i l) <-> i <= k /\ nth_error l (k - i) = Some a.
Proof.
  revert i; induction l as [|x l IH]; simpl; intros i.
  - split; [easy|]. intros [_ H]. destruct (k - i); discriminate.
  - rewrite IH. split.
    + intros [E|[H1 H2]].
      * inversion E; subst. rewrite Nat.sub_diag. auto.
      * split; [lia|]. replace (k - i) with (S (k - S i)) by lia. exact H2.
    + intros [H1 H2]. destruct (Nat.eq_dec i k) as [->|Hne].
      * left. rewrite Nat.sub_diag in H2. simpl in H2. congruence.
      * right. split; [lia|]. replace (k - i) with (S (k - S i)) in H2 by lia. exact H2.
Qed.

Section TokenRows.
Variables (t : ty) (f : LToken -> option (den t)).
Hypothesis Hf : forall i tok, assigned t (token_entries i tok) = map (pair (i, i)) (opt_list (f tok)).

Lemma assigned_tokens_log ts : forall i, assigned t (tokens_log i ts) =
  filter_map (fun '(k, tok) => option_map (fun v => ((k, k), v)) (f tok)) (enumerate_from i ts).
Proof.
  induction ts as [|tok ts IH]; simpl; intros i; auto.
  rewrite assigned_app, IH, Hf. destruct (f tok); reflexivity.
Qed.

Lemma tokens_ranges_NoDup ts i : NoDup (map fst (assigned t (tokens_log i ts))).
Proof.
  rewrite assigned_tokens_log, map_filter_map. revert i.
  induction ts as [|tok ts IH]; simpl; intros i; [constructor|].
  destruct (f tok) as [v|]; simpl; auto. constructor; auto.
  rewrite in_filter_map. intros ([k tok'] & Hin & E). apply enumerate_In in Hin.
  destruct (f tok'); simpl in E; [|discriminate]. inversion E; subst. lia.
Qed.

Lemma query_tokens_log toks lg2 :
  assigned t lg2 = [] ->
  query_spec toks t (tokens_log 0 (map token toks) ++ lg2) = token_rows f 0 (map token toks).
Proof.
  intros H2. unfold query_spec, ranges_of, values_on. rewrite assigned_app, H2, app_nil_r.
  rewrite firsts_id by apply tokens_ranges_NoDup.
  pose proof (tokens_ranges_NoDup (map token toks) 0) as ND.
  unfold token_rows.
  assert (HA : forall r v, In (r, v) (assigned t (tokens_log 0 (map token toks))) ->
     filter_map (fun '(r', v') => if range_eqb r' r then Some v' else None)
       (assigned t (tokens_log 0 (map token toks))) = [v]).
  { intros r v. generalize ND. generalize (assigned t (tokens_log 0 (map token toks))).
    clear. induction l as [|[r0 v0] l IH]; simpl; intros ND Hin; [easy|].
    inversion ND as [|? ? Hni ND']; subst. destruct Hin as [E|Hin].
    - inversion E; subst. rewrite range_eqb_refl. f_equal. apply filter_map_none.
      intros [r' v'] Hin'. assert (range_eqb r' r = false) as ->; auto.
      apply range_eqb_neq. intros ->. apply Hni. apply in_map_iff. exists (r, v'); auto.
    - assert (range_eqb r0 r = false) as ->; auto.
      apply range_eqb_neq. intros ->. apply Hni. apply in_map_iff. exists (r, v); auto. }
  rewrite map_map.
  rewrite (map_ext_in _ (fun p => (fst p, text_between toks (fst (fst p)) (snd (fst p)), [snd p]))).
  2:{ intros [r v] Hin. simpl. rewrite (HA r v Hin). reflexivity. }
  rewrite assigned_tokens_log, map_filter_map. apply filter_map_ext.
  intros [k tok] Hin. destruct (f tok); simpl; auto. f_equal. f_equal. f_equal.
  apply enumerate_In in Hin. destruct Hin as [_ Hin]. rewrite Nat.sub_0_r, nth_error_map in Hin.
  unfold text_between. replace (S k - k) with 1 by lia. simpl.
  destruct (nth_error toks k) as [lt|]; simpl in Hin; [|discriminate]. inversion Hin; subst.
  rewrite app_nil_r. unfold token_str, ltext. destruct (token lt); reflexivity.
Qed.
End TokenRows.


Lemma created_query tg sz input l t f :
  (forall i tok, assigned t (token_entries i tok) = map (pair (i, i)) (opt_list (f tok))) ->
  Forall wf_input input -> none_of t input ->
  create_line_from_input_tokens tg input sz = Ok l ->
  query l t = Ok (token_rows f 0 (map token (ll_tokens l))).
Proof.
  intros Hf HW HN H. destruct (create_facts tg sz input l HW H) as (groups & H1 & H2 & H3 & HT & HR).
  rewrite (query_ok l _ t HR) by (apply creation_log_ordered, map_nonempty; auto).
  unfold creation_log. rewrite concat_map_map, <- (layout_by_tokens (wadd tg) 0 0%N), <- HT.
  f_equal. apply query_tokens_log; auto. apply assigned_input_none; auto.
Qed.

(** C05: at creation the TextTags of a line are exactly one per text token, on
    this token alone (if the input brings no TextTag of its own). *)
Lemma thm_C05_one_tag_each :
  forall tg sz input l,
    Forall wf_input input -> none_of TTextTag input ->
    create_line_from_input_tokens tg input sz = Ok l ->
    query l TTextTag = Ok (token_rows (A := TextTag) tag_of 0 (map token (ll_tokens l))).
Proof.
  intros tg sz input l HW HN H. apply (created_query tg sz input l TTextTag tag_of); auto.
  intros i [s tag|]; [|reflexivity]. destruct s as [|c [|]]; reflexivity.
Qed.

(** C07: at creation the chars of a line are exactly one per one-character text
    token, on this token alone (if the input brings no char of its own). *)
Lemma thm_C07_char_iff_one_char :
  forall tg sz input l,
    Forall wf_input input -> none_of TChar input ->
    create_line_from_input_tokens tg input sz = Ok l ->
    query l TChar = Ok (token_rows (A := char) char_of 0 (map token (ll_tokens l))).
Proof.
  intros tg sz input l HW HN H. apply (created_query tg sz input l TChar char_of); auto.
  intros i [s tag|]; [|reflexivity]. destruct s as [|c [|]]; reflexivity.
Qed.

(** C09: for every other type the query after creation reports exactly the
    attributes of the inputs, each on the tokens of its own input. *)
Lemma thm_C09_input_attributes :
  forall (SL : SegmenterLaws) tg sz input l t,
    Forall wf_input input -> t <> TChar -> t <> TTextTag ->
    create_line_from_input_tokens tg input sz = Ok l ->
    exists groups, map token (ll_tokens l) = concat groups /\ Forall2 cut_of input groups
      /\ query l t = Ok (query_spec (ll_tokens l) t (input_log 0 groups input)).
Proof.
  intros SL tg sz input l t HW Ht1 Ht2 H.
  destruct (create_facts tg sz input l HW H) as (groups & H1 & H2 & H3 & HT & HR).
  exists (map (map fst) groups). split; [|split].
  - now rewrite HT, layout_by_tokens, concat_map_map.
  - apply Forall2_map_r. eapply Forall2_weaken; [|apply (groups_cut SL sz); eauto]. simpl. tauto.
  - rewrite (query_ok l _ t HR) by (apply creation_log_ordered, map_nonempty; auto).
    assert (E : assigned t (tokens_log 0 (concat (map (map fst) groups))) = []).
    { generalize 0. generalize (concat (map (map fst) groups)). induction l0 as [|tok ts IH]; intros i; auto.
      simpl. rewrite assigned_app, IH, app_nil_r. destruct tok as [s tag|]; [|reflexivity].
      unfold assigned. destruct s as [|c [|]]; simpl; rewrite ?downcast_other by congruence; reflexivity. }
    unfold query_spec, ranges_of, values_on, creation_log. rewrite assigned_app, E. reflexivity.
Qed.

(** C09: which tokens come from which input is determined by the texts. *)
Lemma texts_prefix : forall g g' r r' : list LToken,
  Forall (fun t => exists s tag, t = LText s tag /\ s <> []) g -> Forall (fun t => exists s tag, t = LText s tag /\ s <> []) g' ->
  concat (map ltext g) = concat (map ltext g') -> g ++ r = g' ++ r' -> g = g' /\ r = r'.
Proof.
  induction g as [|t g IH]; intros [|t' g'] r r' HF HF' E EA.
  - auto.
  - exfalso. inversion HF' as [|? ? (s & tag & -> & Hs) _]; subst. cbn in E. destruct s; [easy|discriminate].
  - exfalso. inversion HF as [|? ? (s & tag & -> & Hs) _]; subst. cbn in E. destruct s; [easy|discriminate].
  - cbn [app] in EA. injection EA as <- EA. inversion HF; inversion HF'; subst. cbn [map concat] in E. apply app_inv_head in E.
    destruct (IH g' r r') as (-> & ->); auto.
Qed.

Lemma cut_unique : forall input groups groups',
  Forall2 cut_of input groups -> Forall2 cut_of input groups' -> concat groups = concat groups' -> groups = groups'.
Proof.
  induction input as [|it input IH]; intros groups groups' H H' E; inversion H as [|? g ? gs Hg Hgs]; inversion H' as [|? g' ? gs' Hg' Hgs']; subst; [reflexivity|].
  cbn [concat] in E. assert (X : g = g' /\ concat gs = concat gs').
  { destruct it as [text ats|size ats]; cbn in Hg, Hg'.
    - destruct Hg as (_ & F & T), Hg' as (_ & F' & T'). apply texts_prefix; auto. congruence.
    - subst g g'. injection E as E. auto. }
  destruct X as (-> & X). f_equal. now apply IH.
Qed.

Lemma thm_C09_groups :
  forall (SL : SegmenterLaws) tg sz input l,
    Forall wf_input input -> create_line_from_input_tokens tg input sz = Ok l ->
    exists groups, Forall2 cut_of input groups /\ concat groups = map token (ll_tokens l)
      /\ (forall groups', Forall2 cut_of input groups' -> concat groups' = map token (ll_tokens l) -> groups' = groups)
      /\ History l (creation_log groups input).
Proof.
  intros SL tg sz input l HW H. destruct (create_facts tg sz input l HW H) as (groups & H1 & H2 & H3 & HT & HR).
  assert (HC : Forall2 cut_of input (map (map fst) groups)).
  { apply Forall2_map_r. eapply Forall2_weaken; [|apply (groups_cut SL sz); eauto]. simpl. tauto. }
  assert (HA : concat (map (map fst) groups) = map token (ll_tokens l)) by (now rewrite HT, layout_by_tokens, concat_map_map).
  exists (map (map fst) groups). split; [exact HC|]. split; [exact HA|]. split.
  - intros groups' HC' HA'. apply (cut_unique input); auto. congruence.
  - eapply H_create; eauto.
Qed.

Lemma input_log_app groups1 : forall input1 groups2 input2 i, length groups1 = length input1 ->
  input_log i (groups1 ++ groups2) (input1 ++ input2)
  = input_log i groups1 input1 ++ input_log (i + length (concat groups1)) groups2 input2.
Proof.
  induction groups1 as [|g groups1 IH]; intros [|it input1] groups2 input2 i HL; try discriminate HL.
  - cbn [app input_log concat length]. now rewrite Nat.add_0_r.
  - cbn [app input_log concat]. rewrite IH by (cbn [length] in HL; lia). rewrite app_length, <- app_assoc, Nat.add_assoc.
    reflexivity.
Qed.

Lemma input_log_from groups : forall input i, Forall (fun x => i <= fst (fst x)) (input_log i groups input).
Proof.
  induction groups as [|g groups IH]; intros [|it input] i; try constructor. cbn [input_log]. apply Forall_app. split.
  - apply Forall_forall. intros x Hx. apply in_map_iff in Hx. destruct Hx as (a & <- & _). cbn. lia.
  - eapply Forall_impl; [|apply IH]. intros x Hx. cbv beta in *. lia.
Qed.

(** C09: an attribute added to an input token comes after those the input token had. *)
Lemma thm_C09_add_attr :
  forall (SL : SegmenterLaws) tg sz i1 it i2 l t (v : den t),
    Forall wf_input (i1 ++ it :: i2) ->
    create_line_from_input_tokens tg (i1 ++ it :: i2) sz = Ok l ->
    exists l' s g lg0 lg2,
      create_line_from_input_tokens tg (i1 ++ input_add_attr it t v :: i2) sz = Ok l'
      /\ ll_tokens l' = ll_tokens l
      /\ cut_of it g /\ firstn (length g) (skipn s (map token (ll_tokens l))) = g
      /\ Forall (fun x => s + length g <= fst (fst x)) lg2
      /\ forall t',
           let mine := map (fun a => ((s, s + length g - 1), aa_value a)) (input_attrs it) in
           query l t' = Ok (query_spec (ll_tokens l) t' (lg0 ++ mine ++ lg2))
           /\ query l' t' = Ok (query_spec (ll_tokens l) t' (lg0 ++ mine ++ ((s, s + length g - 1), mkany t v) :: lg2)).
Proof.
  intros SL tg sz i1 it i2 l t v HW H. set (it' := input_add_attr it t v).
  destruct (create_facts tg sz _ l HW H) as (groups & H1 & H2 & H3 & HT & HR).
  assert (EA : input_attrs it' = input_attrs it ++ [any_attribute_new t v]) by now destruct it.
  assert (HW' : Forall wf_input (i1 ++ it' :: i2)).
  { apply Forall_app in HW. destruct HW as [W1 W2]. inversion W2 as [|? ? W3 W4]; subst. apply Forall_app. split; [exact W1|].
    constructor; [|exact W4]. unfold wf_input in *. rewrite EA. apply Forall_app. split; [exact W3|].
    constructor; [|constructor]. now exists t, v. }
  assert (H1' : Forall2 (fun it g => input_ltokens sz it = Ok g) (i1 ++ it' :: i2) groups).
  { apply Forall2_app_inv_l in H1. destruct H1 as (g1 & g2 & F1 & F2 & ->). inversion F2 as [|? g ? gs F3 F4]; subst.
    apply Forall2_app; [exact F1|]. constructor; [|exact F4]. rewrite <- F3. now destruct it. }
  destruct (create_ok tg sz _ groups HW' H1' H2 H3) as (l' & E' & T' & HR').
  pose proof (groups_cut SL sz _ _ H1 H2) as HC.
  apply Forall2_app_inv_l in HC. destruct HC as (g1 & g2 & F1 & F2 & EG). inversion F2 as [|? g ? gs [F3 _] F4]; subst g2 groups.
  assert (F1L : length g1 = length i1) by (clear - F1; induction F1; cbn [length]; congruence).
  exists l', (length (concat (map (map fst) g1))), (map fst g),
    (tokens_log 0 (concat (map (map fst) (g1 ++ g :: gs))) ++ input_log 0 (map (map fst) g1) i1),
    (input_log (length (concat (map (map fst) g1)) + length (map fst g)) (map (map fst) gs) i2).
  split; [exact E'|]. split; [now rewrite T', HT|]. split; [exact F3|]. split; [|split; [apply input_log_from|]].
  - rewrite HT, layout_by_tokens, <- concat_map_map, map_app, concat_app. cbn [map concat].
    rewrite skipn_app_exact by reflexivity. now rewrite firstn_app_exact.
  - intros t'. cbv zeta. split.
    + rewrite (query_ok l _ t' HR) by (apply creation_log_ordered, map_nonempty; auto). unfold creation_log.
      rewrite (map_app (map fst) g1 (g :: gs)) at 2. rewrite input_log_app by now rewrite map_length.
      cbn [map input_log]. rewrite <- !app_assoc. reflexivity.
    + rewrite (query_ok l' _ t' HR') by (apply creation_log_ordered, map_nonempty; auto). rewrite T', <- HT. unfold creation_log.
      rewrite (map_app (map fst) g1 (g :: gs)) at 2. rewrite input_log_app by now rewrite map_length.
      cbn [map input_log]. rewrite EA, !map_app, Nat.add_0_l. rewrite <- !app_assoc. reflexivity.
Qed.

End ThmCreate.
