(** Correctness of line creation. *)

From Verif Require Export LemLine SpecTokens.

Lemma digit_eq c : is_ascii_digit c = decimal_digit c.
Proof.
  unfold is_ascii_digit, decimal_digit. cbn [existsb].
  repeat match goal with
  | |- context [(?a =? ?b)%N] => destruct (N.eqb_spec a b); [subst; reflexivity|]
  end.
  destruct (N.leb_spec 48 c), (N.leb_spec c 57); cbn [andb orb]; try reflexivity. lia.
Qed.

Section LemTokens.
Context {UC : Unicode}.

(** ** Splitting a digit-led segment *)

Definition piece_token (sz : str -> N) (p : str * TextTag) : LToken * N :=
  (LText (fst p) (snd p), sz (fst p)).

Definition starts_with_tag (tag : TextTag) (ps : list (str * TextTag)) : Prop :=
  match ps with p :: _ => snd p = tag | [] => False end.

Lemma maximal_cons p ps :
  (forall q ps', ps = q :: ps' -> snd p = snd q -> snd p = PUNC) -> maximal ps -> maximal (p :: ps).
Proof. destruct ps as [|q ps]; simpl; auto. intros H1 H2. split; eauto. Qed.

Definition pend (tag : TextTag) (s : str) : list (str * TextTag) :=
  match s with [] => [] | _ :: _ => [(s, tag)] end.

Lemma split_digit_word_spec sz cs : forall digits letters acc,
  (digits = [] \/ letters = []) ->
  Forall (fun c => decimal_digit c = true) digits ->
  Forall (fun c => decimal_digit c = false /\ u_alphabetic c = true) letters ->
  exists ps, split_digit_word sz cs digits letters acc = acc ++ map (piece_token sz) ps
    /\ Forall good_piece ps /\ maximal ps
    /\ concat (map fst ps) = digits ++ letters ++ cs
    /\ (digits <> [] -> starts_with_tag NATN ps)
    /\ (letters <> [] -> starts_with_tag WORD ps).
Proof.
  assert (FL : forall acc letters, flush_letters sz acc letters =
    acc ++ map (piece_token sz) (pend WORD letters)).
  { intros acc [|]; simpl; rewrite ?app_nil_r; reflexivity. }
  assert (FD : forall acc digits, flush_digits sz acc digits =
    acc ++ map (piece_token sz) (pend NATN digits)).
  { intros acc [|]; simpl; rewrite ?app_nil_r; reflexivity. }
  assert (GD : forall digits, Forall (fun c => decimal_digit c = true) digits ->
     Forall good_piece (pend NATN digits)).
  { intros [|d ds] H; constructor; auto. split; simpl; congruence. }
  assert (GL : forall letters, Forall (fun c => decimal_digit c = false /\ u_alphabetic c = true) letters ->
     Forall good_piece (pend WORD letters)).
  { intros [|d ds] H; constructor; auto. split; simpl; congruence. }
  induction cs as [|ch cs IH]; simpl; intros digits letters acc Hor HD HL.
  - rewrite FD, FL, <- app_assoc, <- map_app. eexists; split; [reflexivity|].
    split; [apply Forall_app; auto|].
    destruct Hor as [->| ->].
    + destruct letters as [|c cs']; simpl; rewrite ?app_nil_r; repeat split; try tauto; auto.
    + destruct digits as [|c cs']; simpl; rewrite ?app_nil_r; repeat split; try tauto; auto.
  - rewrite digit_eq. destruct (decimal_digit ch) eqn:Ed; [|destruct (u_alphabetic ch) eqn:Ea].
    + rewrite FL.
      destruct (IH (digits ++ [ch]) [] (acc ++ map (piece_token sz)
         (pend WORD letters))) as (ps & E & G & Mx & C & SD & SL); auto.
      { apply Forall_app; auto. }
      rewrite E, <- app_assoc, <- map_app. eexists; split; [reflexivity|].
      split; [apply Forall_app; auto|].
      assert (SD' : starts_with_tag NATN ps). { apply SD. destruct digits; discriminate. }
      destruct Hor as [->| ->].
      * destruct letters as [|c cs']; cbn [pend app map concat fst].
        -- simpl in C. repeat split; auto; try tauto.
        -- split; [|split; [|split]]; try tauto.
           ++ apply maximal_cons; auto. intros q ps' -> Hq. simpl in *. congruence.
           ++ simpl in C. rewrite C. simpl. reflexivity.
           ++ simpl; auto.
      * simpl. simpl in C. rewrite C. rewrite <- app_assoc. repeat split; auto; try tauto.
    + rewrite FD.
      destruct (IH [] (letters ++ [ch]) (acc ++ map (piece_token sz)
         (pend NATN digits))) as (ps & E & G & Mx & C & SD & SL); auto.
      { apply Forall_app; auto. }
      rewrite E, <- app_assoc, <- map_app. eexists; split; [reflexivity|].
      split; [apply Forall_app; auto|].
      assert (SL' : starts_with_tag WORD ps). { apply SL. destruct letters; discriminate. }
      destruct Hor as [->| ->].
      * simpl. simpl in C. rewrite C. rewrite <- app_assoc. repeat split; auto; try tauto.
      * destruct digits as [|c cs']; cbn [pend app map concat fst].
        -- simpl in C. repeat split; auto; try tauto.
        -- split; [|split; [|split]]; try tauto.
           ++ apply maximal_cons; auto. intros q ps' -> Hq. simpl in *. congruence.
           ++ simpl in C. rewrite C. simpl. reflexivity.
           ++ simpl; auto.
    + rewrite FD, FL.
      set (pd := (pend WORD letters)
                   ++ (pend NATN digits)).
      destruct (IH [] [] (((acc ++ map (piece_token sz) (pend WORD letters))
        ++ map (piece_token sz) (pend NATN digits))
        ++ [(LText [ch] PUNC, sz [ch])])) as (ps & E & G & Mx & C & _ & _); auto.
      rewrite E. exists (pd ++ ([ch], PUNC) :: ps). split.
      { rewrite map_app. simpl. unfold pd. rewrite map_app, <- !app_assoc. reflexivity. }
      assert (G' : Forall good_piece (([ch], PUNC) :: ps)).
      { constructor; auto. exists ch; auto. }
      assert (Mx' : maximal (([ch], PUNC) :: ps)). { apply maximal_cons; auto. }
      split; [|split; [|split]].
      * apply Forall_app; split; auto. apply Forall_app; auto.
      * unfold pd. destruct Hor as [->| ->].
        -- rewrite app_nil_r. destruct letters as [|c cs']; [exact Mx'|].
           simpl app. apply maximal_cons; auto. intros q ps' E1 Hq. inversion E1; subst. discriminate.
        -- destruct digits as [|c cs']; [exact Mx'|].
           simpl app. apply maximal_cons; auto. intros q ps' E1 Hq. inversion E1; subst. discriminate.
      * rewrite map_app, concat_app. simpl. simpl in C. rewrite C. unfold pd.
        destruct Hor as [->| ->].
        -- rewrite app_nil_r. destruct letters; simpl; rewrite ?app_nil_r; reflexivity.
        -- destruct digits; simpl; rewrite ?app_nil_r; reflexivity.
      * unfold pd. destruct Hor as [->| ->].
        -- split; [tauto|]. destruct letters; [tauto|]. intros _; reflexivity.
        -- split; [|tauto]. destruct digits; [tauto|]. intros _; reflexivity.
Qed.

(** Pieces are determined by the text. *)
Lemma class_run (P : char -> bool) (a b ra rb : str) :
  Forall (fun c => P c = true) a -> Forall (fun c => P c = true) b ->
  (forall c r, ra = c :: r -> P c = false) -> (forall c r, rb = c :: r -> P c = false) ->
  a ++ ra = b ++ rb -> a = b /\ ra = rb.
Proof.
  revert b. induction a as [|x a IH]; intros [|y b] Ha Hb Hra Hrb E; simpl in E.
  - auto.
  - inversion Hb; subst. specialize (Hra y (b ++ rb) eq_refl). congruence.
  - inversion Ha; subst. specialize (Hrb x (a ++ ra) eq_refl). congruence.
  - inversion E; subst. inversion Ha; inversion Hb; subst.
    destruct (IH b) as [-> ->]; auto.
Qed.

Definition tag_class (tag : TextTag) (c : char) : bool :=
  match tag with
  | NATN => decimal_digit c
  | WORD => negb (decimal_digit c) && u_alphabetic c
  | _ => negb (decimal_digit c) && negb (u_alphabetic c)
  end.

Lemma good_piece_class p : good_piece p ->
  fst p <> [] /\ Forall (fun c => tag_class (snd p) c = true) (fst p)
  /\ (snd p = PUNC -> length (fst p) = 1) /\ (snd p = NATN \/ snd p = WORD \/ snd p = PUNC).
Proof.
  destruct p as [s tag]; destruct tag; unfold good_piece; simpl.
  - intros [H1 H2]. repeat split; auto. discriminate.
  - intros (c & -> & H1 & H2). repeat split; auto; try discriminate.
    constructor; auto. now rewrite H1, H2.
  - easy.
  - easy.
  - intros [H1 H2]. repeat split; auto; try discriminate.
    eapply Forall_impl; [|exact H2]. simpl. intros c [-> ->]; reflexivity.
Qed.

Lemma tag_class_inj t1 t2 c :
  (t1 = NATN \/ t1 = WORD \/ t1 = PUNC) -> (t2 = NATN \/ t2 = WORD \/ t2 = PUNC) ->
  tag_class t1 c = true -> tag_class t2 c = true -> t1 = t2.
Proof.
  unfold tag_class. intros [->|[->| ->]] [->|[->| ->]]; auto;
    destruct (decimal_digit c), (u_alphabetic c); simpl; congruence.
Qed.

Lemma pieces_unique ps : forall qs,
  Forall good_piece ps -> maximal ps -> Forall good_piece qs -> maximal qs ->
  concat (map fst ps) = concat (map fst qs) -> ps = qs.
Proof.
  induction ps as [|p ps IH]; intros [|q qs] Gp Mp Gq Mq E.
  - reflexivity.
  - inversion Gq; subst. apply good_piece_class in H1. destruct H1 as (H & _).
    simpl in E. destruct (fst q); [easy|discriminate].
  - inversion Gp; subst. apply good_piece_class in H1. destruct H1 as (H & _).
    simpl in E. destruct (fst p); [easy|discriminate].
  - inversion Gp as [|? ? Gp1 Gp2]; inversion Gq as [|? ? Gq1 Gq2]; subst.
    pose proof (good_piece_class _ Gp1) as (Np & Cp & Lp & Tp).
    pose proof (good_piece_class _ Gq1) as (Nq & Cq & Lq & Tq).
    simpl in E.
    assert (Et : snd p = snd q).
    { destruct (fst p) as [|c s]; [easy|]. destruct (fst q) as [|c' s']; [easy|].
      simpl in E. inversion E; subst. inversion Cp; inversion Cq; subst.
      eapply tag_class_inj; eauto. }
    assert (HH : fst p = fst q /\ concat (map fst ps) = concat (map fst qs)).
    { destruct (TextTag_eqb (snd p) PUNC) eqn:EP.
      - assert (snd p = PUNC) as EP' by (destruct (snd p); auto; discriminate).
        rewrite <- Et in Lq. specialize (Lp EP'). specialize (Lq EP').
        destruct (fst p) as [|c [|]]; try discriminate. destruct (fst q) as [|c' [|]]; try discriminate.
        simpl in E. inversion E; auto.
      - assert (NP : snd p <> PUNC) by (intros F; rewrite F in EP; discriminate).
        assert (Hnext : forall x xs, Forall good_piece xs -> maximal (x :: xs) ->
                  snd x = snd p -> (forall c r, concat (map fst xs) = c :: r -> tag_class (snd p) c = false)).
        { intros x [|y ys] Gy Mx Ex c r Ec; [discriminate|]. inversion Gy as [|? ? Gy1 _]; subst.
          pose proof (good_piece_class _ Gy1) as (Ny & Cy & _ & Ty). simpl in Ec.
          destruct (fst y) as [|c0 s0]; [easy|]. simpl in Ec. inversion Ec; subst c0.
          inversion Cy; subst. destruct (tag_class (snd p) c) eqn:EC; auto.
          assert (snd p = snd y) by (eapply tag_class_inj; eauto).
          exfalso. destruct Mx as [Mx _]. apply NP. rewrite <- Ex. apply Mx. congruence. }
        apply (class_run (tag_class (snd p))); auto.
        + now rewrite Et.
        + apply (Hnext p ps); auto.
        + apply (Hnext q qs); auto. }
    destruct HH as [H1 H2]. f_equal.
    + destruct p, q; simpl in *; congruence.
    + apply IH; auto; [destruct ps; [exact I|apply Mp] | destruct qs; [exact I|apply Mq]].
Qed.

(** ** Tokens of one string *)

Section Sz.
Context (sz : str -> N).

(** What the tokens of one segment are. *)
Definition segment_pieces (w : str) (ps : list (str * TextTag)) : Prop :=
  match w with
  | [] => False
  | c :: _ =>
      if decimal_digit c
      then str_is_ascii w = true /\ Forall good_piece ps /\ maximal ps /\ concat (map fst ps) = w
      else ps = [(w, get_unicode_word_tag w)]
  end.

Lemma tokens_of_segment_ok acc w :
  w <> [] -> (match w with c :: _ => decimal_digit c = true -> str_is_ascii w = true | [] => True end) ->
  exists ps, segment_pieces w ps /\ tokens_of_segment sz acc w = Ok (acc ++ map (piece_token sz) ps).
Proof.
  destruct w as [|c w]; [easy|]. intros _ Ha. unfold segment_pieces, tokens_of_segment. rewrite digit_eq.
  destruct (decimal_digit c) eqn:E.
  - rewrite (Ha eq_refl).
    destruct (split_digit_word_spec sz (c :: w) [] [] acc) as (ps & -> & G & Mx & C & _ & _); auto.
    exists ps. auto.
  - eexists; split; reflexivity.
Qed.

Lemma tokens_of_segment_inv acc w r :
  tokens_of_segment sz acc w = Ok r ->
  w <> [] /\ (match w with c :: _ => decimal_digit c = true -> str_is_ascii w = true | [] => True end).
Proof.
  destruct w as [|c w]; [discriminate|]. unfold tokens_of_segment. intros H. split; [discriminate|].
  intros Hd. rewrite digit_eq, Hd in H. destruct (str_is_ascii (c :: w)); auto. discriminate.
Qed.

Lemma str_is_ascii_false w : str_is_ascii w = false <-> exists c, In c w /\ (128 <= c)%N.
Proof.
  unfold str_is_ascii. induction w as [|c w IH]; simpl.
  - split; [discriminate | intros (? & [] & _)].
  - rewrite andb_false_iff, IH, N.ltb_ge. split.
    + intros [H|(x & ? & ?)]; eauto.
    + intros (x & [->|H] & Hx); eauto.
Qed.

Lemma not_rejected w :
  ~ rejected_segment w <->
  match w with c :: _ => decimal_digit c = true -> str_is_ascii w = true | [] => True end.
Proof.
  destruct w as [|c w].
  - split; auto. intros _ (c & w' & E & _). discriminate.
  - split.
    + intros H Hd. destruct (str_is_ascii (c :: w)) eqn:E; auto. exfalso. apply H.
      apply str_is_ascii_false in E. exists c, w. auto.
    + intros H (c0 & w' & E & Hd & Hex). inversion E; subst.
      specialize (H Hd). apply str_is_ascii_false in Hex. congruence.
Qed.

Lemma create_tokens_fold_ok ws : forall acc,
  Forall (fun w => w <> [] /\ ~ rejected_segment w) ws ->
  exists pss, Forall2 segment_pieces ws pss /\
    foldM (tokens_of_segment sz) ws acc = Ok (acc ++ map (piece_token sz) (concat pss)).
Proof.
  induction ws as [|w ws IH]; simpl; intros acc H.
  - exists []. rewrite app_nil_r. auto.
  - inversion H as [|? ? [H1 H2] H3]; subst.
    apply not_rejected in H2.
    destruct (tokens_of_segment_ok acc w H1 H2) as (ps & Hps & ->). simpl.
    destruct (IH (acc ++ map (piece_token sz) ps) H3) as (pss & Hpss & ->).
    exists (ps :: pss). split; auto. simpl. now rewrite map_app, app_assoc.
Qed.

Lemma create_tokens_fold_inv ws : forall acc r,
  foldM (tokens_of_segment sz) ws acc = Ok r -> Forall (fun w => w <> [] /\ ~ rejected_segment w) ws.
Proof.
  induction ws as [|w ws IH]; simpl; intros acc r H; [constructor|].
  inv_bind H. constructor; [|eauto].
  apply tokens_of_segment_inv in E. rewrite not_rejected. exact E.
Qed.

Lemma create_tokens_inv s g :
  create_tokens_for_string sz s = Ok g ->
  exists pss, Forall2 segment_pieces (u_words s) pss /\ g = map (piece_token sz) (concat pss).
Proof.
  unfold create_tokens_for_string. intros H.
  destruct (create_tokens_fold_ok (u_words s) [] (create_tokens_fold_inv _ _ _ H)) as (pss & Hp & E).
  exists pss. split; auto. rewrite E in H. now inversion H.
Qed.

Lemma segment_pieces_concat w ps : segment_pieces w ps ->
  concat (map fst ps) = w /\ Forall (fun p => fst p <> []) ps /\ ps <> [].
Proof.
  destruct w as [|c w]; [easy|]. unfold segment_pieces. destruct (decimal_digit c).
  - intros (_ & G & _ & C). repeat split; auto.
    + eapply Forall_impl; [|exact G]. intros p Hp. now apply good_piece_class in Hp.
    + intros ->. discriminate.
  - intros ->. simpl. rewrite app_nil_r. repeat split; auto; try discriminate.
    constructor; auto. discriminate.
Qed.

Lemma segments_concat ws pss : Forall2 segment_pieces ws pss ->
  concat (map fst (concat pss)) = concat ws /\ Forall (fun p => fst p <> []) (concat pss)
  /\ (ws <> [] -> concat pss <> []).
Proof.
  induction 1 as [|w ps ws pss H1 H2 (IH1 & IH2 & IH3)]; simpl; [auto|].
  apply segment_pieces_concat in H1. destruct H1 as (H1 & H3 & H4). repeat split.
  - now rewrite map_app, concat_app, H1, IH1.
  - apply Forall_app; auto.
  - intros _. destruct ps; [easy|discriminate].
Qed.

Lemma words_nil (SL : SegmenterLaws) s : u_words s = [] <-> s = [].
Proof.
  split; intros H.
  - rewrite <- (seg_concat SL s). now rewrite H.
  - subst. destruct (u_words []) as [|w ws] eqn:E; auto. exfalso.
    pose proof (seg_concat SL []) as C. rewrite E in C. simpl in C.
    assert (w <> []) by (apply (seg_nonempty SL []); rewrite E; now left).
    destruct w; [easy|discriminate].
Qed.

Lemma create_tokens_cut (SL : SegmenterLaws) s g :
  create_tokens_for_string sz s = Ok g -> g <> [] ->
  map fst g <> [] /\ Forall (fun t => exists s tag, t = LText s tag /\ s <> []) (map fst g)
  /\ concat (map ltext (map fst g)) = s
  /\ Forall (fun p => snd p = sz (ltext (fst p))) g.
Proof.
  intros H Hne. apply create_tokens_inv in H. destruct H as (pss & Hp & ->).
  apply segments_concat in Hp. destruct Hp as (C & Ne & _).
  repeat split.
  - intros F. apply map_eq_nil in F. auto.
  - rewrite map_map. apply Forall_map. eapply Forall_impl; [|exact Ne].
    intros p Hpn. simpl. eauto.
  - rewrite !map_map. etransitivity; [exact C|]. apply (seg_concat SL).
  - apply Forall_map. apply Forall_forall. intros p _. reflexivity.
Qed.

End Sz.

Context {U : UserTypes}.

(** ** Positions *)

Lemma layout_by_app add i p xs ys :
  layout_by add i p (xs ++ ys) =
  layout_by add i p xs ++ layout_by add (i + length xs) (fold_left add (map snd xs) p) ys.
Proof.
  revert i p; induction xs as [|[t n] xs IH]; simpl; intros i p.
  - now rewrite Nat.add_0_r.
  - now rewrite IH, Nat.add_succ_r.
Qed.

Lemma layout_by_length add i p xs : length (layout_by add i p xs) = length xs.
Proof. revert i p; induction xs as [|[t n] xs IH]; simpl; auto. Qed.

Lemma layout_by_tokens add i p xs : map token (layout_by add i p xs) = map fst xs.
Proof. revert i p; induction xs as [|[t n] xs IH]; simpl; intros; auto. now rewrite IH. Qed.

(** The addition performed on this target; meaningful when it does not panic. *)
Definition wadd (tg : Target) (a b : N) : N :=
  if (a + b <? usize_mod tg)%N then (a + b)%N else ((a + b) mod usize_mod tg)%N.

Lemma add_usize_ok tg a b :
  (overflow_checks tg = false \/ (a + b < usize_mod tg)%N) -> add_usize tg a b = Ok (wadd tg a b).
Proof.
  unfold add_usize, wadd. intros [H|H].
  - rewrite H. destruct (a + b <? usize_mod tg)%N; reflexivity.
  - apply N.ltb_lt in H. now rewrite H.
Qed.

Lemma total_app xs ys : total (xs ++ ys) = (total xs + total ys)%N.
Proof. induction xs as [|[t n] xs IH]; simpl; auto. rewrite IH. lia. Qed.

(** Whether adding the sizes of [xs] to [p] goes through. *)
Definition fits (tg : Target) (p : N) (xs : list (LToken * N)) : Prop :=
  overflow_checks tg = false \/ xs = [] \/ (p + total xs < usize_mod tg)%N.

Lemma push_fold tg xs : forall toks p,
  fits tg p xs ->
  foldM (push_lltoken tg) xs (toks, p) =
  Ok (toks ++ layout_by (wadd tg) (length toks) p xs, fold_left (wadd tg) (map snd xs) p).
Proof.
  induction xs as [|[t n] xs IH]; intros toks p H.
  - simpl. now rewrite app_nil_r.
  - simpl. rewrite add_usize_ok.
    2:{ destruct H as [H|[H|H]]; auto; [discriminate|]. right. simpl in H. lia. }
    simpl. rewrite IH.
    + rewrite app_length, <- app_assoc. simpl. rewrite Nat.add_1_r. reflexivity.
    + destruct H as [H|[H|H]]; [left; auto|discriminate|]. right; right. simpl in H.
      unfold wadd. rewrite (proj2 (N.ltb_lt (p + n) (usize_mod tg))) by lia. lia.
Qed.

Lemma push_fold_panic tg xs : forall toks p,
  (p < usize_mod tg)%N -> ~ fits tg p xs ->
  foldM (push_lltoken tg) xs (toks, p) = Panic POverflow.
Proof.
  induction xs as [|[t n] xs IH]; intros toks p Hp H.
  - exfalso. apply H. right; left; reflexivity.
  - simpl. unfold add_usize at 1.
    destruct (p + n <? usize_mod tg)%N eqn:E.
    + simpl. apply IH. { now apply N.ltb_lt. }
      intros [F|[F|F]]; apply H.
      * left; auto.
      * subst. right; right. simpl. apply N.ltb_lt in E. lia.
      * right; right. simpl. lia.
    + destruct (overflow_checks tg) eqn:C; [reflexivity|]. exfalso. apply H. left; auto.
Qed.

Lemma wadd_fold_exact tg xs : forall i p, (p + total xs < usize_mod tg)%N ->
  layout_by (wadd tg) i p xs = layout_by N.add i p xs /\
  fold_left (wadd tg) (map snd xs) p = (p + total xs)%N.
Proof.
  induction xs as [|[t n] xs IH]; simpl; intros i p H.
  - split; [reflexivity|lia].
  - assert (wadd tg p n = (p + n)%N) as E.
    { unfold wadd. now rewrite (proj2 (N.ltb_lt (p + n) (usize_mod tg))) by lia. }
    rewrite E. destruct (IH (S i) (p + n)%N) as [E1 E2]; [lia|].
    rewrite E1, E2. split; [reflexivity|lia].
Qed.

Lemma wadd_mod tg a b : (usize_mod tg <> 0)%N -> wadd tg a b = ((a + b) mod usize_mod tg)%N.
Proof.
  intros H. unfold wadd. destruct (a + b <? usize_mod tg)%N eqn:E; auto.
  apply N.ltb_lt in E. now rewrite N.mod_small.
Qed.

Lemma layout_by_ext f g xs : (forall a b, f a b = g a b) -> forall i p,
  layout_by f i p xs = layout_by g i p xs.
Proof.
  intros H. induction xs as [|[t n] xs IH]; simpl; intros i p; auto.
  rewrite H, IH. reflexivity.
Qed.

(** ** The creation loop *)

(** The group ranges with the attributes of the input. *)
Fixpoint spans (i : nat) (groups : list (list (LToken * N))) (input : list InputToken)
  : list (nat * nat * list AnyAttribute) :=
  match groups, input with
  | g :: groups', it :: input' =>
      (i, i + length g - 1, input_attrs it) :: spans (i + length g) groups' input'
  | _, _ => []
  end.

Lemma create_fold_ok tg sz : forall input groups st,
  Forall2 (fun it g => input_ltokens sz it = Ok g) input groups ->
  Forall (fun g => g <> []) groups ->
  fits tg (cs_size st) (concat groups) ->
  foldM (create_step tg sz) input st =
  Ok (mkCS (cs_attrs st ++ spans (length (cs_tokens st)) groups input)
           (cs_tokens st ++ layout_by (wadd tg) (length (cs_tokens st)) (cs_size st) (concat groups))
           (fold_left (wadd tg) (map snd (concat groups)) (cs_size st))).
Proof.
  induction input as [|it input IH]; intros groups st H HN HF.
  - inversion H; subst. simpl. rewrite !app_nil_r. now destruct st.
  - inversion H as [|? g ? groups' Hg Hrest]; subst. inversion HN as [|? ? Hg0 HN']; subst.
    simpl. unfold create_step at 1. rewrite Hg. simpl.
    destruct g as [|x g]; [easy|].
    assert (F1 : fits tg (cs_size st) (x :: g)).
    { destruct HF as [F|[F|F]]; [left; auto|discriminate|]. right; right.
      simpl concat in F. change (x :: g ++ concat groups') with ((x :: g) ++ concat groups') in F.
      rewrite total_app in F. lia. }
    rewrite (push_fold tg (x :: g)) by exact F1. cbn [bind].
    set (toks' := cs_tokens st ++ layout_by (wadd tg) (length (cs_tokens st)) (cs_size st) (x :: g)).
    assert (L : length toks' = length (cs_tokens st) + length (x :: g)).
    { unfold toks'. now rewrite app_length, layout_by_length. }
    unfold sub_usize, checked_sub. rewrite L.
    rewrite (proj2 (Nat.leb_le 1 (length (cs_tokens st) + length (x :: g)))) by (simpl; lia).
    cbn [expect bind]. rewrite (IH groups').
    + cbn [cs_attrs cs_tokens cs_size]. f_equal. f_equal.
      * rewrite <- app_assoc. simpl app. rewrite L. reflexivity.
      * rewrite L. unfold toks'. rewrite <- app_assoc. f_equal.
        simpl concat. rewrite layout_by_app. reflexivity.
      * simpl concat. rewrite map_app, fold_left_app. reflexivity.
    + auto.
    + auto.
    + cbn [cs_size]. destruct HF as [F|[F|F]]; [left; auto|discriminate|]. right; right.
      simpl concat in F. change (x :: g ++ concat groups') with ((x :: g) ++ concat groups') in F.
      rewrite total_app in F.
      destruct (wadd_fold_exact tg (x :: g) 0 (cs_size st)) as [_ E]; [lia|]. rewrite E. lia.
Qed.

Lemma wadd_fold_lt tg xs : forall p,
  (p < usize_mod tg)%N -> (fold_left (wadd tg) xs p < usize_mod tg)%N.
Proof.
  induction xs as [|n xs IH]; simpl; intros p Hp; auto. apply IH.
  rewrite wadd_mod by lia. apply N.mod_lt. lia.
Qed.

Lemma create_fold_inv tg sz : forall input st st',
  (cs_size st < usize_mod tg)%N ->
  foldM (create_step tg sz) input st = Ok st' ->
  exists groups, Forall2 (fun it g => input_ltokens sz it = Ok g) input groups
    /\ Forall (fun g => g <> []) groups /\ fits tg (cs_size st) (concat groups).
Proof.
  induction input as [|it input IH]; intros st st' Hs H.
  - exists []. repeat split; auto. right; left; reflexivity.
  - simpl in H. inv_bind H. rename a into st1.
    unfold create_step in E. inv_bind E. rename a into g.
    destruct g as [|x g]; [discriminate|]. inv_bind E. destruct a as [toks size].
    assert (HF : fits tg (cs_size st) (x :: g)).
    { destruct (N.ltb_spec (cs_size st + total (x :: g)) (usize_mod tg)) as [|Hge].
      - right; right; auto.
      - destruct (overflow_checks tg) eqn:C; [|left; auto].
        rewrite push_fold_panic in E1; auto; [discriminate|].
        intros [F|[F|F]]; [congruence|discriminate|lia]. }
    rewrite push_fold in E1 by exact HF. apply Ok_inj in E1. inversion E1; subst toks size. clear E1.
    inv_bind E. apply Ok_inj in E. subst st1.
    apply IH in H; [|cbn [cs_size]; apply (wadd_fold_lt tg (map snd (x :: g))); exact Hs].
    destruct H as (groups & G1 & G2 & G3).
    exists ((x :: g) :: groups). split; [constructor; auto|]. split; [constructor; auto; discriminate|].
    change (fits tg (fold_left (wadd tg) (map snd (x :: g)) (cs_size st)) (concat groups)) in G3. destruct (overflow_checks tg) eqn:C; [|left; auto].
    right; right. simpl concat.
    change (x :: g ++ concat groups) with ((x :: g) ++ concat groups). rewrite total_app.
    destruct HF as [F|[F|F]]; [congruence|discriminate|].
    destruct (wadd_fold_exact tg (x :: g) 0 (cs_size st)) as [_ EW]; [lia|].
    rewrite EW in G3. destruct G3 as [G3|[G3|G3]]; [congruence| |lia].
    rewrite G3. simpl total at 2. lia.
Qed.

(** ** LLLine::new *)

Lemma new_fold_ok toks all : forall i a lg,
  Repr (mkLine all a) lg -> i + length toks <= length all ->
  exists a', foldM new_token_attrs (enumerate_from i toks) a = Ok a' /\
             Repr (mkLine all a') (lg ++ tokens_log i (map token toks)).
Proof.
  induction toks as [|tok toks IH]; simpl; intros i a lg HR Hi.
  - exists a. rewrite app_nil_r. auto.
  - destruct (token tok) as [s tag|] eqn:Et.
    + destruct s as [|c [|c2 s]].
      * cbn [bind].
        destruct (attrs_insert_ok (mkLine all a) lg (i, i) TTextTag tag HR) as (a1 & E1 & HR1);
          simpl; try lia. simpl in E1. rewrite E1. cbn [bind].
        destruct (IH (S i) a1 _ HR1) as (a' & E' & HR'); [lia|]. exists a'. split; auto.
        rewrite <- app_assoc in HR'. exact HR'.
      * destruct (attrs_insert_ok (mkLine all a) lg (i, i) TChar c HR) as (a1 & E1 & HR1);
          simpl; try lia. simpl in E1. rewrite E1. cbn [bind].
        destruct (attrs_insert_ok (mkLine all a1) _ (i, i) TTextTag tag HR1) as (a2 & E2 & HR2);
          simpl; try lia. simpl in E2. rewrite E2. cbn [bind].
        destruct (IH (S i) a2 _ HR2) as (a' & E' & HR'); [lia|]. exists a'. split; auto.
        rewrite <- !app_assoc in HR'. exact HR'.
      * cbn [bind].
        destruct (attrs_insert_ok (mkLine all a) lg (i, i) TTextTag tag HR) as (a1 & E1 & HR1);
          simpl; try lia. simpl in E1. rewrite E1. cbn [bind].
        destruct (IH (S i) a1 _ HR1) as (a' & E' & HR'); [lia|]. exists a'. split; auto.
        rewrite <- app_assoc in HR'. exact HR'.
    + cbn [bind]. destruct (IH (S i) a _ HR) as (a' & E' & HR'); [lia|]. exists a'. split; auto.
Qed.

Lemma nth_error_map_const {A B} (l : list A) (b : B) i m :
  nth_error (map (fun _ => b) l) i = Some m -> m = b.
Proof. rewrite nth_error_map. destruct (nth_error l i); simpl; congruence. Qed.

Lemma line_new_ok toks :
  exists l, line_new toks = Ok l /\ ll_tokens l = toks /\ Repr l (tokens_log 0 (map token toks)).
Proof.
  unfold line_new.
  assert (HR0 : Repr (mkLine toks (mkAttrs []
     (map (fun _ => ([] : TypeIdToMany)) (seq 0 (length toks)))
     (map (fun _ => ([] : TypeIdToMany)) (seq 0 (length toks))) [])) []).
  { constructor; simpl; auto.
    - now rewrite map_length, seq_length.
    - now rewrite map_length, seq_length.
    - constructor.
    - intros i m t H. apply nth_error_map_const in H. subst. reflexivity.
    - intros i m t H. apply nth_error_map_const in H. subst. reflexivity. }
  destruct (new_fold_ok toks toks 0 _ _ HR0) as (a' & E & HR); [simpl; lia|].
  rewrite E. simpl. eexists; split; [reflexivity|]. split; auto.
Qed.

(** ** Attributes of the input *)

Lemma add_any_attrs_ok ats : forall l lg s e,
  Repr l lg -> s < length (ll_tokens l) -> e < length (ll_tokens l) -> Forall wf_attribute ats ->
  exists l', add_any_attrs l s e ats = Ok l' /\ ll_tokens l' = ll_tokens l /\
             Repr l' (lg ++ map (fun a => ((s, e), aa_value a)) ats).
Proof.
  unfold add_any_attrs. induction ats as [|x ats IH]; simpl; intros l lg s e HR Hs He HW.
  - exists l. destruct l; simpl. rewrite app_nil_r. auto.
  - inversion HW as [|? ? (t & v & ->) HW']; subst.
    destruct (attrs_insert_any_ok l lg (s, e) t v HR Hs He) as (a' & E & HR').
    rewrite E; simpl.
    destruct (IH (mkLine (ll_tokens l) a') _ s e HR') as (l' & E' & Ht & HR''); auto.
    simpl in E'. exists l'. split; auto. split; auto.
    rewrite <- app_assoc in HR''. exact HR''.
Qed.

Lemma spans_fold_ok : forall groups input i l lg,
  Repr l lg -> Forall (fun g => g <> []) groups -> Forall wf_input input ->
  i + length (concat groups) <= length (ll_tokens l) ->
  exists l', foldM (fun l x => let '(s, e, ats) := x in add_any_attrs l s e ats)
               (spans i groups input) l = Ok l'
    /\ ll_tokens l' = ll_tokens l
    /\ Repr l' (lg ++ input_log i (map (map fst) groups) input).
Proof.
  induction groups as [|g groups IH]; simpl; intros input i l lg HR HN HW Hi.
  - exists l. rewrite app_nil_r. auto.
  - destruct input as [|it input]; simpl.
    + exists l. rewrite app_nil_r. auto.
    + inversion HN; subst. inversion HW; subst. rewrite app_length in Hi.
      assert (1 <= length g) by (destruct g; [easy|simpl; lia]).
      destruct (add_any_attrs_ok (input_attrs it) l lg i (i + length g - 1) HR)
        as (l1 & E1 & T1 & HR1); auto; try lia.
      rewrite E1. simpl.
      destruct (IH input (i + length g) l1 _ HR1) as (l' & E' & T' & HR'); auto.
      { rewrite T1. lia. }
      exists l'. split; auto. split; [congruence|].
      rewrite map_length. rewrite <- app_assoc in HR'. exact HR'.
Qed.

(** ** create_line_from_input_tokens *)

Lemma create_ok tg sz input groups :
  Forall wf_input input ->
  Forall2 (fun it g => input_ltokens sz it = Ok g) input groups ->
  Forall (fun g => g <> []) groups ->
  fits tg 0 (concat groups) ->
  exists l, create_line_from_input_tokens tg input sz = Ok l
    /\ ll_tokens l = layout_by (wadd tg) 0 0%N (concat groups)
    /\ Repr l (creation_log (map (map fst) groups) input).
Proof.
  intros HW HG HN HF. unfold create_line_from_input_tokens.
  rewrite (create_fold_ok tg sz input groups (mkCS [] [] 0%N)) by assumption.
  cbn [bind cs_tokens cs_attrs cs_size app length].
  destruct (line_new_ok (layout_by (wadd tg) 0 0%N (concat groups))) as (l & E & T & HR).
  rewrite E. cbn [bind].
  destruct (spans_fold_ok groups input 0 l _ HR HN HW) as (l' & E' & T' & HR').
  { rewrite T, layout_by_length. apply le_n. }
  exists l'. split; [exact E'|]. split; [congruence|].
  unfold creation_log. rewrite <- concat_map.
  rewrite layout_by_tokens in HR'. exact HR'.
Qed.

Lemma usize_mod_pos tg : (0 < usize_mod tg)%N.
Proof. unfold usize_mod. assert (2 ^ usize_bits tg <> 0)%N by (apply N.pow_nonzero; discriminate). lia. Qed.

Lemma create_inv tg sz input l :
  create_line_from_input_tokens tg input sz = Ok l ->
  exists groups, Forall2 (fun it g => input_ltokens sz it = Ok g) input groups
    /\ Forall (fun g => g <> []) groups /\ fits tg 0 (concat groups).
Proof.
  intros H. unfold create_line_from_input_tokens in H. inv_bind H.
  apply create_fold_inv in E; auto. apply usize_mod_pos.
Qed.

Lemma Forall2_fun {A B} (R : A -> B -> Prop) l : (forall a b c, R a b -> R a c -> b = c) ->
  forall x y, Forall2 R l x -> Forall2 R l y -> x = y.
Proof.
  intros HR. induction l as [|a l IH]; intros x y H1 H2; inversion H1; inversion H2; subst; auto.
  f_equal; eauto.
Qed.

Lemma groups_fun sz input g1 g2 :
  Forall2 (fun it g => input_ltokens sz it = Ok g) input g1 ->
  Forall2 (fun it g => input_ltokens sz it = Ok g) input g2 -> g1 = g2.
Proof. apply Forall2_fun. intros. congruence. Qed.

End LemTokens.
