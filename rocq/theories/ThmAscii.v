(** Proofs about ASCII text (C89). *)

From Verif Require Export SpecAscii ThmWritten.

Section Colon.
Context (colon : bool).
Local Notation mid_letter := (mid_letter colon).
Local Notation unbroken := (unbroken colon).
Local Notation may_cut := (may_cut colon).
Local Notation WB3 := (WB3 colon). Local Notation WB3d := (WB3d colon).

(** ** Between two characters *)

Local Open Scope N_scope.
Definition alnum (c : char) : Prop := ascii_letter c \/ ascii_digit c.
Definition ub (p : str) (c d : char) (q : str) : Prop :=
  (c = 13 /\ d = 10) \/ (c = 32 /\ d = 32) \/ (alnum c /\ alnum d)
  \/ (ascii_letter c /\ mid_letter d /\ starts_in q ascii_letter)
  \/ (mid_letter c /\ ascii_letter d /\ ends_in p ascii_letter)
  \/ (mid_number c /\ ascii_digit d /\ ends_in p ascii_digit)
  \/ (ascii_digit c /\ mid_number d /\ starts_in q ascii_digit)
  \/ ((alnum c \/ c = 95) /\ d = 95) \/ (c = 95 /\ alnum d).

Lemma unbroken_ub p c d q : unbroken (p ++ [c]) (d :: q) <-> ub p c d q.
Proof.
  split.
  - intros H. remember (p ++ [c]) as pc eqn:Ep. remember (d :: q) as dq eqn:Eq. unfold ub, alnum.
    destruct H; try (replace (b ++ [x; m]) with ((b ++ [x]) ++ [m]) in Ep by now rewrite <- app_assoc); try (apply app_inj_tail in Ep; destruct Ep as [<- <-]); injection Eq as <- <-; try tauto.
    all: try (do 3 right; left; split; [assumption|split; [assumption|exists y, a; now auto]]).
    all: try (do 4 right; left; split; [assumption|split; [assumption|exists b, x; now auto]]).
    all: try (do 5 right; left; split; [assumption|split; [assumption|exists b, x; now auto]]).
    all: try (do 6 right; left; split; [assumption|split; [assumption|exists y, a; now auto]]).
  - intros [[-> ->]|[[-> ->]|[[[Hc|Hc] [Hd|Hd]]|[(Hc & Hd & y & a & -> & Hy)|[(Hc & Hd & b & x & -> & Hx)|[(Hc & Hd & b & x & -> & Hx)|[(Hc & Hd & y & a & -> & Hy)|[(Hc & ->)|[-> Hd]]]]]]]]].
    + apply WB3.
    + apply WB3d.
    + now apply WB5.
    + now apply WB9.
    + now apply WB10.
    + now apply WB8.
    + now apply WB6.
    + rewrite <- app_assoc. now apply WB7.
    + rewrite <- app_assoc. now apply WB11.
    + now apply WB12.
    + apply WB13a. unfold alnum in Hc. tauto.
    + now apply WB13b.
Qed.

Lemma unbroken_nil_l q : ~ unbroken [] q.
Proof. intros H. inversion H as [b ? E|b ? E|b ? ? ? ? ? E|b ? ? ? ? ? ? ? E|b ? ? ? ? ? ? ? E|b ? ? ? ? ? E|b ? ? ? ? ? E|b ? ? ? ? ? E|b ? ? ? ? ? ? ? E|b ? ? ? ? ? ? ? E|b ? ? ? E|b ? ? ? E]; now destruct b. Qed.

Lemma unbroken_ends p q : unbroken p q -> p <> [] /\ q <> [].
Proof.
  intros H. split; [intros ->; now apply unbroken_nil_l in H|]. intros ->. inversion H.
Qed.

Lemma may_cut_iff p q : may_cut p q <-> ~ unbroken p q.
Proof.
  unfold may_cut. split.
  - intros [->|[->|H]]; [apply unbroken_nil_l|intros C; now apply unbroken_ends in C|exact H].
  - auto.
Qed.

(** facts about characters *)
Ltac chars := unfold alnum, ascii_letter, ascii_digit, mid_letter, mid_number, documented_punctuation, is in *; simpl in *; lia.

Local Close Scope N_scope.

Section Ascii.
Local Notation AsciiLaws := (AsciiLaws colon).
Local Notation dotted := (dotted colon).
Local Notation letters_piece := (letters_piece colon).
Local Notation lexeme := (lexeme colon).
Context {UC : Unicode} {U : UserTypes}.

(** ** Segments *)

Lemma concat_cut (ws : list str) : forall p q, concat ws = p ++ q ->
  (exists ws1 ws2, ws = ws1 ++ ws2 /\ concat ws1 = p /\ concat ws2 = q)
  \/ (exists ws1 w1 w2 ws2, ws = ws1 ++ (w1 ++ w2) :: ws2 /\ w1 <> [] /\ w2 <> [] /\ p = concat ws1 ++ w1 /\ q = w2 ++ concat ws2).
Proof.
  induction ws as [|w ws IH]; intros p q E; simpl in E.
  - symmetry in E. apply app_eq_nil in E. destruct E; subst. left. exists [], []. auto.
  - destruct (app_eq_app _ _ _ _ E) as (z & [(-> & Ez)|(-> & Ez)]).
    + destruct z as [|z0 z].
      * rewrite app_nil_r in *. left. exists [p], ws. simpl. rewrite app_nil_r. auto.
      * destruct p as [|p0 p].
        -- left. exists [], (((z0 :: z)) :: ws). simpl in *. auto.
        -- right. exists [], (p0 :: p), (z0 :: z), ws. repeat split; [discriminate|discriminate|auto].
    + destruct (IH _ _ Ez) as [(ws1 & ws2 & -> & E1 & E2)|(ws1 & w1 & w2 & ws2 & -> & N1 & N2 & -> & ->)].
      * left. exists (w :: ws1), ws2. simpl. now rewrite E1.
      * right. exists (w :: ws1), w1, w2, ws2. simpl. rewrite app_assoc. auto.
Qed.

Definition segment_at (s b t a : str) : Prop := exists ws1 ws2, u_words s = ws1 ++ t :: ws2 /\ concat ws1 = b /\ concat ws2 = a.

Lemma segment_iff (SL : SegmenterLaws) (AL : AsciiLaws) s b t a : ascii s ->
  (segment_at s b t a <->
   b ++ t ++ a = s /\ t <> [] /\ ~ unbroken b (t ++ a) /\ ~ unbroken (b ++ t) a
   /\ forall x y, x <> [] -> y <> [] -> t = x ++ y -> unbroken (b ++ x) (y ++ a)).
Proof.
  intros HA. split.
  - intros (ws1 & ws2 & E & <- & <-).
    assert (ES : concat ws1 ++ t ++ concat ws2 = s) by (rewrite <- (seg_concat SL s), E, concat_app; reflexivity).
    split; [exact ES|]. split; [apply (seg_nonempty SL s); rewrite E; apply in_or_app; right; now left|].
    split; [apply may_cut_iff; apply (cut_where_allowed colon AL s ws1 (t :: ws2) HA E)|].
    split.
    { apply may_cut_iff. pose proof (cut_where_allowed colon AL s (ws1 ++ [t]) ws2 HA) as H. rewrite concat_app in H. simpl in H.
      rewrite app_nil_r in H. apply H. now rewrite <- app_assoc. }
    intros x y Hx Hy ->. eapply (cut_wherever_allowed colon AL); eauto.
  - intros (ES & HT & H1 & H2 & H3). set (ws := u_words s) in *.
    assert (EW : concat ws = s) by apply (seg_concat SL).
    assert (EB : concat ws = b ++ (t ++ a)) by now rewrite EW.
    destruct (concat_cut ws _ _ EB) as [(ws1 & ws2 & E1 & <- & E2)|(ws1 & w1 & w2 & ws2 & E & N1 & N2 & -> & E2)].
    2:{ exfalso. apply H1. rewrite E2. eapply (cut_wherever_allowed colon AL); eauto. }
    destruct (concat_cut ws2 _ _ E2) as [(u1 & u2 & -> & E3 & E4)|(u1 & w1 & w2 & u2 & -> & N1 & N2 & -> & ->)].
    2:{ exfalso. apply H2. rewrite app_assoc, <- concat_app. eapply (cut_wherever_allowed colon AL); eauto.
        rewrite <- app_assoc. exact E1. }
    destruct u1 as [|w [|w' u1]].
    + simpl in E3. now subst t.
    + simpl in E3. rewrite app_nil_r in E3. subst w. exists ws1, u2. auto.
    + exfalso. assert (Nw : forall x, In x ws -> x <> []) by apply (seg_nonempty SL).
      pose proof (cut_where_allowed colon AL s (ws1 ++ [w]) ((w' :: u1) ++ u2) HA) as C.
      rewrite <- app_assoc in C. specialize (C E1). apply may_cut_iff in C. apply C.
      replace (concat (ws1 ++ [w])) with (concat ws1 ++ w) by (rewrite concat_app; simpl; now rewrite app_nil_r).
      replace (concat ((w' :: u1) ++ u2)) with ((w' ++ concat u1) ++ a) by (rewrite concat_app, E4; reflexivity).
      apply H3.
      * apply Nw. rewrite E1. apply in_or_app. right. now left.
      * intros C0. apply app_eq_nil in C0. destruct C0 as [C0 _]. revert C0. apply Nw. rewrite E1. apply in_or_app. right. right. now left.
      * rewrite <- E3. reflexivity.
Qed.

Lemma ascii_app a b : ascii (a ++ b) <-> ascii a /\ ascii b.
Proof. apply Forall_app. Qed.

(** ** Tokens *)

Lemma pieces_concat w ps : segment_cut w ps -> concat (map fst ps) = w.
Proof.
  intros (c & w' & -> & [(_ & _ & _ & E)|(_ & tag & -> & _)]); [exact E|]. apply (app_nil_r (c :: w')).
Qed.

Lemma segments_pieces ws pss : Forall2 segment_cut ws pss -> concat (map fst (concat pss)) = concat ws.
Proof.
  induction 1 as [|w ps ws pss H _ IH]; [reflexivity|]. simpl. rewrite map_app, concat_app, IH. now rewrite (pieces_concat _ _ H).
Qed.

Lemma ltext_pieces (ps : list (str * TextTag)) : concat (map ltext (map (fun p => LText (fst p) (snd p)) ps)) = concat (map fst ps).
Proof. now rewrite map_map. Qed.

Section Line.
Context tg sz s ats l
  (HW : Forall wf_attribute ats) (HC : create_line_from_input_tokens tg [InText s ats] sz = Ok l).

Lemma line_pieces : exists pss, Forall2 segment_cut (u_words s) pss
  /\ map token (ll_tokens l) = map (fun p => LText (fst p) (snd p)) (concat pss).
Proof.
  assert (HW' : Forall wf_input [InText s ats]) by (constructor; [exact HW|constructor]).
  destruct (create_facts tg sz _ l HW' HC) as (groups & H1 & _ & _ & HT & _).
  inversion H1 as [|? g ? gs Hg H1']; subst. inversion H1'; subst. cbn [input_ltokens] in Hg.
  apply thm_C05_tags in Hg. destruct Hg as (pss & Hp & Em). exists pss. split; [exact Hp|].
  rewrite HT, layout_by_tokens. cbn [concat]. now rewrite app_nil_r.
Qed.

Lemma token_at_piece b t tag a : token_at l b t tag a ->
  exists w0 w w3 ps1 ps2, segment_at s w0 w w3 /\ segment_cut w (ps1 ++ (t, tag) :: ps2)
    /\ b = w0 ++ concat (map fst ps1) /\ a = concat (map fst ps2) ++ w3.
Proof.
  intros (ts1 & ts2 & E & <- & <-). destruct line_pieces as (pss & HP & ET). rewrite ET in E. clear ET.
  unfold segment_at. revert ts1 E. induction HP as [|w ps ws pss H HP IH]; intros ts1 E; [now destruct ts1|].
  simpl in E. rewrite map_app in E. destruct (app_eq_app _ _ _ _ E) as (z & [(E1 & E2)|(-> & E2)]).
  - destruct z as [|z0 z].
    + rewrite app_nil_r in E1. subst ts1. simpl in E2. destruct (IH [] (eq_sym E2)) as (w0 & w2 & w3 & ps1 & ps2 & (ws1 & ws2 & -> & <- & <-) & H2 & E3 & E4).
      exists (w ++ concat ws1), w2, (concat ws2), ps1, ps2. split; [exists (w :: ws1), ws2; auto|]. split; [exact H2|]. split; [|exact E4].
      rewrite ltext_pieces, (pieces_concat _ _ H). simpl in E3. rewrite <- app_assoc, <- E3. now rewrite app_nil_r.
    + injection E2 as <- ->. apply map_eq_app in E1. destruct E1 as (ps1 & ps' & -> & <- & E1). apply map_eq_cons in E1. destruct E1 as ((t' & tag') & ps2 & -> & Ep & <-).
      cbn [fst snd] in Ep. injection Ep as -> ->.
      exists [], w, (concat ws), ps1, ps2. split; [exists [], ws; auto|]. split; [exact H|]. split.
      * now rewrite ltext_pieces.
      * rewrite map_app, concat_app, !ltext_pieces. now rewrite (segments_pieces _ _ HP).
  - destruct (IH z E2) as (w0 & w2 & w3 & ps1 & ps2 & (ws1 & ws2 & -> & <- & <-) & H2 & E3 & E4).
    exists (w ++ concat ws1), w2, (concat ws2), ps1, ps2. split; [exists (w :: ws1), ws2; auto|]. split; [exact H2|]. split; [|exact E4].
    rewrite map_app, concat_app, ltext_pieces, (pieces_concat _ _ H), E3. now rewrite app_assoc.
Qed.

Lemma piece_token_at w0 w w3 : segment_at s w0 w w3 ->
  exists ps, segment_cut w ps /\ forall ps1 t tag ps2, ps = ps1 ++ (t, tag) :: ps2 ->
    token_at l (w0 ++ concat (map fst ps1)) t tag (concat (map fst ps2) ++ w3).
Proof.
  intros (ws1 & ws2 & E & <- & <-). destruct line_pieces as (pss & HP & ET). rewrite E in HP.
  apply Forall2_app_inv_l in HP. destruct HP as (pa & pb & Pa & Pb & ->). inversion Pb as [|? ps ? pb' Hps Pb']; subst.
  exists ps. split; [exact Hps|]. intros ps1 t tag ps2 ->. unfold token_at. rewrite ET.
  exists (map (fun p => LText (fst p) (snd p)) (concat pa ++ ps1)), (map (fun p => LText (fst p) (snd p)) (ps2 ++ concat pb')).
  split; [|split].
  - rewrite concat_app. cbn [concat]. rewrite !map_app. cbn [map fst snd]. rewrite <- !app_assoc. reflexivity.
  - rewrite ltext_pieces, map_app, concat_app. now rewrite (segments_pieces _ _ Pa).
  - rewrite ltext_pieces, map_app, concat_app. now rewrite (segments_pieces _ _ Pb').
Qed.
End Line.

(** ** Characters of pieces *)

Lemma digit_iff c : decimal_digit c = true <-> ascii_digit c.
Proof.
  rewrite <- digit_eq. unfold is_ascii_digit, ascii_digit. rewrite andb_true_iff, !N.leb_le. reflexivity.
Qed.
Lemma digit_not c : decimal_digit c = false <-> ~ ascii_digit c.
Proof. rewrite <- digit_iff. destruct (decimal_digit c); split; congruence. Qed.

Lemma digit_dec c : {ascii_digit c} + {~ ascii_digit c}.
Proof. destruct (decimal_digit c) eqn:E; [left; now apply digit_iff|right; now apply digit_not]. Qed.

Lemma in_dec_char (c : char) l : {In c l} + {~ In c l}.
Proof. apply (in_dec N.eq_dec). Qed.

Lemma letter_dec c : ascii_letter c \/ ~ ascii_letter c.
Proof.
  unfold ascii_letter. destruct (N.leb_spec 65 c), (N.leb_spec c 90), (N.leb_spec 97 c), (N.leb_spec c 122);
    first [left; chars|right; chars].
Qed.

Lemma not_unbroken_l b d q : (forall p c, b = p ++ [c] -> ~ ub p c d q) -> ~ unbroken b (d :: q).
Proof.
  intros H HU. destruct (unbroken_ends _ _ HU) as [Hb _]. destruct (exists_last Hb) as (p & c & ->).
  apply unbroken_ub in HU. now apply (H p c).
Qed.

Lemma not_unbroken_r p c a : (forall d q, a = d :: q -> ~ ub p c d q) -> ~ unbroken (p ++ [c]) a.
Proof.
  intros H HU. destruct (unbroken_ends _ _ HU) as [_ Ha]. destruct a as [|d q]; [easy|].
  apply unbroken_ub in HU. now apply (H d q).
Qed.

Lemma ends_in_app x y P : ends_in y P -> ends_in (x ++ y) P.
Proof. intros (s' & c & -> & H). exists (x ++ s'), c. now rewrite app_assoc. Qed.
Lemma starts_in_app x y P : starts_in x P -> starts_in (x ++ y) P.
Proof. intros (c & s' & -> & H). exists c, (s' ++ y). auto. Qed.
Lemma ends_in_inv x y P : y <> [] -> ends_in (x ++ y) P -> ends_in y P.
Proof.
  intros Hy (s' & c & E & H). destruct (exists_last Hy) as (y' & d & ->). rewrite app_assoc in E. apply app_inj_tail in E.
  destruct E as [_ ->]. exists y', c. auto.
Qed.
Lemma ends_in_last p c P : ends_in (p ++ [c]) P <-> P c.
Proof.
  split; [intros (s' & d & E & H)|intros H; exists p, c; auto]. apply app_inj_tail in E. now destruct E as [_ ->].
Qed.
Lemma starts_in_cons c q P : starts_in (c :: q) P <-> P c.
Proof. split; [intros (d & s' & E & H); now injection E as -> ->|intros H; exists c, q; auto]. Qed.
Lemma ends_in_nil P : ~ ends_in [] P.
Proof. intros (s' & c & E & _). now destruct s'. Qed.
Lemma starts_in_nil P : ~ starts_in [] P.
Proof. intros (s' & c & E & _). discriminate. Qed.

Section Laws.
Context (SL : SegmenterLaws) (AL : AsciiLaws) (s : str) (HA : ascii s).

Lemma segment_pair w0 w w3 p c d q : segment_at s w0 w w3 -> w = p ++ c :: d :: q -> ub (w0 ++ p) c d (q ++ w3).
Proof.
  intros Hs ->. apply (segment_iff SL AL) in Hs; [|exact HA]. destruct Hs as (_ & _ & _ & _ & H).
  apply unbroken_ub. rewrite <- app_assoc. apply (H (p ++ [c]) (d :: q)).
  - intros C. now apply app_eq_nil in C.
  - discriminate.
  - now rewrite <- app_assoc.
Qed.

Lemma segment_start w0 d w w3 p c : segment_at s w0 (d :: w) w3 -> w0 = p ++ [c] -> ~ ub p c d (w ++ w3).
Proof.
  intros Hs ->. apply (segment_iff SL AL) in Hs; [|exact HA]. destruct Hs as (_ & _ & H & _).
  intros C. apply H. now apply unbroken_ub.
Qed.

Lemma segment_end w0 p c w3 d q : segment_at s w0 (p ++ [c]) w3 -> w3 = d :: q -> ~ ub (w0 ++ p) c d q.
Proof.
  intros Hs ->. apply (segment_iff SL AL) in Hs; [|exact HA]. destruct Hs as (_ & _ & _ & H & _).
  intros C. apply H. rewrite app_assoc. now apply unbroken_ub.
Qed.

Lemma segment_text w0 w w3 : segment_at s w0 w w3 -> w0 ++ w ++ w3 = s.
Proof. intros Hs. apply (segment_iff SL AL) in Hs; tauto. Qed.

Lemma segment_ascii w0 w w3 c : segment_at s w0 w w3 -> In c w -> (c < 128)%N.
Proof.
  intros Hs Hc. apply segment_text in Hs. unfold ascii in HA. rewrite Forall_forall in HA. apply HA. rewrite <- Hs.
  apply in_or_app. right. apply in_or_app. now left.
Qed.

(** every run that holds together lies in one segment *)
Lemma segment_of b t a : b ++ t ++ a = s -> t <> [] ->
  (forall x y, x <> [] -> y <> [] -> t = x ++ y -> unbroken (b ++ x) (y ++ a)) ->
  exists w0 x y w3, segment_at s w0 (x ++ t ++ y) w3 /\ b = w0 ++ x /\ a = y ++ w3.
Proof.
  intros ES HT HU. destruct t as [|d t]; [easy|]. set (ws := u_words s) in *.
  assert (EW : concat ws = s) by apply (seg_concat SL).
  assert (K : exists ws1 x q ws2, ws = ws1 ++ (x ++ d :: q) :: ws2 /\ b = concat ws1 ++ x /\ t ++ a = q ++ concat ws2).
  { assert (EB : concat ws = b ++ d :: t ++ a) by now rewrite EW, <- ES.
    destruct (concat_cut ws _ _ EB) as [(ws1 & ws2 & E1 & <- & E2)|(ws1 & w1 & w2 & ws2 & E & N1 & N2 & -> & E2)].
    - assert (Nw : forall x, In x ws -> x <> []) by apply (seg_nonempty SL).
      destruct ws2 as [|w ws2]; [discriminate|]. destruct w as [|d' w].
      { exfalso. apply (Nw []); [|reflexivity]. rewrite E1. apply in_or_app. right. now left. }
      injection E2 as -> E2. exists ws1, [], w, ws2. rewrite app_nil_r. auto.
    - destruct w2 as [|d' w2]; [easy|]. injection E2 as -> E2. exists ws1, w1, w2, ws2. auto. }
  destruct K as (ws1 & x & q & ws2 & E & -> & E2).
  destruct (app_eq_app _ _ _ _ E2) as (z & [(-> & Ez)|(-> & ->)]).
  - (* the segment ends inside the run *)
    destruct z as [|z0 z].
    + exists (concat ws1), x, [], a. rewrite !app_nil_r. simpl in Ez. subst a. repeat split. exists ws1, ws2. auto.
    + exfalso.
      assert (Hs : segment_at s (concat ws1) (x ++ d :: q) (concat ws2)) by (exists ws1, ws2; auto).
      apply (segment_iff SL AL) in Hs; [|exact HA]. destruct Hs as (_ & _ & _ & H & _). apply H.
      rewrite Ez. specialize (HU (d :: q) (z0 :: z)). rewrite <- app_assoc in HU. apply HU; [discriminate|discriminate|reflexivity].
  - exists (concat ws1), x, z, (concat ws2). repeat split. exists ws1, ws2. auto.
Qed.

(** ** White space *)

Local Notation white := ascii_space.

Lemma white_ub p c d q : white c -> white d -> ub p c d q -> (c = 13 /\ d = 10)%N \/ (c = 32 /\ d = 32)%N.
Proof. unfold white, ub. intros Hc Hd H. chars. Qed.

Lemma white_chain w0 w w3 : segment_at s w0 w w3 -> Forall white w ->
  w = [13; 10]%N \/ Forall (is 32%N) w \/ exists c, w = [c] /\ white c.
Proof.
  intros Hs HF. destruct w as [|c [|d w]].
  - right. left. constructor.
  - right. right. exists c. inversion HF; auto.
  - assert (HP : forall p x y q, c :: d :: w = p ++ x :: y :: q -> (x = 13 /\ y = 10)%N \/ (x = 32 /\ y = 32)%N).
    { intros p x y q E. eapply white_ub; [| |eapply segment_pair; eauto].
      - rewrite E in HF. apply Forall_app in HF. destruct HF as [_ HF]. now inversion HF.
      - rewrite E in HF. apply Forall_app in HF. destruct HF as [_ HF]. inversion HF as [|? ? _ HF']. now inversion HF'. }
    clear Hs. destruct (HP [] c d w eq_refl) as [[-> ->]|[-> ->]].
    + destruct w as [|e w]; [now left|]. destruct (HP [13%N] 10%N e w eq_refl) as [[C _]|[C _]]; discriminate.
    + right. left. constructor; [reflexivity|]. clear HF. revert HP. generalize ([32%N] : str) as pre. intros pre.
      assert (G : forall pre, (forall p x y q, pre ++ 32%N :: w = p ++ x :: y :: q -> (x = 13 /\ y = 10)%N \/ (x = 32 /\ y = 32)%N) ->
        Forall (is 32%N) (32%N :: w)).
      { clear. induction w as [|e w IH]; intros pre HP; [constructor; [reflexivity|constructor]|].
        destruct (HP pre 32%N e w eq_refl) as [[C _]|[_ ->]]; [discriminate|].
        constructor; [reflexivity|]. apply (IH (pre ++ [32%N])). intros p x y q E. apply (HP p x y q). rewrite <- E, <- app_assoc. reflexivity. }
      intros HP. apply (G [32%N]). exact HP.
Qed.

Lemma all_space_white w : ascii w -> (all_space w <-> Forall white w).
Proof.
  intros Hw. unfold all_space, ascii in *. rewrite !Forall_forall in *. split; intros H c Hc.
  - apply (ascii_whitespace colon AL); auto.
  - apply (ascii_whitespace colon AL); [auto|]. now apply H.
Qed.

Lemma space_segment w0 w w3 : segment_at s w0 w w3 -> Forall white w -> space_piece w0 w w3.
Proof.
  intros Hs HF. destruct (white_chain _ _ _ Hs HF) as [->|[H32|(c & -> & Hc)]].
  - right. now left.
  - left. split; [|split; [exact H32|]].
    { apply (segment_iff SL AL) in Hs; tauto. }
    assert (Nw : w <> []) by (apply (segment_iff SL AL) in Hs; tauto). split.
    + intros (p & c & -> & Hc). unfold is in Hc. subst c. destruct w as [|d w]; [easy|]. inversion H32 as [|? ? Hd _]; subst. unfold is in Hd. subst d.
      eapply (segment_start _ _ _ _ _ _ Hs eq_refl). unfold ub; repeat (first [left; now split|right]); now split.
    + intros (c & q & -> & Hc). unfold is in Hc. subst c. destruct (exists_last Nw) as (w' & d & ->).
      apply Forall_app in H32. destruct H32 as [_ H32]. inversion H32 as [|? ? Hd _]; subst. unfold is in Hd. subst d.
      eapply (segment_end _ _ _ _ _ _ Hs eq_refl). unfold ub; repeat (first [left; now split|right]); now split.
  - unfold white in Hc. cbn [In] in Hc. destruct Hc as [<-|[<-|[<-|[<-|[<-|[<-|[]]]]]]].
    + right. right. right. right. exists 9%N. split; [reflexivity|simpl; tauto].
    + right. right. right. left. split; [reflexivity|]. intros (p & c & -> & Hc). unfold is in Hc. subst c.
      eapply (segment_start _ _ _ _ _ _ Hs eq_refl). unfold ub; repeat (first [left; now split|right]); now split.
    + right. right. right. right. exists 11%N. split; [reflexivity|simpl; tauto].
    + right. right. right. right. exists 12%N. split; [reflexivity|simpl; tauto].
    + right. right. left. split; [reflexivity|]. intros (c & q & -> & Hc). unfold is in Hc. subst c.
      eapply (segment_end w0 [] 13%N _ _ _ Hs eq_refl). unfold ub; repeat (first [left; now split|right]); now split.
    + left. split; [discriminate|]. split; [constructor; [reflexivity|constructor]|]. split.
      * intros (p & c & -> & Hc). unfold is in Hc. subst c. eapply (segment_start _ _ _ _ _ _ Hs eq_refl). unfold ub; repeat (first [left; now split|right]); now split.
      * intros (c & q & -> & Hc). unfold is in Hc. subst c. eapply (segment_end w0 [] 32%N _ _ _ Hs eq_refl). unfold ub; repeat (first [left; now split|right]); now split.
Qed.

Lemma space_piece_white b t a : space_piece b t a -> t <> [] /\ Forall white t.
Proof.
  intros [(Ht & H & _)|[->|[(-> & _)|[(-> & _)|(c & -> & Hc)]]]].
  - split; [exact Ht|]. eapply Forall_impl; [|exact H]. intros c <-. unfold white. simpl. tauto.
  - split; [discriminate|]. repeat apply Forall_cons; try apply Forall_nil; unfold white; simpl; tauto.
  - split; [discriminate|]. repeat apply Forall_cons; try apply Forall_nil; unfold white; simpl; tauto.
  - split; [discriminate|]. repeat apply Forall_cons; try apply Forall_nil; unfold white; simpl; tauto.
  - split; [discriminate|]. apply Forall_cons; [|apply Forall_nil]. unfold white. simpl in *. tauto.
Qed.

(** a white character is joined only to its like *)
Lemma ub_white_r p c d q : white d -> ub p c d q -> (c = 13 /\ d = 10)%N \/ (c = 32 /\ d = 32)%N.
Proof. unfold white, ub. intros Hd H. chars. Qed.
Lemma ub_white_l p c d q : white c -> ub p c d q -> (c = 13 /\ d = 10)%N \/ (c = 32 /\ d = 32)%N.
Proof. unfold white, ub. intros Hc H. chars. Qed.

Lemma space_piece_segment b t a : b ++ t ++ a = s -> space_piece b t a -> segment_at s b t a.
Proof.
  intros ES HP. destruct (space_piece_white _ _ _ HP) as (Nt & HF). apply (segment_iff SL AL); [exact HA|].
  split; [exact ES|]. split; [exact Nt|]. split; [|split].
  - destruct t as [|d t]; [easy|]. apply not_unbroken_l. intros p c -> HU.
    apply ub_white_r in HU; [|now inversion HF].
    destruct HP as [(_ & H & N1 & _)|[E|[(E & _)|[(E & N1)|(e & E & He)]]]].
    + inversion H as [|? ? Hd _]; subst. unfold is in Hd. subst d. destruct HU as [[_ C]|[-> _]]; [discriminate|].
      apply N1. now apply ends_in_last.
    + injection E as -> ->. destruct HU as [[_ C]|[_ C]]; discriminate.
    + injection E as -> ->. destruct HU as [[_ C]|[_ C]]; discriminate.
    + injection E as -> ->. destruct HU as [[-> _]|[_ C]]; [|discriminate]. apply N1. now apply ends_in_last.
    + injection E as -> ->. simpl in He. destruct HU as [[_ ->]|[_ ->]]; lia.
  - destruct (exists_last Nt) as (t' & c & E). rewrite E, app_assoc. apply not_unbroken_r. intros d q -> HU.
    apply ub_white_l in HU; [|rewrite E in HF; apply Forall_app in HF; destruct HF as [_ HF]; now inversion HF].
    destruct HP as [(_ & H & _ & N1)|[E'|[(E' & N1)|[(E' & N1)|(e & E' & He)]]]].
    + rewrite E in H. apply Forall_app in H. destruct H as [_ H]. inversion H as [|? ? Hd _]; subst. unfold is in Hd. subst c.
      destruct HU as [[C _]|[_ ->]]; [discriminate|]. apply N1. now apply starts_in_cons.
    + rewrite E in E'. change [13; 10]%N with ([13] ++ [10])%N in E'. apply app_inj_tail in E'. destruct E' as [_ ->].
      destruct HU as [[C _]|[C _]]; discriminate.
    + rewrite E in E'. apply (app_inj_tail _ []) in E'. destruct E' as [_ ->].
      destruct HU as [[_ ->]|[C _]]; [|discriminate]. apply N1. now apply starts_in_cons.
    + rewrite E in E'. apply (app_inj_tail _ []) in E'. destruct E' as [_ ->]. destruct HU as [[C _]|[C _]]; discriminate.
    + rewrite E in E'. apply (app_inj_tail _ []) in E'. destruct E' as [_ ->]. simpl in He. destruct HU as [[-> _]|[-> _]]; lia.
  - intros x y Hx Hy E. destruct (exists_last Hx) as (x' & c & ->). destruct y as [|d y]; [easy|]. rewrite app_assoc. apply unbroken_ub.
    destruct HP as [(_ & H & _ & N1)|[E'|[(E' & N1)|[(E' & N1)|(e & E' & He)]]]].
    + subst t. rewrite <- app_assoc in H. apply Forall_app in H. destruct H as [_ H]. inversion H as [|? ? H1 H']; subst.
      inversion H' as [|? ? H2 _]; subst. unfold is in *. subst. unfold ub; repeat (first [left; now split|right]); now split.
    + rewrite E' in E. rewrite <- app_assoc in E. destruct x' as [|? [|? x']]; simpl in E; injection E; intros; subst.
      * left. auto.
      * match goal with H : [] = _ |- _ => discriminate H | H : _ = _ :: _ |- _ => destruct x'; discriminate H end.
      * destruct x'; discriminate.
    + rewrite E' in E. rewrite <- app_assoc in E. destruct x' as [|? [|? x']]; discriminate.
    + rewrite E' in E. rewrite <- app_assoc in E. destruct x' as [|? [|? x']]; discriminate.
    + rewrite E' in E. rewrite <- app_assoc in E. destruct x' as [|? [|? x']]; discriminate.
Qed.

(** ** Locating a piece *)

Lemma locate_piece t tag : (forall f rest y, good_piece f -> Forall good_piece rest -> maximal (f :: rest) ->
    fst f ++ concat (map fst rest) = t ++ y -> ~ (tag = NATN /\ starts_in y ascii_digit) -> f = (t, tag)) ->
  (forall f x c d z, good_piece f -> fst f = x ++ c :: d :: z -> starts_in t (is d) -> ~ (tag = NATN /\ ascii_digit c) -> False) ->
  t <> [] ->
  forall ps x y, Forall good_piece ps -> maximal ps -> concat (map fst ps) = x ++ t ++ y ->
  ~ (tag = NATN /\ ends_in x ascii_digit) -> ~ (tag = NATN /\ starts_in y ascii_digit) ->
  exists ps1 ps2, ps = ps1 ++ (t, tag) :: ps2 /\ concat (map fst ps1) = x /\ concat (map fst ps2) = y.
Proof.
  intros H1 H2 Nt. induction ps as [|f ps IH]; intros x y G M E Nx Ny.
  - simpl in E. destruct x; [|discriminate]. destruct t; [easy|discriminate].
  - inversion G as [|? ? Gf G']; subst. assert (M' : maximal ps) by (destruct ps; [exact I|now destruct M]).
    simpl in E. destruct x as [|c x].
    + assert (Ef : f = (t, tag)) by (eapply H1; eauto). subst f. exists [], ps. repeat split. cbn [fst app] in E. now apply app_inv_head in E.
    + destruct (app_eq_app _ _ _ _ E) as (z & [(Ef & Ez)|(Ex & Ez)]).
      * destruct z as [|z0 z].
        -- rewrite app_nil_r in Ef. destruct (IH [] y G' M') as (ps1 & ps2 & -> & E1 & E2); [exact (eq_sym Ez)| |exact Ny|].
           { intros [_ C]. now apply ends_in_nil in C. }
           exists (f :: ps1), ps2. repeat split; [|exact E2]. simpl. now rewrite E1, app_nil_r.
        -- exfalso. assert (Nc : c :: x <> []) by discriminate. destruct (exists_last Nc) as (x' & c' & Ec). rewrite Ec, <- app_assoc in Ef.
           eapply (H2 f x' c' z0 z); eauto.
           ++ destruct t as [|t0 t]; [easy|]. injection Ez as -> _. exists z0, t. split; reflexivity.
           ++ intros [-> C]. apply Nx. split; [reflexivity|]. rewrite Ec. now apply ends_in_last.
      * destruct (IH z y G' M') as (ps1 & ps2 & -> & E1 & E2); [exact Ez| |exact Ny|].
        { intros [-> C]. apply Nx. split; [reflexivity|]. rewrite Ex. now apply ends_in_app. }
        exists (f :: ps1), ps2. repeat split; [|exact E2]. cbn [map concat]. rewrite E1. exact (eq_sym Ex).
Qed.

Lemma piece_start f rest : good_piece f -> Forall good_piece rest -> maximal (f :: rest) ->
  snd f = NATN -> ~ starts_in (concat (map fst rest)) ascii_digit.
Proof.
  intros Gf Gr M Et (c & q & E & Hc). destruct rest as [|[r rt] rest]; [discriminate|].
  inversion Gr as [|? ? G1 _]; subst. destruct M as [M _]. cbn [snd] in M. simpl in E.
  unfold good_piece in G1. cbn [fst snd] in G1. destruct rt; try easy.
  - specialize (M Et). congruence.
  - destruct G1 as (e & -> & He & _). simpl in E. injection E as -> _. apply digit_iff in Hc. congruence.
  - destruct G1 as (Nr & HF). destruct r as [|e r]; [easy|]. injection E as -> _. inversion HF as [|? ? [He _] _]; subst.
    apply digit_iff in Hc. congruence.
Qed.

Lemma digit_runs_eq (f : str) : forall t r y, Forall ascii_digit f -> Forall ascii_digit t -> f ++ r = t ++ y ->
  ~ starts_in r ascii_digit -> ~ starts_in y ascii_digit -> f = t.
Proof.
  induction f as [|c f IH]; intros [|d t] r y Hf Ht E Nr Ny.
  - reflexivity.
  - exfalso. apply Nr. simpl in E. subst r. apply starts_in_cons. now inversion Ht.
  - exfalso. apply Ny. simpl in E. subst y. apply starts_in_cons. now inversion Hf.
  - injection E as -> E. f_equal. inversion Hf; inversion Ht; subst. eapply IH; eauto.
Qed.

Lemma locate_number t ps x y : t <> [] -> Forall ascii_digit t ->
  Forall good_piece ps -> maximal ps -> concat (map fst ps) = x ++ t ++ y ->
  ~ ends_in x ascii_digit -> ~ starts_in y ascii_digit ->
  exists ps1 ps2, ps = ps1 ++ (t, NATN) :: ps2 /\ concat (map fst ps1) = x /\ concat (map fst ps2) = y.
Proof.
  intros Nt Ht G M E Nx Ny. refine (locate_piece t NATN _ _ Nt ps x y G M E _ _); [| |tauto|tauto].
  - intros [f ft] rest y' Gf Gr Mf E' Ny'. pose proof (piece_start _ _ Gf Gr Mf) as PS.
    assert (Hd : ascii_digit (hd 0%N t)) by (destruct t; [easy|now inversion Ht]).
    assert (Ef : exists f', f = hd 0%N t :: f').
    { destruct t as [|d t]; [easy|]. destruct f as [|e f]; [apply good_piece_class in Gf; cbn [fst] in Gf; easy|].
      injection E' as -> _. now exists f. }
    destruct Ef as (f' & ->). apply digit_iff in Hd. unfold good_piece in Gf. cbn [fst snd] in Gf, PS, E'. destruct ft; try easy.
    + destruct Gf as [_ Gf]. f_equal. eapply digit_runs_eq; [|exact Ht|exact E'|auto|tauto].
      eapply Forall_impl; [|exact Gf]. intros c. apply digit_iff.
    + destruct Gf as (c & Ec & Hc & _). injection Ec as Ec _. congruence.
    + destruct Gf as (_ & Gf). inversion Gf as [|? ? [He _] _]; subst. congruence.
  - intros [f ft] x' c d z Gf E' Hd Nc. destruct Hd as (d' & t' & -> & <-). unfold is in *. assert (Hd : ascii_digit d) by now inversion Ht.
    apply digit_iff in Hd. unfold good_piece in Gf. cbn [fst snd] in *. subst f. destruct ft; try easy.
    + destruct Gf as [_ Gf]. apply Forall_app in Gf. destruct Gf as [_ Gf]. inversion Gf as [|? ? H1 _]; subst. apply Nc. split; [reflexivity|]. now apply digit_iff.
    + destruct Gf as (e & Ee & _). destruct x' as [|? [|? x']]; discriminate.
    + destruct Gf as [_ Gf]. apply Forall_app in Gf. destruct Gf as [_ Gf]. inversion Gf as [|? ? H1 Gf']; subst. inversion Gf' as [|? ? [H2 _] _]; subst. congruence.
Qed.

Lemma locate_sign c ps x y : decimal_digit c = false -> u_alphabetic c = false ->
  Forall good_piece ps -> maximal ps -> concat (map fst ps) = x ++ [c] ++ y ->
  exists ps1 ps2, ps = ps1 ++ ([c], PUNC) :: ps2 /\ concat (map fst ps1) = x /\ concat (map fst ps2) = y.
Proof.
  intros H1 H2 G M E. refine (locate_piece [c] PUNC _ _ _ ps x y G M E _ _); [| |discriminate|intros [C _]; discriminate|intros [C _]; discriminate].
  - intros [f ft] rest y' Gf Gr Mf E' Ny'. destruct f as [|e f]; [apply good_piece_class in Gf; cbn [fst] in Gf; easy|]. injection E' as -> _.
    unfold good_piece in Gf. cbn [fst snd] in Gf. destruct ft; try easy.
    + destruct Gf as [_ Gf]. inversion Gf. congruence.
    + destruct Gf as (e & Ee & _). now injection Ee as _ ->.
    + destruct Gf as [_ Gf]. inversion Gf as [|? ? [_ C] _]. congruence.
  - intros [f ft] x' c' d z Gf E' Hd Nc. destruct Hd as (d' & t' & Ed & <-). injection Ed as <- <-. unfold is in *.
    unfold good_piece in Gf. cbn [fst snd] in *. subst f. destruct ft; try easy.
    + destruct Gf as [_ Gf]. apply Forall_app in Gf. destruct Gf as [_ Gf]. inversion Gf as [|? ? _ Gf']; subst. inversion Gf' as [|? ? C _]; subst. congruence.
    + destruct Gf as (e & Ee & _). destruct x' as [|? [|? x']]; discriminate.
    + destruct Gf as [_ Gf]. apply Forall_app in Gf. destruct Gf as [_ Gf]. inversion Gf as [|? ? _ Gf']; subst. inversion Gf' as [|? ? [_ C] _]; subst. congruence.
Qed.

(** ** Numbers *)

Lemma number_unbroken b t a : Forall ascii_digit t ->
  forall x y, x <> [] -> y <> [] -> t = x ++ y -> unbroken (b ++ x) (y ++ a).
Proof.
  intros Ht x y Hx Hy ->. destruct (exists_last Hx) as (x' & c & ->). destruct y as [|d y]; [easy|].
  apply Forall_app in Ht. destruct Ht as [H1 H2]. apply Forall_app in H1. destruct H1 as [_ H1]. inversion H1; inversion H2; subst.
  rewrite app_assoc. now apply WB8.
Qed.

(** a segment with a digit in it starts with a digit, unless a digit follows a letter or an underscore *)
Definition led (s' : str) : Prop := forall b x y a, s' = b ++ x :: y :: a -> ascii_digit y -> ~ ascii_letter x /\ x <> 95%N.

Lemma digit_led : led s -> forall n w0 p d q w3, length p <= n -> segment_at s w0 (p ++ d :: q) w3 -> ascii_digit d ->
  exists d' r, p ++ d :: q = d' :: r /\ ascii_digit d'.
Proof.
  intros HL. induction n as [|n IH]; intros w0 p d q w3 Hn Hs Hd.
  - destruct p; [|simpl in Hn; lia]. exists d, q. auto.
  - destruct p as [|e p]; [exists d, q; auto|].
    assert (Np : e :: p <> []) by discriminate. destruct (exists_last Np) as (p' & c & Ep).
    assert (Hl : length p' <= n) by (apply (f_equal (@length _)) in Ep; rewrite app_length in Ep; simpl in Ep, Hn; lia).
    rewrite Ep in *. clear e p Ep Np Hn. rewrite <- app_assoc in *. cbn [app] in *.
    pose proof (segment_pair _ _ _ _ _ _ _ Hs eq_refl) as HU.
    assert (Es : s = (w0 ++ p') ++ c :: d :: q ++ w3) by (rewrite <- (segment_text _ _ _ Hs), <- !app_assoc; reflexivity).
    destruct (HL _ _ _ _ Es Hd) as [Nl Nu].
    assert (Nm : ~ mid_letter d) by (intros C; chars). assert (Nn : ~ mid_number d) by (intros C; chars).
    destruct HU as [[-> ->]|[[-> ->]|[[[Hc|Hc] _]|[(Hc & Hx & _)|[(Hc & Hx & _)|[(Hc & _ & He)|[(Hc & Hx & _)|[(Hc & ->)|[-> _]]]]]]]]]; try tauto.
    + chars.
    + chars.
    + now apply (IH w0 p' c (d :: q) w3).
    + chars.
    + destruct p' as [|e p'].
      * exfalso. rewrite app_nil_r in He. destruct He as (w0' & d' & -> & Hd'). cbn [app] in Hs.
        eapply (segment_start _ _ _ _ _ _ Hs eq_refl). unfold ub. do 6 right. left. split; [exact Hd'|]. split; [exact Hc|].
        now apply starts_in_cons.
      * assert (Np : e :: p' <> []) by discriminate. apply ends_in_inv in He; [|exact Np]. destruct He as (p'' & d' & Ep & Hd').
        rewrite Ep in *. rewrite <- app_assoc in *. cbn [app] in *. apply (IH w0 p'' d' (c :: d :: q) w3); [|exact Hs|exact Hd'].
        rewrite app_length in Hl. simpl in Hl. lia.
    + chars.
Qed.

(** ** Plain text *)

Lemma plain_led : plain_text s -> led s.
Proof.
  intros (_ & H5 & HP) b x y a E Hy. split; [intros C; destruct (HP _ _ _ _ E); tauto|]. intros ->. apply H5. rewrite E. apply in_or_app. right. now left.
Qed.

(** in plain text a digit-led segment is made of digits and the signs that may stand between them *)
Lemma plain_digits w0 w w3 : plain_text s -> segment_at s w0 w w3 -> starts_in w ascii_digit ->
  Forall (fun c => ascii_digit c \/ mid_number c) w.
Proof.
  intros (_ & H5 & HP) Hs (d & q & -> & Hd).
  assert (HU : forall p x y r, d :: q = p ++ x :: y :: r -> ub (w0 ++ p) x y (r ++ w3)).
  { intros p x y r E. eapply segment_pair; eauto. }
  assert (HN : forall p x y r, d :: q = p ++ x :: y :: r -> ~ (ascii_letter x /\ ascii_digit y) /\ ~ (ascii_digit x /\ ascii_letter y) /\ x <> 95%N /\ y <> 95%N).
  { intros p x y r E. pose proof (segment_text _ _ _ Hs) as Es. rewrite E in Es.
    assert (Es' : s = (w0 ++ p) ++ x :: y :: (r ++ w3)) by (rewrite <- Es, <- !app_assoc; reflexivity).
    destruct (HP _ _ _ _ Es'). split; [assumption|]. split; [assumption|]. split; intros ->; apply H5; rewrite Es'; apply in_or_app; right; simpl; tauto. }
  assert (G : forall r p c, d :: q = p ++ c :: r -> Forall (fun c => ascii_digit c \/ mid_number c) (p ++ [c]) ->
    (ascii_digit c \/ (mid_number c /\ ends_in p ascii_digit)) -> Forall (fun c => ascii_digit c \/ mid_number c) (p ++ c :: r)).
  { clear Hd. induction r as [|y r IH]; intros p c E HF Hc; [exact HF|].
    assert (K : ascii_digit y \/ (mid_number y /\ ends_in (p ++ [c]) ascii_digit)).
    { specialize (HU _ _ _ _ E). specialize (HN _ _ _ _ E). destruct Hc as [Hc|[Hc He]].
      - destruct HU as [[-> ->]|[[-> ->]|[[_ [Hy|Hy]]|[(Hl & _)|[(Hl & _)|[(Hl & _)|[(_ & Hy & _)|[(_ & ->)|[-> _]]]]]]]]]; try tauto; try chars.
        right. split; [exact Hy|]. now apply ends_in_last.
      - destruct p as [|e p]; [now apply ends_in_nil in He|]. assert (Np : e :: p <> []) by discriminate.
        destruct HU as [[-> ->]|[[-> ->]|[[[Hl|Hl] _]|[(Hl & _)|[(_ & _ & Hl)|[(_ & Hy & _)|[(Hl & _)|[([[Hl|Hl]|Hl] & ->)|[-> _]]]]]]]]]; try tauto; try chars.
        apply ends_in_inv in Hl; [|exact Np]. destruct Hl as (p1 & e1 & E1 & Hl). rewrite E1 in He. apply (proj1 (ends_in_last _ _ _)) in He. chars. }
    assert (EA : p ++ c :: y :: r = (p ++ [c]) ++ y :: r) by now rewrite <- app_assoc. rewrite EA in E |- *.
    apply IH; [exact E| |exact K]. apply Forall_app. split; [exact HF|]. constructor; [tauto|constructor]. }
  apply (G q [] d eq_refl); [constructor; [tauto|constructor]|now left].
Qed.

(** in plain text a segment that starts with a letter is dotted *)
Lemma plain_letters w0 w w3 : plain_text s -> segment_at s w0 w w3 -> starts_in w ascii_letter -> dotted w.
Proof.
  intros (_ & H5 & HP) Hs (d & q & -> & Hd).
  assert (HU : forall p x y r, d :: q = p ++ x :: y :: r -> ub (w0 ++ p) x y (r ++ w3)).
  { intros p x y r E. eapply segment_pair; eauto. }
  assert (HN : forall p x y r, d :: q = p ++ x :: y :: r -> ~ (ascii_letter x /\ ascii_digit y) /\ ~ (ascii_digit x /\ ascii_letter y) /\ x <> 95%N /\ y <> 95%N).
  { intros p x y r E. pose proof (segment_text _ _ _ Hs) as Es. rewrite E in Es.
    assert (Es' : s = (w0 ++ p) ++ x :: y :: (r ++ w3)) by (rewrite <- Es, <- !app_assoc; reflexivity).
    destruct (HP _ _ _ _ Es'). split; [assumption|]. split; [assumption|]. split; intros ->; apply H5; rewrite Es'; apply in_or_app; right; simpl; tauto. }
  assert (G : forall n r p c, length r <= n -> d :: q = p ++ c :: r -> ascii_letter c -> dotted (c :: r)).
  { induction n as [|n IH]; intros r p c Hn E Hc.
    - destruct r; [now constructor|simpl in Hn; lia].
    - destruct r as [|y r]; [now constructor|]. pose proof (HU _ _ _ _ E) as HU1. pose proof (HN _ _ _ _ E) as HN1.
      assert (EA : p ++ c :: y :: r = (p ++ [c]) ++ y :: r) by now rewrite <- app_assoc.
      destruct HU1 as [[-> ->]|[[-> ->]|[[_ [Hy|Hy]]|[(_ & Hy & Hl)|[(Hl & _)|[(Hl & _)|[(Hl & _)|[(_ & ->)|[-> _]]]]]]]]]; try tauto; try chars.
      + apply D_letter; [exact Hc|]. apply (IH r (p ++ [c]) y); [simpl in Hn; lia|now rewrite <- EA|exact Hy].
      + destruct r as [|z r].
        * exfalso. destruct Hl as (e & a & Ea & He). simpl in Ea. rewrite EA in E. rewrite E in Hs. eapply (segment_end _ _ _ _ _ _ Hs Ea).
          unfold ub. do 4 right. left. split; [exact Hy|]. split; [exact He|]. rewrite app_assoc. now apply ends_in_last.
        * cbn [app] in Hl. apply (proj1 (starts_in_cons _ _ _)) in Hl. apply D_mid; [exact Hc|exact Hy|]. apply (IH r (p ++ [c; y]) z); [simpl in Hn; lia| |exact Hl].
          rewrite E, <- app_assoc. reflexivity. }
  now apply (G (length q) q [] d).
Qed.

(** a segment that starts with none of these is one character *)
Lemma other_single w0 c q w3 : segment_at s w0 (c :: q) w3 -> ~ ascii_letter c -> ~ ascii_digit c -> c <> 95%N ->
  ~ white c -> q = [].
Proof.
  intros Hs Nl Nd Nu Nw. destruct q as [|d q]; [reflexivity|]. exfalso. pose proof (segment_pair _ _ _ [] _ _ _ Hs eq_refl) as HU. rewrite app_nil_r in HU.
  destruct HU as [[-> ->]|[[-> ->]|[[[Hc|Hc] _]|[(Hc & _)|[(Hc & Hy & He)|[(Hc & Hy & He)|[(Hc & _)|[([[Hc|Hc]|Hc] & _)|[Hc _]]]]]]]]]; try tauto.
  - apply Nw. unfold white. simpl. tauto.
  - apply Nw. unfold white. simpl. tauto.
  - destruct He as (p & x & -> & Hx). eapply (segment_start _ _ _ _ _ _ Hs eq_refl). unfold ub. do 3 right. left. split; [exact Hx|]. split; [exact Hc|]. now apply starts_in_cons.
  - destruct He as (p & x & -> & Hx). eapply (segment_start _ _ _ _ _ _ Hs eq_refl). unfold ub. do 6 right. left. split; [exact Hx|]. split; [exact Hc|]. now apply starts_in_cons.
Qed.

(** a segment that starts with white space is white *)
Lemma white_led w0 c q w3 : segment_at s w0 (c :: q) w3 -> white c -> Forall white (c :: q).
Proof.
  intros Hs Hc.
  assert (G : forall r p x, c :: q = p ++ x :: r -> white x -> Forall white (x :: r)).
  { induction r as [|y r IH]; intros p x E Hx; [constructor; [exact Hx|constructor]|]. constructor; [exact Hx|].
    pose proof (segment_pair _ _ _ _ _ _ _ Hs E) as HU. apply ub_white_l in HU; [|exact Hx].
    apply (IH (p ++ [x])); [now rewrite <- app_assoc|]. destruct HU as [[_ ->]|[_ ->]]; unfold white; simpl; tauto. }
  now apply (G q [] c).
Qed.

Lemma dotted_ends t : dotted t -> starts_in t ascii_letter /\ ends_in t ascii_letter.
Proof.
  induction 1 as [c H|c t H _ IH|c m t H Hm _ IH].
  - split; [now exists c, []|now exists [], c].
  - split; [now exists c, t|apply (ends_in_app [c]), IH].
  - split; [now exists c, (m :: t)|apply (ends_in_app [c; m]), IH].
Qed.

Lemma dotted_unbroken t : dotted t -> forall b a x y, x <> [] -> y <> [] -> t = x ++ y -> unbroken (b ++ x) (y ++ a).
Proof.
  induction 1 as [c H|c t H Ht IH|c m t H Hm Ht IH]; intros b a x y Hx Hy E.
  - destruct x as [|? [|? x]]; [easy| |discriminate]. destruct y; [easy|discriminate].
  - destruct x as [|e x]; [easy|]. injection E as <- E. destruct x as [|e x].
    + simpl in E. subst y. destruct (dotted_ends _ Ht) as [(d & t' & -> & Hd) _]. cbn [app]. now apply WB5.
    + replace (b ++ c :: e :: x) with ((b ++ [c]) ++ e :: x) by now rewrite <- app_assoc. apply IH; [discriminate|exact Hy|exact E].
  - destruct x as [|e x]; [easy|]. injection E as <- E. destruct (dotted_ends _ Ht) as [(d & t' & Et & Hd) _]. destruct x as [|e x].
    + simpl in E. subst y t. cbn [app]. now apply WB6.
    + injection E as <- E. destruct x as [|e x].
      * simpl in E. subst y t. cbn [app]. now apply WB7.
      * replace (b ++ c :: m :: e :: x) with ((b ++ [c; m]) ++ e :: x) by now rewrite <- app_assoc. apply IH; [discriminate|exact Hy|exact E].
Qed.

Lemma letters_segment b t a : plain_text s -> b ++ t ++ a = s -> letters_piece b t a -> segment_at s b t a.
Proof.
  intros (_ & H5 & HP) ES (Ht & N1 & N2 & N3 & N4). destruct (dotted_ends _ Ht) as [(d & t1 & E1 & Hd) (t2 & c & E2 & Hc)].
  assert (N95 : forall x, In x s -> x <> 95%N) by (intros x Hx ->; contradiction).
  apply (segment_iff SL AL); [exact HA|]. split; [exact ES|]. split; [now rewrite E1|]. split; [|split].
  - rewrite E1. apply not_unbroken_l. intros p e -> HU.
    assert (Es : s = p ++ e :: d :: t1 ++ a) by (rewrite <- ES, E1, <- !app_assoc; reflexivity).
    assert (Ne : e <> 95%N) by (apply N95; rewrite Es; apply in_or_app; right; now left).
    destruct HU as [[-> ->]|[[-> ->]|[[[Hl|Hl] _]|[(Hl & _)|[(Hl & _ & p' & x & -> & Hx)|[(Hl & Hx & _)|[(Hl & Hx & _)|[(_ & ->)|[-> _]]]]]]]]]; try tauto; try chars.
    + apply N1. now apply ends_in_last.
    + destruct (HP _ _ _ _ Es); tauto.
    + apply N1. now apply ends_in_last.
    + apply N2. exists p', x, e. rewrite <- app_assoc. auto.
  - rewrite E2, app_assoc. apply not_unbroken_r. intros e q -> HU.
    assert (Es : s = (b ++ t2) ++ c :: e :: q) by (rewrite <- ES, E2, <- !app_assoc; reflexivity).
    assert (Ne : e <> 95%N) by (apply N95; rewrite Es; apply in_or_app; right; simpl; tauto).
    destruct HU as [[-> ->]|[[-> ->]|[[_ [Hl|Hl]]|[(_ & Hl & q0 & q' & -> & Hx)|[(Hl & _)|[(Hl & _)|[(Hl & _)|[(_ & ->)|[-> _]]]]]]]]]; try tauto; try chars.
    + apply N3. now apply starts_in_cons.
    + destruct (HP _ _ _ _ Es); tauto.
    + apply N4. exists e, q0, q'. auto.
  - now apply dotted_unbroken.
Qed.

Lemma segment_letters w0 w w3 : segment_at s w0 w w3 -> dotted w -> letters_piece w0 w w3.
Proof.
  intros Hs Ht. destruct (dotted_ends _ Ht) as [(d & t1 & E1 & Hd) (t2 & c & E2 & Hc)].
  split; [exact Ht|]. split; [|split; [|split]].
  - intros (p & x & -> & Hx). rewrite E1 in Hs. eapply (segment_start _ _ _ _ _ _ Hs eq_refl). unfold ub, alnum. tauto.
  - intros (p & x & m & -> & Hx & Hm). rewrite E1 in Hs.
    assert (E : p ++ [x; m] = (p ++ [x]) ++ [m]) by now rewrite <- app_assoc. eapply (segment_start _ _ _ _ _ _ Hs E).
    unfold ub. do 4 right. left. split; [exact Hm|]. split; [exact Hd|]. now apply ends_in_last.
  - intros (x & q & -> & Hx). rewrite E2 in Hs. eapply (segment_end _ _ _ _ _ _ Hs eq_refl). unfold ub, alnum. tauto.
  - intros (m & y & q & -> & Hm & Hy). rewrite E2 in Hs. eapply (segment_end _ _ _ _ _ _ Hs eq_refl).
    unfold ub. do 3 right. left. split; [exact Hc|]. split; [exact Hm|]. now apply starts_in_cons.
Qed.

Section Tokens.
Context tg sz ats l
  (HW : Forall wf_attribute ats) (HC : create_line_from_input_tokens tg [InText s ats] sz = Ok l).

Lemma seg_ascii w0 w w3 : segment_at s w0 w w3 -> ascii w.
Proof. intros Hs. apply Forall_forall. intros c. eapply segment_ascii; eauto. Qed.

(** a segment that is not digit-led is one token *)
Lemma whole_segment w0 c q w3 : segment_at s w0 (c :: q) w3 -> ~ ascii_digit c ->
  exists tag, documented_tag (c :: q) tag /\ token_at l w0 (c :: q) tag w3.
Proof.
  intros Hs Nd. destruct (piece_token_at tg sz s ats l HW HC _ _ _ Hs) as (ps & (c' & w' & E & [(Hd & _)|(_ & tag & -> & HD)]) & HT).
  - injection E as <- <-. apply digit_iff in Hd. contradiction.
  - exists tag. split; [exact HD|]. specialize (HT [] _ tag [] eq_refl). simpl in HT. now rewrite app_nil_r in HT.
Qed.

Lemma token_segment b t tag a : token_at l b t tag a ->
  (exists c q, t = c :: q /\ segment_at s b t a /\ ~ ascii_digit c /\ documented_tag t tag)
  \/ (exists w0 x y w3, segment_at s w0 (x ++ t ++ y) w3 /\ starts_in (x ++ t ++ y) ascii_digit /\ b = w0 ++ x /\ a = y ++ w3
        /\ exists ps1 ps2, Forall good_piece (ps1 ++ (t, tag) :: ps2) /\ maximal (ps1 ++ (t, tag) :: ps2)
             /\ concat (map fst ps1) = x /\ concat (map fst ps2) = y).
Proof.
  intros H. destruct (token_at_piece tg sz s ats l HW HC _ _ _ _ H) as (w0 & w & w3 & ps1 & ps2 & Hs & (c & w' & Ew & [(Hd & G & M & E)|(Hd & tag' & E & HD)]) & -> & ->).
  - right. exists w0, (concat (map fst ps1)), (concat (map fst ps2)), w3.
    rewrite map_app, concat_app in E. cbn [map concat fst] in E. rewrite E. split; [exact Hs|]. split; [exists c, w'; split; [exact Ew|now apply digit_iff]|].
    split; [reflexivity|]. split; [reflexivity|]. exists ps1, ps2. auto.
  - left. destruct ps1 as [|p1 ps1]; [|injection E as -> E; destruct ps1; discriminate]. injection E as -> -> ->.
    cbn [map concat app]. rewrite app_nil_r. exists c, w'. split; [exact Ew|]. split; [exact Hs|]. split; [now apply digit_not|exact HD].
Qed.

Lemma not_digit_space c : white c -> ~ ascii_digit c.
Proof. unfold white. intros H C. chars. Qed.

Lemma spaces_iff b t a : token_at l b t SPACE a <-> b ++ t ++ a = s /\ space_piece b t a.
Proof.
  split.
  - intros H. destruct (token_segment _ _ _ _ H) as [(c & q & Et & Hs & _ & HD)|(w0 & x & y & w3 & _ & _ & _ & _ & ps1 & ps2 & G & _)].
    + split; [now apply segment_text|]. apply space_segment; [exact Hs|]. apply all_space_white; [eapply seg_ascii; eauto|]. apply HD. reflexivity.
    + apply Forall_app in G. destruct G as [_ G]. inversion G as [|? ? C _]. destruct C.
  - intros (ES & HP). pose proof (space_piece_segment _ _ _ ES HP) as Hs. destruct (space_piece_white _ _ _ HP) as (Nt & HF).
    destruct t as [|c q]; [easy|]. destruct (whole_segment _ _ _ _ Hs) as (tag & HD & HT); [apply not_digit_space; now inversion HF|].
    assert (tag = SPACE) as -> by (apply HD, all_space_white; [eapply seg_ascii; eauto|exact HF]). exact HT.
Qed.

Lemma number_of_token b t a : token_at l b t NATN a -> b ++ t ++ a = s /\ number_piece b t a.
Proof.
  intros H. destruct (token_segment _ _ _ _ H) as [(c & q & Et & Hs & _ & HD)|(w0 & x & y & w3 & Hs & _ & -> & -> & ps1 & ps2 & G & M & E1 & E2)].
  - exfalso. destruct HD as (_ & _ & _ & _ & C). now apply C.
  - pose proof (segment_text _ _ _ Hs) as ES. split; [rewrite <- ES, <- !app_assoc; reflexivity|]. clear ES.
    apply Forall_app in G. destruct G as [G1 G2]. inversion G2 as [|? ? Gt0 G3]; subst. unfold good_piece in Gt0. cbn [fst snd] in Gt0. destruct Gt0 as [Nt Ht].
    assert (Ht' : Forall ascii_digit t) by (eapply Forall_impl; [|exact Ht]; intros c; apply digit_iff).
    split; [exact Nt|]. split; [exact Ht'|]. split.
    + intros He. destruct ps1 as [|p1 ps1].
      * cbn [map concat app] in *. rewrite app_nil_r in He. destruct He as (p & c & -> & Hc). destruct t as [|d t]; [easy|].
        eapply (segment_start _ _ _ _ _ _ Hs eq_refl). unfold ub, alnum. inversion Ht'; subst. tauto.
      * assert (Np : p1 :: ps1 <> []) by discriminate. destruct (exists_last Np) as (ps & p & Ep). rewrite Ep in *. clear Ep Np p1 ps1.
        rewrite map_app, concat_app in He. cbn [map concat] in He. rewrite app_nil_r in He.
        apply Forall_app in G1. destruct G1 as [_ G1]. inversion G1 as [|? ? Gp _]; subst.
        assert (Np : fst p <> []) by now apply good_piece_class in Gp. rewrite app_assoc in He. apply ends_in_inv in He; [|exact Np].
        assert (Mp : snd p = NATN -> snd p = PUNC).
        { clear - M. rewrite <- app_assoc in M. cbn [app] in M. induction ps as [|q ps IH]; [now destruct M|]. apply IH. cbn [app] in M.
          destruct ps; [now destruct M|now destruct M]. }
        destruct p as [p pt]. cbn [fst] in He. destruct He as (p' & c & -> & Hc). apply digit_iff in Hc. unfold good_piece in Gp. cbn [fst snd] in *. destruct pt; try easy.
        -- now specialize (Mp eq_refl).
        -- destruct Gp as (e & Ee & He & _). apply (app_inj_tail _ []) in Ee. destruct Ee as [_ ->]. congruence.
        -- destruct Gp as [_ Gp]. apply Forall_app in Gp. destruct Gp as [_ Gp]. inversion Gp as [|? ? [C _] _]. congruence.
    + intros He. assert (M2 : maximal ((t, NATN) :: ps2)).
      { clear - M. induction ps1 as [|q ps IH]; [exact M|]. apply IH. cbn [app] in M. destruct ps; now destruct M. }
      assert (Gt : good_piece (t, NATN)) by (split; [exact Nt|exact Ht]).
      pose proof (piece_start _ _ Gt G3 M2 eq_refl) as PS.
      destruct (concat (map fst ps2)) as [|e r] eqn:Ep.
      * cbn [app] in *. rewrite app_nil_r in Hs. destruct He as (c & q & -> & Hc). destruct (exists_last Nt) as (t' & d & ->).
        rewrite app_assoc in Hs. eapply (segment_end _ _ _ _ _ _ Hs eq_refl). unfold ub, alnum. apply Forall_app in Ht'. destruct Ht' as [_ Ht'].
        inversion Ht'; subst. tauto.
      * apply PS. destruct He as (c & q & E & Hc). injection E as -> _. exists c, r. auto.
Qed.

Lemma token_of_number b t a : led s -> b ++ t ++ a = s -> number_piece b t a -> token_at l b t NATN a.
Proof.
  intros HL ES (Nt & Ht & N1 & N2).
  destruct (segment_of b t a ES Nt) as (w0 & x & y & w3 & Hs & -> & ->); [now apply number_unbroken|].
  destruct (piece_token_at tg sz s ats l HW HC _ _ _ Hs) as (ps & (c' & w' & E & [(Hd & G & M & EC)|(Hd & _)]) & HT).
  - destruct (locate_number t ps x y Nt Ht G M EC) as (ps1 & ps2 & -> & <- & <-).
    + intros C. apply N1. now apply ends_in_app.
    + intros C. apply N2. now apply starts_in_app.
    + now apply HT.
  - exfalso. destruct t as [|d t]; [easy|]. destruct (digit_led HL (length x) w0 x d (t ++ y) w3) as (d' & r & E' & Hd'); [lia|exact Hs|now inversion Ht|].
    rewrite E in Hs. cbn [app] in E. rewrite E' in E. injection E as -> ->. apply digit_iff in Hd'. congruence.
Qed.

Lemma word_like_dotted t : ascii t -> dotted t -> (word_like t <-> Forall word_char t).
Proof.
  intros Hat Ht. destruct (dotted_ends _ Ht) as [(d & t1 & -> & Hd) _]. unfold ascii in Hat. inversion Hat as [|? ? Hd' Hat']; subst. split.
  - intros (c & s' & E & Hc & HF). injection E as <- <-. constructor; [now left|]. rewrite !Forall_forall in *. intros x Hx.
    specialize (HF x Hx). specialize (Hat' x Hx). destruct HF as [Hl|Hl].
    + left. now apply (ascii_alphabetic colon AL).
    + simpl in Hl. destruct Hl as [<-|[<-|[<-|[]]]]; [now right| |lia].
      exfalso. clear - Ht Hx. assert (In 45%N (d :: t1)) by now right. clear Hx. induction Ht as [c H1|c t H1 _ IH|c m t H1 Hm _ IH].
      * destruct H as [->|[]]. chars.
      * destruct H as [->|H]; [chars|auto].
      * destruct H as [->|[->|H]]; [chars|chars|auto].
  - intros HF. exists d, t1. split; [reflexivity|]. split; [now apply (ascii_alphabetic colon AL)|]. inversion HF as [|? ? _ HF']; subst.
    rewrite !Forall_forall in *. intros x Hx. destruct (HF' x Hx) as [Hl|Hl]; [left; apply (ascii_alphabetic colon AL); auto|right; rewrite Hl; simpl; tauto].
Qed.

Lemma letter_not_white c : ascii_letter c -> ~ white c.
Proof. unfold white. intros H C. chars. Qed.

Lemma tag_letters t tag : ascii t -> dotted t -> documented_tag t tag ->
  (tag = WORD /\ Forall word_char t) \/ (tag = SYMB /\ ~ Forall word_char t).
Proof.
  intros Hat Ht (_ & _ & HWd & HSy & _). destruct (dotted_ends _ Ht) as [(d & t1 & E & Hd) _].
  assert (NS : ~ all_space t).
  { rewrite all_space_white by exact Hat. rewrite E. intros C. inversion C; subst. now apply letter_not_white in Hd. }
  assert (NP : ~ one_punctuation t).
  { rewrite E. intros (c & Ec & Hc). injection Ec as -> _. chars. }
  assert (D : Forall word_char t \/ ~ Forall word_char t).
  { clear. induction t as [|c t IH]; [left; constructor|].
    assert (K : word_char c \/ ~ word_char c) by (unfold word_char; destruct (letter_dec c), (N.eq_dec c 39); tauto).
    destruct K as [K|K]; [|right; intros C; now inversion C]. destruct IH as [H|H]; [left; now constructor|right; intros C; now inversion C]. }
  rewrite word_like_dotted in HWd, HSy by assumption. tauto.
Qed.

Lemma tag_single c tag : (c < 128)%N -> ~ white c -> ~ ascii_letter c -> documented_tag [c] tag ->
  (tag = PUNC /\ documented_punctuation c) \/ (tag = SYMB /\ ~ documented_punctuation c).
Proof.
  intros Hc Nw Nl (_ & HPu & _ & HSy & _).
  assert (Ha : ascii [c]) by (constructor; [exact Hc|constructor]).
  assert (NS : ~ all_space [c]) by (rewrite all_space_white by exact Ha; intros C; inversion C; contradiction).
  assert (NWd : ~ word_like [c]).
  { intros (x & q & E & Hx & _). injection E as <- _. apply Nl. now apply (ascii_alphabetic colon AL). }
  assert (EP : one_punctuation [c] <-> documented_punctuation c).
  { split; [intros (x & E & H); now injection E as <-|intros H; exists c; auto]. }
  rewrite EP in HPu, HSy. destruct (in_dec_char c [44; 46; 33; 59; 58; 63; 39; 34]%N) as [D|D]; unfold documented_punctuation in *; tauto.
Qed.

Lemma plain_iff b t tag a : plain_text s -> (token_at l b t tag a <-> b ++ t ++ a = s /\ lexeme b t tag a).
Proof.
  intros HP. pose proof HP as (_ & H5 & HP2). split.
  - intros H. destruct tag; [now apply number_of_token| | |now apply spaces_iff|].
    all: destruct (token_segment _ _ _ _ H) as [(c & q & Et & Hs & Nd & HD)|(w0 & x & y & w3 & Hs & Hst & -> & -> & ps1 & ps2 & G & M & E1 & E2)];
      [pose proof (seg_ascii _ _ _ Hs) as Hat; pose proof (segment_text _ _ _ Hs) as ES
      |pose proof (plain_digits _ _ _ HP Hs Hst) as HF; pose proof (segment_text _ _ _ Hs) as ES; pose proof (seg_ascii _ _ _ Hs) as Hat;
       apply Forall_app in G; destruct G as [G1 G2]; inversion G2 as [|? ? Gt _]; unfold good_piece in Gt; cbn [fst snd] in Gt].
    + split; [exact ES|]. assert (NS : ~ all_space t) by (destruct HD as (_ & HD & _); tauto).
      destruct HD as (_ & HD & _). destruct (proj1 HD eq_refl) as (_ & e & Ee & He). rewrite Ee in *. exists e. split; [reflexivity|]. split; [exact He|].
      intros (Hm & (p & z & -> & Hz) & Hy). eapply (segment_start _ _ _ _ _ _ Hs eq_refl). unfold ub. do 3 right. left. auto.
    + split; [rewrite <- ES, <- !app_assoc; reflexivity|]. destruct Gt as (e & -> & He & _). exists e. split; [reflexivity|].
      apply digit_not in He. assert (Me : mid_number e).
      { rewrite Forall_forall in HF. destruct (HF e) as [C|C]; [apply in_or_app; right; now left|contradiction|exact C]. }
      split; [chars|]. intros (_ & Hb & _). destruct x as [|z1 x].
      * destruct Hst as (d & r & Ed & Hd). injection Ed as -> _. contradiction.
      * apply ends_in_inv in Hb; [|discriminate]. destruct Hb as (p & z & Ez & Hz). rewrite Ez in HF. rewrite <- app_assoc in HF.
        apply Forall_app in HF. destruct HF as [_ HF]. inversion HF as [|? ? C _]; subst. chars.
    + split; [exact ES|]. subst t. destruct (letter_dec c) as [Hl|Nl].
      * assert (Ht : dotted (c :: q)) by (apply (plain_letters b (c :: q) a HP Hs); now apply starts_in_cons). left.
        split; [now apply segment_letters|]. destruct (tag_letters _ _ Hat Ht HD) as [[C _]|[_ N]]; [discriminate|exact N].
      * right. assert (Nw : ~ white c).
        { intros C. apply (white_led _ _ _ _ Hs) in C. destruct HD as (HD & _). assert (SYMB = SPACE) by (now apply HD, all_space_white). discriminate. }
        assert (N9 : c <> 95%N) by (intros ->; apply H5; rewrite <- ES; apply in_or_app; right; now left).
        assert (q = []) as -> by (eapply other_single; eauto). exists c. split; [reflexivity|].
        destruct (tag_single c SYMB) as [[C _]|[_ N]]; [now inversion Hat|exact Nw|exact Nl|exact HD|discriminate|]. auto.
    + easy.
    + split; [exact ES|]. subst t. destruct (letter_dec c) as [Hl|Nl].
      * assert (Ht : dotted (c :: q)) by (apply (plain_letters b (c :: q) a HP Hs); now apply starts_in_cons).
        split; [now apply segment_letters|]. destruct (tag_letters _ _ Hat Ht HD) as [[_ N]|[C _]]; [exact N|discriminate].
      * exfalso. destruct HD as (_ & _ & HD & _). destruct (proj1 HD eq_refl) as (_ & _ & e & r & E & He & _). injection E as <- _.
        apply Nl. apply (ascii_alphabetic colon AL); [now inversion Hat|exact He].
    + exfalso. destruct Gt as (Nt & Ht). clear ES. destruct t as [|e t]; [easy|]. inversion Ht as [|? ? [N1 N2] _]; subst.
      rewrite Forall_forall in HF. assert (In e (concat (map fst ps1) ++ (e :: t) ++ concat (map fst ps2))) as Hi by (apply in_or_app; right; now left).
      apply (ascii_alphabetic colon AL) in N2; [|eapply segment_ascii; eauto]. destruct (HF e Hi) as [C|C]; chars.
  - intros (ES & HX). destruct tag; cbn [lexeme] in HX.
    + apply token_of_number; [now apply plain_led|exact ES|exact HX].
    + destruct HX as (c & -> & Hc & Nc).
      assert (Ha : (c < 128)%N) by (chars). assert (Nl : ~ ascii_letter c) by (intros C; chars). assert (Nd : ~ ascii_digit c) by (intros C; chars).
      assert (Nw : ~ white c) by (unfold white; intros C; chars).
      destruct (segment_of b [c] a ES) as (w0 & x & y & w3 & Hs & -> & ->); [discriminate| |].
      { intros x y Hx Hy E. destruct x as [|? [|? x]]; [easy| |discriminate]. destruct y; [easy|discriminate]. }
      assert (N9 : c <> 95%N) by chars.
      destruct (piece_token_at tg sz s ats l HW HC _ _ _ Hs) as (ps & (c' & w' & E & [(Hd & G & M & EC)|(Hd & tag & -> & HD)]) & HT).
      * destruct (locate_sign c ps x y) as (ps1 & ps2 & -> & <- & <-); [now apply digit_not| |exact G|exact M|exact EC|now apply HT].
        destruct (u_alphabetic c) eqn:Eu; [|reflexivity]. apply (ascii_alphabetic colon AL) in Eu; [contradiction|exact Ha].
      * assert (x = [] /\ y = []) as [-> ->].
        { assert (Ex : x = []).
          - destruct x as [|x0 x]; [reflexivity|]. exfalso. assert (Nx : x0 :: x <> []) by discriminate. destruct (exists_last Nx) as (x' & e & Ee).
            injection E as -> E. clear E.
            assert (Ew : c' :: x ++ c :: y = x' ++ e :: c :: y) by (change (c' :: x ++ c :: y) with ((c' :: x) ++ c :: y); rewrite Ee, <- app_assoc; reflexivity).
            pose proof (segment_pair _ _ _ _ _ _ _ Hs Ew) as HU.
            assert (Nc' : ~ ascii_digit c') by now apply digit_not.
            destruct HU as [[-> ->]|[[-> ->]|[[_ [C|C]]|[(He & Hm & Hy)|[(_ & C & _)|[(_ & C & _)|[(He & Hm & Hy)|[(_ & C)|[_ [C|C]]]]]]]]]]; try tauto; try chars.
            + apply Nc. split; [exact Hm|]. split; [|exact Hy]. rewrite Ee. apply ends_in_app. now apply ends_in_last.
            + destruct (digit_led (plain_led HP) (length x') w0 x' e (c :: y) w3) as (d' & r & E' & Hd'); [lia| |exact He|].
              * rewrite <- Ew. exact Hs.
              * rewrite <- Ew in E'. injection E' as -> _. contradiction.
          - split; [exact Ex|]. subst x. cbn [app] in Hs. eapply other_single; eauto. }
        specialize (HT [] _ tag [] eq_refl). cbn [map concat app] in HT, HD. rewrite app_nil_r in HT.
        destruct (tag_single c tag Ha Nw Nl HD) as [[-> _]|[_ C]]; [|contradiction]. cbn [app]. rewrite app_nil_r. exact HT.
    + destruct HX as [(HL & NW)|(c & -> & Np & Nl & Nd & Nw)].
      * pose proof (letters_segment _ _ _ HP ES HL) as Hs. destruct HL as (Ht & _). destruct (dotted_ends _ Ht) as [(d & t1 & Et & Hd) _]. rewrite Et in *.
        destruct (whole_segment _ _ _ _ Hs) as (tag & HD & HT); [intros C; chars|].
        destruct (tag_letters _ _ (seg_ascii _ _ _ Hs) Ht HD) as [[_ C]|[-> _]]; [contradiction|exact HT].
      * assert (Ha : (c < 128)%N) by (unfold ascii in HA; rewrite Forall_forall in HA; apply HA; rewrite <- ES; apply in_or_app; right; now left).
        assert (N9 : c <> 95%N) by (intros ->; apply H5; rewrite <- ES; apply in_or_app; right; now left).
        assert (Nm : ~ mid_letter c /\ ~ mid_number c) by (split; intros C; apply Np; chars). destruct Nm as [Nm Nn].
        assert (N32 : c <> 32%N /\ c <> 13%N /\ c <> 10%N) by (repeat split; intros ->; apply Nw; unfold white; simpl; tauto).
        assert (Hs : segment_at s b [c] a).
        { apply (segment_iff SL AL); [exact HA|]. split; [exact ES|]. split; [discriminate|]. split; [|split].
          - apply not_unbroken_l. intros p e _ HU. unfold ub, alnum in HU. tauto.
          - apply not_unbroken_r. intros e q _ HU. unfold ub, alnum in HU. tauto.
          - intros x y Hx Hy E. destruct x as [|? [|? x]]; [easy| |discriminate]. destruct y; [easy|discriminate]. }
        destruct (whole_segment _ _ _ _ Hs Nd) as (tag & HD & HT).
        destruct (tag_single c tag Ha Nw Nl HD) as [[_ C]|[-> _]]; [contradiction|exact HT].
    + now apply spaces_iff.
    + destruct HX as (HL & HWd). pose proof (letters_segment _ _ _ HP ES HL) as Hs. destruct HL as (Ht & _). destruct (dotted_ends _ Ht) as [(d & t1 & Et & Hd) _]. rewrite Et in *.
      destruct (whole_segment _ _ _ _ Hs) as (tag & HD & HT); [intros C; chars|].
      destruct (tag_letters _ _ (seg_ascii _ _ _ Hs) Ht HD) as [[-> _]|[_ C]]; [exact HT|contradiction].
Qed.

(** ** Hyphens and final apostrophes *)

Lemma hyphen_alone b t tag a : token_at l b t tag a -> In 45%N t -> t = [45%N] /\ tag = SYMB.
Proof.
  intros H Hi.
  assert (K : forall w0 w w3, segment_at s w0 w w3 -> In 45%N w -> w = [45%N]).
  { intros w0 w w3 Hs Hw. apply in_split in Hw. destruct Hw as (p & q & ->).
    assert (p = []) as ->.
    { destruct p as [|p0 p]; [reflexivity|]. exfalso. assert (Np : p0 :: p <> []) by discriminate. destruct (exists_last Np) as (p' & e & Ee). rewrite Ee in Hs.
      rewrite <- app_assoc in Hs. pose proof (segment_pair _ _ _ _ _ _ _ Hs eq_refl) as HU. unfold ub in HU. clear - HU. chars. }
    destruct q as [|e q]; [reflexivity|]. exfalso. pose proof (segment_pair _ _ _ [] _ _ _ Hs eq_refl) as HU. unfold ub in HU. clear - HU. chars. }
  destruct (token_segment _ _ _ _ H) as [(c & q & Et & Hs & _ & HD)|(w0 & x & y & w3 & Hs & (d & r & Ed & Hd) & _)].
  - pose proof (K _ _ _ Hs Hi) as E. split; [exact E|]. rewrite E in HD. destruct (tag_single 45%N tag) as [[_ C]|[-> _]]; auto; [lia| | |].
    + unfold white. intros C. chars.
    + intros C. chars.
    + exfalso. clear - C. chars.
  - exfalso. assert (E : x ++ t ++ y = [45%N]) by (eapply K; [exact Hs|]; apply in_or_app; right; apply in_or_app; now left).
    rewrite E in Ed. injection Ed as <- _. chars.
Qed.

Lemma apostrophe_alone b t tag a : token_at l b t tag a -> ends_in t (is 39%N) -> t = [39%N] /\ tag = PUNC.
Proof.
  intros H (t' & c & -> & <-).
  destruct (token_segment _ _ _ _ H) as [(c & q & Et & Hs & _ & HD)|(w0 & x & y & w3 & Hs & _ & _ & _ & ps1 & ps2 & G & _)].
  - assert (t' = []) as ->.
    { destruct t' as [|p0 p]; [reflexivity|]. exfalso. assert (Np : p0 :: p <> []) by discriminate. destruct (exists_last Np) as (p' & e & Ee). rewrite Ee in Hs.
      assert (Ew : (p' ++ [e]) ++ [39%N] = p' ++ e :: 39%N :: []) by now rewrite <- app_assoc.
      pose proof (segment_pair _ _ _ _ _ _ _ Hs Ew) as HU. cbn [app] in HU.
      assert (EN : forall d r, a = d :: r -> ~ ub (b ++ p' ++ [e]) 39%N d r) by (intros d r E; eapply segment_end; eauto).
      destruct HU as [[_ C]|[[_ C]|[[_ [C|C]]|[(He & Hm & d & r & Ea & Hy)|[(_ & C & _)|[(_ & C & _)|[(He & Hm & d & r & Ea & Hy)|[(_ & C)|[_ [C|C]]]]]]]]]]; try discriminate; try (clear - C; chars).
      - apply (EN _ _ Ea). unfold ub. do 4 right. left. split; [clear; chars|]. split; [exact Hy|]. rewrite app_assoc. now apply ends_in_last.
      - apply (EN _ _ Ea). unfold ub. do 5 right. left. split; [clear; chars|]. split; [exact Hy|]. rewrite app_assoc. now apply ends_in_last. }
    split; [reflexivity|]. cbn [app] in HD. destruct (tag_single 39%N tag) as [[-> _]|[_ C]]; auto; [lia| | |].
    + unfold white. intros C. chars.
    + intros C. chars.
    + exfalso. apply C. clear. chars.
  - apply Forall_app in G. destruct G as [_ G]. inversion G as [|? ? Gt _]; subst. unfold good_piece in Gt. cbn [fst snd] in Gt. destruct tag; try easy.
    + destruct Gt as [_ Gt]. apply Forall_app in Gt. destruct Gt as [_ Gt]. inversion Gt as [|? ? C _]. discriminate C.
    + destruct Gt as (e & Ee & _). apply (app_inj_tail _ []) in Ee. destruct Ee as [-> _]. auto.
    + destruct Gt as [_ Gt]. apply Forall_app in Gt. destruct Gt as [_ Gt]. inversion Gt as [|? ? [_ C] _]. apply (ascii_alphabetic colon AL) in C; [|lia]. chars.
Qed.

(** ** All tokens *)

Local Notation any_lexeme := (any_lexeme colon).
Local Notation chunk := (chunk colon).

Lemma segment_chunk b t a : b ++ t ++ a = s -> (segment_at s b t a <-> chunk b t a).
Proof.
  intros ES. rewrite (segment_iff SL AL s b t a HA). unfold chunk. rewrite !may_cut_iff. tauto.
Qed.

Lemma hyphen_segment w0 w w3 : segment_at s w0 w w3 -> In 45%N w -> w = [45%N].
Proof.
  intros Hs Hw. apply in_split in Hw. destruct Hw as (p & q & ->).
  assert (p = []) as ->.
  { destruct p as [|p0 p]; [reflexivity|]. exfalso. assert (Np : p0 :: p <> []) by discriminate. destruct (exists_last Np) as (p' & e & Ee). rewrite Ee in Hs.
    rewrite <- app_assoc in Hs. pose proof (segment_pair _ _ _ _ _ _ _ Hs eq_refl) as HU. unfold ub in HU. clear - HU. chars. }
  destruct q as [|e q]; [reflexivity|]. exfalso. pose proof (segment_pair _ _ _ [] _ _ _ Hs eq_refl) as HU. unfold ub in HU. clear - HU. chars.
Qed.

Lemma whole_chunk_iff w0 t w3 tag : segment_at s w0 t w3 -> t <> [] -> (documented_tag t tag <-> whole_chunk t tag).
Proof.
  intros Hs Nt. pose proof (seg_ascii _ _ _ Hs) as Hat.
  assert (E1 : all_space t <-> Forall white t) by now apply all_space_white.
  assert (E2 : word_like t <-> starts_in t ascii_letter /\ Forall word_char t).
  { destruct t as [|d t1]; [easy|]. unfold ascii in Hat. inversion Hat as [|? ? Hd' Hat']; subst. rewrite starts_in_cons. split.
    - intros (c & s' & E & Hc & HF). injection E as <- <-. apply (ascii_alphabetic colon AL) in Hc; [|exact Hd']. split; [exact Hc|].
      constructor; [now left|]. rewrite !Forall_forall in *. intros x Hx. specialize (HF x Hx). specialize (Hat' x Hx). destruct HF as [Hl|Hl].
      + left. now apply (ascii_alphabetic colon AL).
      + simpl in Hl. destruct Hl as [<-|[<-|[<-|[]]]]; [now right| |lia].
        pose proof (hyphen_segment _ _ _ Hs (or_intror Hx)) as E. injection E as -> _. chars.
    - intros (Hd & HF). exists d, t1. split; [reflexivity|]. split; [now apply (ascii_alphabetic colon AL)|]. inversion HF as [|? ? _ HF']; subst.
      rewrite !Forall_forall in *. intros x Hx. destruct (HF' x Hx) as [Hl|Hl]; [left; apply (ascii_alphabetic colon AL); auto|right; rewrite Hl; simpl; tauto]. }
  assert (X1 : Forall white t -> ~ one_punctuation t).
  { intros HF (c & -> & Hc). inversion HF as [|? ? C _]; subst. unfold white in C. chars. }
  assert (X2 : Forall white t -> ~ (starts_in t ascii_letter /\ Forall word_char t)).
  { intros HF ((c & q & -> & Hc) & _). inversion HF as [|? ? C _]; subst. unfold white in C. chars. }
  assert (X3 : one_punctuation t -> ~ (starts_in t ascii_letter /\ Forall word_char t)).
  { intros (c & -> & Hc) (H & _). rewrite starts_in_cons in H. chars. }
  unfold documented_tag. rewrite E1, E2. change (exists c, t = [c] /\ documented_punctuation c) with (one_punctuation t).
  unfold whole_chunk. fold (one_punctuation t). destruct tag; intuition congruence.
Qed.

(** runs of one class of characters among the pieces *)
Section Runs.
Context (P : char -> Prop) (tag : TextTag) (NP : tag <> PUNC)
  (HP : forall p c, good_piece p -> In c (fst p) -> P c -> snd p = tag)
  (HF : forall p, good_piece p -> snd p = tag -> Forall P (fst p)).

Lemma good_nonempty p : good_piece p -> fst p <> [].
Proof. intros G. now apply good_piece_class in G. Qed.

Lemma maximal_at ps1 p q ps2 : maximal (ps1 ++ p :: q :: ps2) -> snd p = snd q -> snd p = PUNC.
Proof.
  induction ps1 as [|r ps1 IH]; intros M; [now destruct M|]. apply IH. cbn [app] in M. destruct ps1; now destruct M.
Qed.

Lemma run_before ps1 p ps2 : Forall good_piece (ps1 ++ p :: ps2) -> maximal (ps1 ++ p :: ps2) -> snd p = tag -> ~ ends_in (concat (map fst ps1)) P.
Proof.
  intros G M Et He. destruct ps1 as [|q0 ps1]; [now apply ends_in_nil in He|].
  assert (Np : q0 :: ps1 <> []) by discriminate. destruct (exists_last Np) as (ps & q & Eq). rewrite Eq in *. clear Np Eq q0 ps1.
  rewrite map_app, concat_app in He. cbn [map concat] in He. rewrite app_nil_r in He.
  rewrite <- app_assoc in G, M. cbn [app] in G, M. apply Forall_app in G. destruct G as [_ G]. inversion G as [|? ? Gq _]; subst.
  apply ends_in_inv in He; [|now apply good_nonempty]. destruct He as (x & c & Ex & Hc).
  assert (snd q = snd p) by (apply (HP q c Gq); [rewrite Ex; apply in_or_app; right; now left|exact Hc]).
  apply NP. rewrite <- H. now apply (maximal_at _ _ _ _ M).
Qed.

Lemma run_after ps1 p ps2 : Forall good_piece (ps1 ++ p :: ps2) -> maximal (ps1 ++ p :: ps2) -> snd p = tag -> ~ starts_in (concat (map fst ps2)) P.
Proof.
  intros G M Et (c & y & E & Hc). destruct ps2 as [|q ps2]; [discriminate|]. apply Forall_app in G. destruct G as [_ G].
  inversion G as [|? ? Gp G']; subst. inversion G' as [|? ? Gq _]; subst. pose proof (good_nonempty _ Gq) as Nq.
  assert (snd q = snd p).
  { apply (HP q c Gq); [|exact Hc]. cbn [map concat] in E. destruct (fst q) as [|d r]; [easy|]. injection E as -> _. now left. }
  apply NP. apply (maximal_at _ _ _ _ M). congruence.
Qed.

Lemma runs_eq (f : str) : forall t r y, Forall P f -> Forall P t -> f ++ r = t ++ y -> ~ starts_in r P -> ~ starts_in y P -> f = t.
Proof.
  induction f as [|c f IH]; intros [|d t] r y Hf Ht E Nr Ny.
  - reflexivity.
  - exfalso. apply Nr. simpl in E. subst r. apply starts_in_cons. now inversion Ht.
  - exfalso. apply Ny. simpl in E. subst y. apply starts_in_cons. now inversion Hf.
  - injection E as -> E. f_equal. inversion Hf; inversion Ht; subst. eapply IH; eauto.
Qed.

Lemma locate_run t ps x y : t <> [] -> Forall P t -> Forall good_piece ps -> maximal ps -> concat (map fst ps) = x ++ t ++ y ->
  ~ ends_in x P -> ~ starts_in y P ->
  exists ps1 ps2, ps = ps1 ++ (t, tag) :: ps2 /\ concat (map fst ps1) = x /\ concat (map fst ps2) = y.
Proof.
  intros Nt Ht G M E Nx Ny.
  assert (K : exists ps1 p ps2, ps = ps1 ++ p :: ps2 /\ concat (map fst ps1) = x /\ fst p ++ concat (map fst ps2) = t ++ y).
  { destruct (concat_cut (map fst ps) _ _ E) as [(ws1 & ws2 & E1 & E2 & E3)|(ws1 & w1 & w2 & ws2 & E1 & N1 & N2 & Ex & Et)].
    - apply map_eq_app in E1. destruct E1 as (ps1 & ps2 & -> & <- & <-). destruct ps2 as [|p ps2]; [destruct t; [easy|discriminate]|].
      exists ps1, p, ps2. auto.
    - exfalso. apply map_eq_app in E1. destruct E1 as (ps1 & ps' & -> & <- & E1). apply map_eq_cons in E1. destruct E1 as (p & ps2 & -> & Ep & <-).
      apply Forall_app in G. destruct G as [_ G]. inversion G as [|? ? Gp _]; subst.
      destruct w2 as [|d w2]; [easy|]. destruct t as [|d' t]; [easy|]. injection Et as -> _. inversion Ht as [|? ? Hd _]; subst.
      assert (Ept : snd p = tag) by (apply (HP p d Gp); [rewrite Ep; apply in_or_app; right; now left|exact Hd]).
      pose proof (HF p Gp Ept) as Fp. rewrite Ep in Fp. apply Forall_app in Fp. destruct Fp as [Fp _].
      destruct (exists_last N1) as (w' & c & ->). apply Nx. rewrite app_assoc. apply ends_in_last. apply Forall_app in Fp. destruct Fp as [_ Fp]. now inversion Fp. }
  destruct K as (ps1 & p & ps2 & -> & <- & E2).
  assert (Gp : good_piece p) by (apply Forall_app in G; destruct G as [_ G]; now inversion G).
  assert (Ept : snd p = tag).
  { pose proof (good_nonempty _ Gp) as Nf. destruct t as [|d t]; [easy|]. apply (HP p d Gp); [|now inversion Ht].
    destruct (fst p) as [|e f]; [easy|]. injection E2 as -> _. now left. }
  assert (Ef : fst p = t) by (eapply runs_eq; [apply (HF p Gp Ept)|exact Ht|exact E2|now apply (run_after ps1 p ps2)|exact Ny]).
  exists ps1, ps2. split; [|split; [reflexivity|]].
  - destruct p as [f ft]. cbn [fst snd] in *. now subst.
  - rewrite Ef in E2. now apply app_inv_head in E2.
Qed.
End Runs.

Lemma good_digits p : good_piece p -> snd p = NATN -> Forall ascii_digit (fst p).
Proof. intros G E. unfold good_piece in G. rewrite E in G. destruct G as [_ G]. eapply Forall_impl; [|exact G]. intros c. apply digit_iff. Qed.
Lemma digit_good p c : good_piece p -> In c (fst p) -> ascii_digit c -> snd p = NATN.
Proof.
  intros G Hc Hd. apply digit_iff in Hd. unfold good_piece in G. destruct (snd p); try easy.
  - destruct G as (e & E & C & _). rewrite E in Hc. destruct Hc as [->|[]]. congruence.
  - destruct G as [_ G]. rewrite Forall_forall in G. destruct (G c Hc). congruence.
Qed.

(** letters of the text *)
Definition known_letter (c : char) : Prop := decimal_digit c = false /\ u_alphabetic c = true.
Lemma known_letter_iff c : (c < 128)%N -> (known_letter c <-> ascii_letter c).
Proof.
  intros Hc. unfold known_letter. rewrite (ascii_alphabetic colon AL c Hc), digit_not. split; [tauto|]. intros H. split; [intros C; chars|exact H].
Qed.
Lemma good_letters p : good_piece p -> snd p = WORD -> Forall known_letter (fst p).
Proof. intros G E. unfold good_piece in G. rewrite E in G. apply G. Qed.
Lemma letter_good p c : good_piece p -> In c (fst p) -> known_letter c -> snd p = WORD.
Proof.
  intros G Hc [Hd Hl]. unfold good_piece in G. destruct (snd p); try easy.
  - destruct G as [_ G]. rewrite Forall_forall in G. specialize (G c Hc). congruence.
  - destruct G as (e & E & _ & C). rewrite E in Hc. destruct Hc as [->|[]]. congruence.
Qed.

Lemma known_ends x : ascii x -> (ends_in x known_letter <-> ends_in x ascii_letter).
Proof.
  intros Hx. split; intros (p & c & -> & Hc); exists p, c; split; auto; apply known_letter_iff; auto; unfold ascii in Hx; apply Forall_app in Hx; destruct Hx as [_ Hx]; now inversion Hx.
Qed.
Lemma known_starts x : ascii x -> (starts_in x known_letter <-> starts_in x ascii_letter).
Proof.
  intros Hx. split; intros (c & p & -> & Hc); exists c, p; split; auto; apply known_letter_iff; auto; unfold ascii in Hx; now inversion Hx.
Qed.
Lemma known_all x : ascii x -> (Forall known_letter x <-> Forall ascii_letter x).
Proof. intros Hx. unfold ascii in Hx. rewrite !Forall_forall in *. split; intros H c Hc; apply known_letter_iff; auto. Qed.

Lemma all_iff b t tag a : token_at l b t tag a <-> b ++ t ++ a = s /\ any_lexeme b t tag a.
Proof.
  split.
  - intros H. destruct (token_segment _ _ _ _ H) as [(c & q & Et & Hs & Nd & HD)|(w0 & x & y & w3 & Hs & Hd & -> & -> & ps1 & ps2 & G & M & E1 & E2)].
    + pose proof (segment_text _ _ _ Hs) as ES. split; [exact ES|]. exists b, [], [], a. cbn [app]. rewrite !app_nil_r. split; [reflexivity|]. split; [reflexivity|].
      split; [now apply segment_chunk|]. right. split; [rewrite Et; now rewrite starts_in_cons|]. split; [reflexivity|]. split; [reflexivity|].
      apply (whole_chunk_iff _ _ _ _ Hs); [now rewrite Et|exact HD].
    + pose proof (segment_text _ _ _ Hs) as ES. split; [rewrite <- ES, <- !app_assoc; reflexivity|]. exists w0, x, y, w3. split; [reflexivity|]. split; [reflexivity|].
      split; [now apply segment_chunk|]. left. split; [exact Hd|].
      pose proof (seg_ascii _ _ _ Hs) as Hat. apply ascii_app in Hat. destruct Hat as [Hx Hat]. apply ascii_app in Hat. destruct Hat as [Ht Hy].
      assert (Gt : good_piece (t, tag)) by (apply Forall_app in G; destruct G as [_ G]; now inversion G).
      pose proof Gt as Gt'. unfold good_piece in Gt'. cbn [fst snd] in Gt'. destruct tag; try easy; cbn [part_of_number].
      * split; [apply Gt'|]. split; [now apply (good_digits _ Gt)|]. rewrite <- E1, <- E2. split.
        -- apply (run_before ascii_digit NATN ltac:(discriminate) digit_good good_digits _ _ _ G M eq_refl).
        -- apply (run_after ascii_digit NATN ltac:(discriminate) digit_good good_digits _ _ _ G M eq_refl).
      * destruct Gt' as (c & -> & H1 & H2). exists c. split; [reflexivity|]. split; [now apply digit_not|].
        inversion Ht; subst. rewrite <- (ascii_alphabetic colon AL) by assumption. congruence.
      * split; [apply Gt'|]. rewrite <- known_all, <- known_ends, <- known_starts by assumption. split; [now apply (good_letters _ Gt)|]. rewrite <- E1, <- E2. split.
        -- apply (run_before known_letter WORD ltac:(discriminate) letter_good good_letters _ _ _ G M eq_refl).
        -- apply (run_after known_letter WORD ltac:(discriminate) letter_good good_letters _ _ _ G M eq_refl).
  - intros (ES & w0 & x & y & w3 & -> & -> & HCh & HK).
    assert (Hs : segment_at s w0 (x ++ t ++ y) w3) by (apply segment_chunk; [rewrite <- ES, <- !app_assoc; reflexivity|exact HCh]).
    destruct HK as [(Hd & HK)|(Nd & -> & -> & HK)].
    + pose proof (seg_ascii _ _ _ Hs) as Hat. apply ascii_app in Hat. destruct Hat as [Hx Hat]. apply ascii_app in Hat. destruct Hat as [Ht Hy].
      destruct (piece_token_at tg sz s ats l HW HC _ _ _ Hs) as (ps & (c' & w' & E & [(_ & G & M & EC)|(Hd' & _)]) & HT).
      2:{ exfalso. rewrite E, starts_in_cons in Hd. apply digit_iff in Hd. congruence. }
      assert (K : exists ps1 ps2, ps = ps1 ++ (t, tag) :: ps2 /\ concat (map fst ps1) = x /\ concat (map fst ps2) = y).
      { destruct tag; try easy; cbn [part_of_number] in HK.
        - destruct HK as (Nt & Hn & N1 & N2). now apply (locate_run ascii_digit NATN ltac:(discriminate) digit_good good_digits).
        - destruct HK as (c & -> & H1 & H2). apply locate_sign; auto; [now apply digit_not|]. inversion Ht; subst.
          destruct (u_alphabetic c) eqn:Ea; [|reflexivity]. exfalso. apply H2. now apply (ascii_alphabetic colon AL).
        - destruct HK as (Nt & Hn & N1 & N2). apply (locate_run known_letter WORD ltac:(discriminate) letter_good good_letters); auto.
          + now apply known_all. + now rewrite known_ends. + now rewrite known_starts. }
      destruct K as (ps1 & ps2 & -> & <- & <-). now apply HT.
    + cbn [app] in *. rewrite !app_nil_r in *. assert (Nt : t <> []) by apply HCh. destruct t as [|c q]; [easy|]. rewrite starts_in_cons in Nd.
      destruct (whole_segment _ _ _ _ Hs Nd) as (tag' & HD & HT). apply (whole_chunk_iff _ _ _ _ Hs Nt) in HD.
      assert (tag' = tag) as <-; [|exact HT].
      apply (whole_chunk_iff _ _ _ _ Hs Nt) in HD, HK. unfold documented_tag in HD, HK. destruct tag, tag'; try reflexivity; exfalso; intuition congruence.
Qed.

(** ** Written numbers *)

Inductive numeral : str -> Prop :=
| N_one d : ascii_digit d -> numeral [d]
| N_digit d t : ascii_digit d -> numeral t -> numeral (d :: t)
| N_mid d m t : ascii_digit d -> mid_number m -> numeral t -> numeral (d :: m :: t).

Lemma numeral_ends t : numeral t -> starts_in t ascii_digit /\ ends_in t ascii_digit.
Proof.
  induction 1 as [c H|c t H _ IH|c m t H Hm _ IH].
  - split; [now exists c, []|now exists [], c].
  - split; [now exists c, t|apply (ends_in_app [c]), IH].
  - split; [now exists c, (m :: t)|apply (ends_in_app [c; m]), IH].
Qed.

Lemma numeral_unbroken t : numeral t -> forall b a x y, x <> [] -> y <> [] -> t = x ++ y -> unbroken (b ++ x) (y ++ a).
Proof.
  induction 1 as [c H|c t H Ht IH|c m t H Hm Ht IH]; intros b a x y Hx Hy E.
  - destruct x as [|? [|? x]]; [easy| |discriminate]. destruct y; [easy|discriminate].
  - destruct x as [|e x]; [easy|]. injection E as <- E. destruct x as [|e x].
    + simpl in E. subst y. destruct (numeral_ends _ Ht) as [(d & t' & -> & Hd) _]. cbn [app]. now apply WB8.
    + replace (b ++ c :: e :: x) with ((b ++ [c]) ++ e :: x) by now rewrite <- app_assoc. apply IH; [discriminate|exact Hy|exact E].
  - destruct x as [|e x]; [easy|]. injection E as <- E. destruct (numeral_ends _ Ht) as [(d & t' & Et & Hd) _]. destruct x as [|e x].
    + simpl in E. subst y t. cbn [app]. now apply WB12.
    + injection E as <- E. destruct x as [|e x].
      * simpl in E. subst y t. cbn [app]. now apply WB11.
      * replace (b ++ c :: m :: e :: x) with ((b ++ [c; m]) ++ e :: x) by now rewrite <- app_assoc. apply IH; [discriminate|exact Hy|exact E].
Qed.

Lemma digits_numeral g : all_digits g -> numeral g.
Proof.
  intros [N H]. induction H as [|c g Hc H IH]; [easy|]. apply digit_iff in Hc. destruct g as [|d g]; [now constructor|].
  apply N_digit; [exact Hc|]. apply IH. discriminate.
Qed.

Lemma digits_sign_numeral g m t : all_digits g -> mid_number m -> numeral t -> numeral (g ++ m :: t).
Proof.
  intros [N H] Hm Ht. induction H as [|c g Hc H IH]; [easy|]. apply digit_iff in Hc. destruct g as [|d g].
  - now apply N_mid.
  - cbn [app]. apply N_digit; [exact Hc|]. apply IH. discriminate.
Qed.

Lemma written_numeral r w : well_written r w -> Forall mid_number (signs r) -> numeral (concat (parts_of r w)).
Proof.
  intros (D1 & D2 & D3) HS. rewrite Forall_forall in HS. unfold parts_of. destruct w as [g gs f]. cbn [first_group more_groups fraction] in *.
  revert g D1. induction D2 as [|[c g'] gs [Hc Hg] _ IH]; intros g D1.
  - cbn [flat_map app concat]. destruct f as [f|].
    + destruct D3 as [D3 _]. cbn [concat app]. rewrite app_nil_r. apply digits_sign_numeral; [exact D1|apply HS; now left|now apply digits_numeral].
    + cbn [concat]. rewrite app_nil_r. now apply digits_numeral.
  - cbn [flat_map app concat fst snd]. cbn [fst] in Hc. apply digits_sign_numeral; [exact D1|apply HS; now right|]. apply (IH g' Hg).
Qed.


Lemma numeral_segment b t a : b ++ t ++ a = s -> numeral t -> blank_before b -> blank_after a -> segment_at s b t a.
Proof.
  intros ES Ht Hb Ha. destruct (numeral_ends _ Ht) as [(d & t1 & E1 & Hd) (t2 & c & E2 & Hc)].
  apply (segment_iff SL AL); [exact HA|]. split; [exact ES|]. split; [now rewrite E1|]. split; [|split].
  - rewrite E1. apply not_unbroken_l. intros p e -> HU. destruct Hb as [C|Hb]; [now apply app_eq_nil in C|].
    apply (proj1 (ends_in_last _ _ _)) in Hb. apply ub_white_l in HU; [|exact Hb]. clear - HU Hd. chars.
  - rewrite E2, app_assoc. apply not_unbroken_r. intros e q -> HU. destruct Ha as [C|Ha]; [discriminate|].
    apply (proj1 (starts_in_cons _ _ _)) in Ha. apply ub_white_r in HU; [|exact Ha]. clear - HU Hc. chars.
  - now apply numeral_unbroken.
Qed.

Lemma piece_nonempty w ps p : segment_cut w ps -> In p ps -> fst p <> [].
Proof.
  intros (c & w' & -> & [(_ & G & _)|(_ & tag & -> & _)]) Hp.
  - rewrite Forall_forall in G. now apply (good_piece_class p (G p Hp)).
  - destruct Hp as [<-|[]]. discriminate.
Qed.

Lemma pieces_nonempty ws pss p : Forall2 segment_cut ws pss -> In p (concat pss) -> fst p <> [].
Proof.
  induction 1 as [|w ps ws pss H _ IH]; intros Hp; [destruct Hp|]. cbn [concat] in Hp. apply in_app_or in Hp. destruct Hp as [Hp|Hp]; [|auto].
  eapply piece_nonempty; eauto.
Qed.

Lemma written_read parse r id l' w b a :
  b ++ concat (parts_of r w) ++ a = s -> well_written r w -> Forall mid_number (signs r) -> blank_before b -> blank_after a ->
  (forall t, In t [TTextTag; TChar; TAmount] -> none_of t [InText s ats]) ->
  run id l (amount_go parse r) = Ok l' ->
  exists rows d k, query l' TAmount = Ok rows
    /\ In ((k, k + length (parts_of r w) - 1), concat (parts_of r w), [d]) rows /\ parse (denoted w) = Some d
    /\ concat (firstn k (token_texts l)) = b.
Proof.
  intros ES HWr HS Hb Ha HNo HR.
  assert (HS' : forall c, In c (signs r) -> mid_number c) by now apply Forall_forall.
  assert (HD : no_digit_signs r).
  { apply Forall_forall. intros c Hc. apply digit_not. intros C. apply HS' in Hc. chars. }
  assert (HAl : Forall (fun c => u_alphabetic c = false) (signs r)).
  { apply Forall_forall. intros c Hc. apply HS' in Hc. destruct (u_alphabetic c) eqn:E; [|reflexivity]. apply (ascii_alphabetic colon AL) in E; chars. }
  assert (HW' : Forall wf_input [InText s ats]) by (constructor; [exact HW|constructor]).
  pose proof (written_numeral r w HWr HS) as HNu. pose proof (numeral_segment _ _ _ ES HNu Hb Ha) as Hs.
  destruct Hs as (ws1 & ws2 & EW & E1 & E2). destruct (line_pieces tg sz s ats l HW HC) as (pss & HP & ET). rewrite EW in HP.
  apply Forall2_app_inv_l in HP. destruct HP as (pa & pb & Pa & Pb & ->). inversion Pb as [|? ps ? pb' Hps Pb']; subst ws2 x pb. clear Pb.
  destruct (parts_atoms r w HWr HD HAl) as (P1 & P2).
  assert (EP : map fst ps = parts_of r w).
  { apply segment_texts; auto. left. exists (first_group w), (flat_map (fun p => [[fst p]; snd p]) (more_groups w)
      ++ match fraction w with Some f => [[decimal r]; f] | None => [] end). split; [reflexivity|apply HWr]. }
  rewrite concat_app in ET. cbn [concat] in ET. set (A := concat pa) in *. set (B := concat pb') in *.
  assert (EA : concat (map fst A) = b) by (unfold A; now rewrite (segments_pieces _ _ Pa)).
  assert (EB : concat (map fst B) = a) by (unfold B; now rewrite (segments_pieces _ _ Pb')).
  assert (NA : forall p, In p A -> fst p <> []) by (intros p; now apply (pieces_nonempty ws1)).
  assert (NB : forall p, In p B -> fst p <> []) by (intros p; eapply pieces_nonempty; eauto).
  assert (HTok : forall i t, text_at (ll_tokens l) i t -> exists tag, nth_error (A ++ ps ++ B) i = Some (t, tag)).
  { intros i t (tok & tag & Hn & Ht). apply (f_equal (fun x => nth_error x i)) in ET. rewrite !nth_error_map, Hn in ET. cbn [option_map] in ET.
    destruct (nth_error (A ++ ps ++ B) i) as [[t' tag']|]; [|discriminate]. cbn [option_map fst snd] in ET. rewrite Ht in ET. injection ET as -> ->. now exists tag'. }
  assert (HTok' : forall i t tag, nth_error (A ++ ps ++ B) i = Some (t, tag) -> text_at (ll_tokens l) i t).
  { intros i t tag Hn. apply (f_equal (fun x => nth_error x i)) in ET. rewrite !nth_error_map, Hn in ET. cbn [option_map fst snd] in ET.
    destruct (nth_error (ll_tokens l) i) as [tok|] eqn:En; [|discriminate]. injection ET as ET. exists tok, tag. auto. }
  assert (HLp : length ps = length (parts_of r w)) by (rewrite <- EP; now rewrite map_length).
  assert (HLast : forall j t, length A = j + 1 -> text_at (ll_tokens l) j t -> ends_in t white).
  { intros j t EL Hj. destruct (HTok _ _ Hj) as (tag & Hn). destruct A as [|p0 A0] eqn:EA0; [simpl in EL; lia|].
    assert (NN : p0 :: A0 <> []) by discriminate. destruct (exists_last NN) as (A1 & p & Ep). rewrite Ep in *.
    rewrite app_length in EL. simpl in EL. rewrite nth_error_app1 in Hn by (rewrite app_length; simpl; lia).
    rewrite nth_error_app2 in Hn by lia. replace (j - length A1) with 0 in Hn by lia. injection Hn as ->.
    rewrite map_app, concat_app in EA. cbn [map concat fst] in EA. rewrite app_nil_r in EA.
    assert (Nt : t <> []) by (apply (NA (t, tag)); apply in_or_app; right; now left).
    destruct Hb as [C|Hb]; [rewrite C in EA; apply app_eq_nil in EA; tauto|]. rewrite <- EA in Hb. now apply ends_in_inv in Hb. }
  assert (HFirst : forall j t, j = length A + length ps -> text_at (ll_tokens l) j t -> starts_in t white).
  { intros j t -> Hj. destruct (HTok _ _ Hj) as (tag & Hn). rewrite nth_error_app2 in Hn by lia. rewrite nth_error_app2 in Hn by lia.
    replace (length A + length ps - length A - length ps) with 0 in Hn by lia. destruct B as [|p B0]; [discriminate|]. injection Hn as ->.
    cbn [map concat fst] in EB. assert (Nt : t <> []) by (apply (NB (t, tag)); now left). destruct t as [|c t]; [easy|].
    destruct Ha as [C|Ha]; [rewrite C in EB; discriminate|]. rewrite <- EB in Ha. cbn [app] in Ha. apply (proj1 (starts_in_cons _ _ _)) in Ha. now apply starts_in_cons. }
  assert (HDg : forall t, all_digits t -> ~ starts_in t white /\ ~ ends_in t white).
  { intros t [Nt Ht]. rewrite Forall_forall in Ht. split.
    - intros (c & t' & -> & Hc). apply not_digit_space in Hc. apply Hc, digit_iff, Ht. now left.
    - intros (t' & c & -> & Hc). apply not_digit_space in Hc. apply Hc, digit_iff, Ht, in_or_app. right. now left. }
  assert (HSg : forall c, In c (signs r) -> ~ white c) by (intros c Hc C; apply HS' in Hc; unfold white in C; chars).
  set (k := length A).
  assert (HLe : k + length (parts_of r w) - 1 + 1 = k + length ps) by (rewrite HLp; unfold parts_of; simpl; lia).
  destruct (thm_C79_within tg sz [InText s ats] l parse r id l' w k HW') as (rows & d & text & EQ & HI & HPs & HTx).
  - apply HNo. now left.
  - apply HNo. right. now left.
  - apply HNo. right. right. now left.
  - exact HC.
  - exact HD.
  - exact HR.
  - exact HWr.
  - intros i t Hi. rewrite <- EP, nth_error_map in Hi. destruct (nth_error ps i) as [[t' tag]|] eqn:En; [|discriminate]. injection Hi as <-.
    apply (HTok' _ _ tag). unfold k. rewrite nth_error_app2 by lia. replace (length A + i - length A) with i by lia.
    rewrite nth_error_app1; [exact En|]. apply nth_error_Some. congruence.
  - split.
    + intros j Ej (t & Ht & Hd). apply (HLast j t Ej) in Ht. destruct (HDg t Hd); tauto.
    + intros j Ej (_ & c & Hc & Hi). apply (HLast (j + 1) [c]) in Hc; [|unfold k in Ej; lia]. apply (proj1 (ends_in_last [] _ _)) in Hc. now apply (HSg c).
  - intros _. unfold ends_apart. rewrite HLe. split.
    + intros (t & Ht & Hd). apply (HFirst _ t eq_refl) in Ht. destruct (HDg t Hd); tauto.
    + intros ((c & Hc & Hi) & _). apply (HFirst _ [c] eq_refl) in Hc. apply (proj1 (starts_in_cons _ _ _)) in Hc. now apply (HSg c).
  - exists rows, d, k. split; [exact EQ|]. split; [exact HI|].
    assert (text = denoted w) as ->.
    { destruct HTx as [(_ & (C & _) & _)|(_ & E)]; [exfalso|exact E]. destruct C as (c & Hc & [<-|[]]). rewrite HLe in Hc.
      apply (HFirst _ _ eq_refl) in Hc. apply (proj1 (starts_in_cons _ _ _)) in Hc. apply (HSg (decimal r)); [now left|exact Hc]. }
    split; [exact HPs|]. unfold token_texts. rewrite <- (map_map token ltext), ET, map_map.
    rewrite (map_ext _ fst) by reflexivity. rewrite map_app, firstn_app, map_length. fold k. rewrite Nat.sub_diag, firstn_O, app_nil_r.
    unfold k. rewrite <- (map_length fst A), firstn_all. exact EA.
Qed.
End Tokens.
End Laws.
End Ascii.
End Colon.

(** ** C89 *)

Section C89.
Context {UC : Unicode} {U : UserTypes}.

Lemma ascii_len s : ascii s -> str_len s = N.of_nat (length s).
Proof.
  induction 1 as [|c s Hc _ IH]; [reflexivity|]. cbn [str_len length]. rewrite IH. unfold char_len_utf8.
  destruct (N.ltb_spec c 128); lia.
Qed.

Lemma ascii_concat ws : ascii (concat ws) -> Forall ascii ws.
Proof.
  induction ws as [|w ws IH]; intros H; [constructor|]. cbn [concat] in H. apply ascii_app in H. destruct H. constructor; auto.
Qed.

(** C89: ASCII text is accepted. *)
Lemma thm_C89_accepted :
  forall (SL : SegmenterLaws) tg s, ascii s -> s <> [] ->
    overflow_checks tg = false \/ (N.of_nat (length s) < 2 ^ usize_bits tg)%N ->
    exists l, create_line_from_string tg s = Ok l.
Proof.
  intros SL tg s HA HN HF.
  assert (HW : Forall wf_input [InText s []]) by (constructor; [constructor|constructor]).
  destruct (thm_C04_rejected SL tg str_len [InText s []] HW) as (_ & H).
  destruct H as (groups & HG & HO & _).
  - constructor; [|constructor]. split; [exact HN|]. intros w Hw (c & w' & Ew & Hd & c' & Hc' & Hbig).
    assert (Ha : ascii w).
    { pose proof (seg_concat SL s) as E. rewrite <- E in HA. apply ascii_concat in HA. rewrite Forall_forall in HA. now apply HA. }
    unfold ascii in Ha. rewrite Forall_forall in Ha. specialize (Ha _ Hc'). cbv beta in Ha. lia.
  - apply HO. destruct HF as [HF|HF]; [now left|right]. inversion HG as [|? g ? gs [HC1 HC2] HC3]; subst. inversion HC3; subst.
    cbn [concat]. rewrite app_nil_r. cbn [sized_by] in HC2. destruct HC1 as (_ & _ & HC1).
    assert (ET : total g = str_len s).
    { rewrite <- HC1. clear -HC2. induction g as [|[t n] g IH]; [reflexivity|]. inversion HC2 as [|? ? E HC3]; subst. cbn [map concat fst snd total] in *.
      rewrite str_len_app, IH by assumption. cbn [fst snd] in E. lia. }
    rewrite ET, ascii_len by assumption. exact HF.
Qed.

(** C89: white space. *)
Lemma thm_C89_spaces :
  forall (SL : SegmenterLaws) colon (AL : AsciiLaws colon) tg sz s ats l b t a,
    ascii s -> Forall wf_attribute ats -> create_line_from_input_tokens tg [InText s ats] sz = Ok l ->
    (token_at l b t SPACE a <-> b ++ t ++ a = s /\ space_piece b t a).
Proof. intros SL colon AL tg sz s ats l b t a HA HW HC. eapply spaces_iff; eauto. Qed.

(** C89: numbers, where no digit follows a letter or an underscore. *)
Lemma thm_C89_numbers :
  forall (SL : SegmenterLaws) colon (AL : AsciiLaws colon) tg sz s ats l b t a,
    ascii s -> Forall wf_attribute ats -> create_line_from_input_tokens tg [InText s ats] sz = Ok l ->
    (token_at l b t NATN a -> b ++ t ++ a = s /\ number_piece b t a)
    /\ ((forall p x y q, s = p ++ x :: y :: q -> ascii_digit y -> ~ ascii_letter x /\ x <> 95%N) ->
        b ++ t ++ a = s -> number_piece b t a -> token_at l b t NATN a).
Proof.
  intros SL colon AL tg sz s ats l b t a HA HW HC. split; [eapply number_of_token; eauto|].
  intros HL. eapply token_of_number; eauto.
Qed.

(** C89: all tokens of plain text. *)
Lemma thm_C89_plain :
  forall (SL : SegmenterLaws) colon (AL : AsciiLaws colon) tg sz s ats l b t tag a,
    plain_text s -> Forall wf_attribute ats -> create_line_from_input_tokens tg [InText s ats] sz = Ok l ->
    (token_at l b t tag a <-> b ++ t ++ a = s /\ lexeme colon b t tag a).
Proof. intros SL colon AL tg sz s ats l b t tag a HP HW HC. eapply plain_iff; eauto. apply HP. Qed.

(** C89: all tokens of ASCII text. *)
Lemma thm_C89_all :
  forall (SL : SegmenterLaws) colon (AL : AsciiLaws colon) tg sz s ats l b t tag a,
    ascii s -> Forall wf_attribute ats -> create_line_from_input_tokens tg [InText s ats] sz = Ok l ->
    (token_at l b t tag a <-> b ++ t ++ a = s /\ any_lexeme colon b t tag a).
Proof. intros. now eapply all_iff; eauto. Qed.

(** C89: hyphens and final apostrophes are tokens of their own. *)
Lemma thm_C89_compounds :
  forall (SL : SegmenterLaws) colon (AL : AsciiLaws colon) tg sz s ats l b t tag a,
    ascii s -> Forall wf_attribute ats -> create_line_from_input_tokens tg [InText s ats] sz = Ok l -> token_at l b t tag a ->
    (In 45%N t -> t = [45%N] /\ tag = SYMB) /\ (ends_in t (is 39%N) -> t = [39%N] /\ tag = PUNC).
Proof.
  intros SL colon AL tg sz s ats l b t tag a HA HW HC HT. split; intros H.
  - eapply hyphen_alone; eauto.
  - eapply apostrophe_alone; eauto.
Qed.

(** C89: written numbers between white space. *)
Lemma thm_C89_written :
  forall (SL : SegmenterLaws) colon (AL : AsciiLaws colon) tg sz ats l parse r id l' w b a,
    ascii (b ++ concat (parts_of r w) ++ a) -> Forall wf_attribute ats ->
    (forall t, In t [TTextTag; TChar; TAmount] -> none_of t [InText (b ++ concat (parts_of r w) ++ a) ats]) ->
    create_line_from_input_tokens tg [InText (b ++ concat (parts_of r w) ++ a) ats] sz = Ok l ->
    well_written r w -> Forall mid_number (signs r) -> blank_before b -> blank_after a ->
    run id l (amount_go parse r) = Ok l' ->
    exists rows d k, query l' TAmount = Ok rows
      /\ In ((k, k + length (parts_of r w) - 1), concat (parts_of r w), [d]) rows /\ parse (denoted w) = Some d
      /\ concat (firstn k (token_texts l)) = b.
Proof. intros SL colon AL tg sz ats l parse r id l' w b a HA HW HNo HC HWr HS Hb Ha HR. eapply written_read; eauto. Qed.
End C89.

(** ** The laws determine the tokens *)

Section Determined.
Context {U : UserTypes} (UC1 UC2 : Unicode) (S1 : @SegmenterLaws UC1) (S2 : @SegmenterLaws UC2) (colon : bool)
  (A1 : @AsciiLaws UC1 colon) (A2 : @AsciiLaws UC2 colon).

Lemma same_cuts : forall ws ws' b, Forall (fun w => w <> []) ws -> Forall (fun w => w <> []) ws' -> concat ws = concat ws' ->
  (forall x y, ws = x ++ y -> may_cut colon (b ++ concat x) (concat y)) ->
  (forall x w1 w2 y, ws = x ++ (w1 ++ w2) :: y -> w1 <> [] -> w2 <> [] -> unbroken colon (b ++ concat x ++ w1) (w2 ++ concat y)) ->
  (forall x y, ws' = x ++ y -> may_cut colon (b ++ concat x) (concat y)) ->
  (forall x w1 w2 y, ws' = x ++ (w1 ++ w2) :: y -> w1 <> [] -> w2 <> [] -> unbroken colon (b ++ concat x ++ w1) (w2 ++ concat y)) ->
  ws = ws'.
Proof.
  induction ws as [|w ws IH]; intros [|w' ws'] b N N' E C1 I1 C2 I2.
  - reflexivity.
  - exfalso. inversion N'; subst. cbn [concat] in E. symmetry in E. now apply app_eq_nil in E.
  - exfalso. inversion N; subst. cbn [concat] in E. now apply app_eq_nil in E.
  - inversion N as [|? ? Nw N0]; inversion N' as [|? ? Nw' N0']; subst. cbn [concat] in E.
    assert (Ew : w = w').
    { destruct (app_eq_app _ _ _ _ E) as (z & [(Ez & E')|(Ez & E')]); (destruct z as [|z0 z]; [rewrite app_nil_r in Ez; congruence|]); exfalso.
      - specialize (C2 [w'] ws' eq_refl). apply may_cut_iff in C2. apply C2. cbn [concat]. rewrite app_nil_r, E'.
        specialize (I1 [] w' (z0 :: z) ws). cbn [app concat] in I1. apply I1; [now rewrite Ez|exact Nw'|discriminate].
      - specialize (C1 [w] ws eq_refl). apply may_cut_iff in C1. apply C1. cbn [concat]. rewrite app_nil_r, E'.
        specialize (I2 [] w (z0 :: z) ws'). cbn [app concat] in I2. apply I2; [now rewrite Ez|exact Nw|discriminate]. }
    subst w'. f_equal. apply app_inv_head in E. apply (IH ws' (b ++ w)); auto.
    + intros x y ->. specialize (C1 (w :: x) y eq_refl). cbn [concat] in C1. now rewrite <- app_assoc.
    + intros x w1 w2 y -> H1 H2. specialize (I1 (w :: x) w1 w2 y eq_refl H1 H2). cbn [concat] in I1. now rewrite <- !app_assoc in *.
    + intros x y ->. specialize (C2 (w :: x) y eq_refl). cbn [concat] in C2. now rewrite <- app_assoc.
    + intros x w1 w2 y -> H1 H2. specialize (I2 (w :: x) w1 w2 y eq_refl H1 H2). cbn [concat] in I2. now rewrite <- !app_assoc in *.
Qed.

Lemma same_words s : ascii s -> @u_words UC1 s = @u_words UC2 s.
Proof.
  intros HA. apply (same_cuts _ _ []).
  - apply Forall_forall. apply (@seg_nonempty UC1 S1).
  - apply Forall_forall. apply (@seg_nonempty UC2 S2).
  - now rewrite (@seg_concat UC1 S1), (@seg_concat UC2 S2).
  - intros x y E. apply (@cut_where_allowed UC1 colon A1 s x y HA E).
  - intros x w1 w2 y E. apply (@cut_wherever_allowed UC1 colon A1 s x w1 w2 y HA E).
  - intros x y E. apply (@cut_where_allowed UC2 colon A2 s x y HA E).
  - intros x w1 w2 y E. apply (@cut_wherever_allowed UC2 colon A2 s x w1 w2 y HA E).
Qed.

Lemma same_alphabetic c : (c < 128)%N -> @u_alphabetic UC1 c = @u_alphabetic UC2 c.
Proof.
  intros Hc. pose proof (@ascii_alphabetic UC1 colon A1 c Hc) as E1. pose proof (@ascii_alphabetic UC2 colon A2 c Hc) as E2.
  destruct (@u_alphabetic UC1 c), (@u_alphabetic UC2 c); try reflexivity; [symmetry; apply (proj2 E2), (proj1 E1)|apply (proj2 E1), (proj1 E2)]; reflexivity.
Qed.
Lemma same_whitespace c : (c < 128)%N -> @u_whitespace UC1 c = @u_whitespace UC2 c.
Proof.
  intros Hc. pose proof (@ascii_whitespace UC1 colon A1 c Hc) as E1. pose proof (@ascii_whitespace UC2 colon A2 c Hc) as E2.
  destruct (@u_whitespace UC1 c), (@u_whitespace UC2 c); try reflexivity; [symmetry; apply (proj2 E2), (proj1 E1)|apply (proj2 E1), (proj1 E2)]; reflexivity.
Qed.

Lemma same_spaces s : ascii s -> @is_spaces UC1 s = @is_spaces UC2 s.
Proof. induction 1 as [|c s Hc _ IH]; [reflexivity|]. cbn [is_spaces]. now rewrite (same_whitespace c Hc), IH. Qed.
Lemma same_word s : ascii s -> @is_word UC1 s = @is_word UC2 s.
Proof.
  intros H. destruct H as [|c s Hc H]; [reflexivity|]. cbn [is_word]. rewrite (same_alphabetic c Hc).
  replace (@is_word_rest UC1 s) with (@is_word_rest UC2 s); [reflexivity|].
  induction H as [|d s Hd _ IH]; [reflexivity|]. cbn [is_word_rest]. now rewrite (same_alphabetic d Hd), IH.
Qed.
Lemma same_tag s : ascii s -> @get_unicode_word_tag UC1 s = @get_unicode_word_tag UC2 s.
Proof. intros H. unfold get_unicode_word_tag. now rewrite (same_spaces s H), (same_word s H). Qed.

Lemma same_split sz s : ascii s -> forall ds ls acc, @split_digit_word UC1 sz s ds ls acc = @split_digit_word UC2 sz s ds ls acc.
Proof. induction 1 as [|c s Hc _ IH]; intros ds ls acc; [reflexivity|]. cbn [split_digit_word]. rewrite (same_alphabetic c Hc). now rewrite !IH. Qed.

Lemma same_segments sz ws : Forall ascii ws -> forall acc, foldM (@tokens_of_segment UC1 sz) ws acc = foldM (@tokens_of_segment UC2 sz) ws acc.
Proof.
  induction 1 as [|w ws Hw _ IH]; intros acc; [reflexivity|]. cbn [foldM].
  replace (@tokens_of_segment UC2 sz acc w) with (@tokens_of_segment UC1 sz acc w).
  - destruct (@tokens_of_segment UC1 sz acc w); cbn [bind]; auto.
  - unfold tokens_of_segment. destruct w as [|c w]; [reflexivity|]. now rewrite (same_split sz _ Hw), (same_tag _ Hw).
Qed.

Lemma same_line tg input sz : Forall ascii_input input ->
  @create_line_from_input_tokens UC1 U tg input sz = @create_line_from_input_tokens UC2 U tg input sz.
Proof.
  intros H. unfold create_line_from_input_tokens.
  replace (foldM (@create_step UC1 U tg sz) input (mkCS [] [] 0%N)) with (foldM (@create_step UC2 U tg sz) input (mkCS [] [] 0%N)); [reflexivity|].
  generalize (mkCS (U := U) [] [] 0%N) as st. induction H as [|it input Hi _ IH]; intros st; [reflexivity|]. cbn [foldM].
  replace (@create_step UC2 U tg sz st it) with (@create_step UC1 U tg sz st it).
  - destruct (@create_step UC1 U tg sz st it); cbn [bind]; auto.
  - unfold create_step. replace (@input_ltokens UC2 U sz it) with (@input_ltokens UC1 U sz it); [reflexivity|].
    destruct it as [text ats|size ats]; [|reflexivity]. cbn [input_ltokens]. unfold create_tokens_for_string.
    rewrite <- (same_words text Hi). apply same_segments. apply ascii_concat. now rewrite (@seg_concat UC1 S1).
Qed.
End Determined.

(** C89: the line of an ASCII input is the same for all segmenters and tables that obey the laws. *)
Lemma thm_C89_determined :
  forall (U0 : UserTypes) (UC1 UC2 : Unicode) (S1 : @SegmenterLaws UC1) (S2 : @SegmenterLaws UC2) colon
         (A1 : @AsciiLaws UC1 colon) (A2 : @AsciiLaws UC2 colon) tg input sz,
    Forall (@ascii_input U0) input ->
    @create_line_from_input_tokens UC1 U0 tg input sz = @create_line_from_input_tokens UC2 U0 tg input sz.
Proof. intros. eapply same_line; eauto. Qed.
