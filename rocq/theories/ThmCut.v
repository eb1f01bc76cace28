(** Proofs about cutting ASCII text into pieces (C96). *)

From Verif Require Export SpecCut ThmKeys ThmLocal ThmSeam.

Local Open Scope list_scope.

Section Rules.
Context (colon : bool).
Local Notation unbroken := (unbroken colon).

Lemma unbroken_wider b x y a : unbroken x y -> unbroken (b ++ x) (y ++ a).
Proof.
  intros H. destruct H; cbn [app]; rewrite app_assoc; [apply WB3|apply WB3d|apply WB5|apply WB6|apply WB7|apply WB8|apply WB9|apply WB10|apply WB11|apply WB12|apply WB13a|apply WB13b]; assumption.
Qed.

Lemma unbroken_left s1 s2 x y : ~ unbroken s1 s2 -> s1 = x ++ y -> x <> [] -> y <> [] -> (unbroken x (y ++ s2) <-> unbroken x y).
Proof.
  intros H E Nx Ny. split; intros HU.
  - apply (unbroken_inside colon [] s1 s2 x y); auto; [now left|now apply may_cut_iff].
  - now apply (unbroken_wider [] x y s2).
Qed.
Lemma unbroken_right s1 s2 x y : ~ unbroken s1 s2 -> s2 = x ++ y -> x <> [] -> y <> [] -> (unbroken (s1 ++ x) y <-> unbroken x y).
Proof.
  intros H E Nx Ny. split; intros HU.
  - apply (unbroken_inside colon s1 s2 [] x y); auto; [rewrite app_nil_r; now apply may_cut_iff|right; now left|now rewrite app_nil_r].
  - pose proof (unbroken_wider s1 x y [] HU) as K. now rewrite app_nil_r in K.
Qed.

Lemma blank_seam_cut s1 s2 : blank_seam s1 s2 -> ~ unbroken s1 s2.
Proof.
  intros (HB & H1 & H2) HU. destruct (unbroken_ends colon _ _ HU) as [Na Nb]. destruct (exists_last Na) as (p & c & ->). destruct s2 as [|d q]; [easy|].
  apply unbroken_ub in HU.
  assert (K : (c = 13 /\ d = 10)%N \/ (c = 32 /\ d = 32)%N).
  { destruct HB as [(p' & c' & E & Hc)|(d' & q' & E & Hd)].
    - apply app_inj_tail in E. destruct E as [_ <-]. now apply (ub_white_l colon p c d q).
    - injection E as <- _. now apply (ub_white_r colon p c d q). }
  destruct K as [[-> ->]|[-> ->]]; [apply H1|apply H2]; split; [now exists p, 13%N|now exists 10%N, q|now exists p, 32%N|now exists 32%N, q].
Qed.

Lemma line_end_cut s1 s2 : ends_in s1 (is 10%N) -> ~ unbroken s1 s2.
Proof.
  intros (p & c & -> & <-). apply blank_seam_cut. split; [left; exists p, 10%N; split; [reflexivity|cbn; tauto]|].
  split; intros ((p' & c' & E & <-) & _); apply app_inj_tail in E; destruct E as [_ E]; discriminate.
Qed.

Lemma lines_pieces ls s : Forall (fun x => ends_in x (is 10%N)) ls -> s <> [] -> pieces colon (ls ++ [s]).
Proof.
  intros F N. induction F as [|x ls Hx _ IH]; [now apply P_last|]. cbn [app]. apply P_more; [|now apply line_end_cut|exact IH].
  destruct Hx as (p & c & -> & _). now destruct p.
Qed.

Lemma pieces_nonempty_text ss : pieces colon ss -> concat ss <> [].
Proof. intros H. destruct H as [s N|s ss N]; cbn [concat]; intros E; apply app_eq_nil in E; now destruct E. Qed.
End Rules.

Section Cut.
Context {UC : Unicode} {U : UserTypes}.

Lemma cut_words (SL : SegmenterLaws) colon (AL : AsciiLaws colon) s1 s2 : ascii (s1 ++ s2) -> ~ unbroken colon s1 s2 ->
  u_words (s1 ++ s2) = u_words s1 ++ u_words s2.
Proof.
  intros HA HU. apply Forall_app in HA as HA'. destruct HA' as [HA1 HA2].
  apply (same_cuts colon _ _ []).
  - apply Forall_forall. apply (seg_nonempty SL).
  - apply Forall_app. split; apply Forall_forall; apply (seg_nonempty SL).
  - now rewrite concat_app, !(seg_concat SL).
  - intros x y E. apply (cut_where_allowed colon AL _ x y HA E).
  - intros x w1 w2 y E. apply (cut_wherever_allowed colon AL _ x w1 w2 y HA E).
  - intros x y E. cbn [app]. apply app_eq_app in E. destruct E as (z & [[E1 E2]|[E1 E2]]).
    + (* inside the first *)
      subst y. rewrite concat_app, (seg_concat SL). pose proof (cut_where_allowed colon AL s1 x z HA1 E1) as K.
      destruct (list_eq_dec N.eq_dec (concat x) []) as [Nx|Nx]; [now left|].
      destruct (list_eq_dec N.eq_dec (concat z) []) as [Nz|Nz].
      * apply may_cut_iff. rewrite Nz. cbn [app]. replace (concat x) with s1; [exact HU|]. rewrite <- (seg_concat SL s1), E1, concat_app, Nz. now rewrite app_nil_r.
      * apply may_cut_iff. apply may_cut_iff in K. intros C. apply K. apply (unbroken_left colon s1 s2); auto. rewrite <- (seg_concat SL s1), E1. apply concat_app.
    + subst x. rewrite concat_app, (seg_concat SL). pose proof (cut_where_allowed colon AL s2 z y HA2 E2) as K.
      destruct (list_eq_dec N.eq_dec (concat y) []) as [Ny|Ny]; [right; now left|].
      destruct (list_eq_dec N.eq_dec (concat z) []) as [Nz|Nz].
      * apply may_cut_iff. rewrite Nz, app_nil_r. replace (concat y) with s2; [exact HU|]. rewrite <- (seg_concat SL s2), E2, concat_app, Nz. reflexivity.
      * apply may_cut_iff. apply may_cut_iff in K. intros C. apply K. apply (unbroken_right colon s1 s2); auto. rewrite <- (seg_concat SL s2), E2. apply concat_app.
  - intros x w1 w2 y E N1 N2. cbn [app]. apply app_eq_app in E. destruct E as (z & [[E1 E2]|[E1 E2]]).
    + destruct z as [|w z].
      * cbn [app] in E2. rewrite app_nil_r in E1. subst x. rewrite (seg_concat SL).
        pose proof (cut_wherever_allowed colon AL s2 [] w1 w2 y HA2 (eq_sym E2) N1 N2) as K. cbn [concat app] in K.
        pose proof (unbroken_wider colon s1 _ _ [] K) as K'. now rewrite app_nil_r in K'.
      * injection E2 as <- ->. rewrite concat_app, (seg_concat SL).
        pose proof (cut_wherever_allowed colon AL s1 x w1 w2 z HA1 E1 N1 N2) as K. rewrite app_assoc. apply (unbroken_wider colon [] _ _ s2 K).
    + subst x. rewrite concat_app, (seg_concat SL).
      pose proof (cut_wherever_allowed colon AL s2 z w1 w2 y HA2 E2 N1 N2) as K. rewrite <- app_assoc. pose proof (unbroken_wider colon s1 _ _ [] K) as K'. now rewrite app_nil_r in K'.
Qed.

Lemma words_some (SL : SegmenterLaws) s : s <> [] -> u_words s <> [].
Proof. intros N E. apply N. now rewrite <- (seg_concat SL s), E. Qed.

(** C96: the words of the parts are the words of the whole where no rule forbids a boundary, and only there. *)
Lemma thm_C96_words :
  forall (SL : SegmenterLaws) colon (AL : AsciiLaws colon) s1 s2, ascii (s1 ++ s2) ->
    (u_words (s1 ++ s2) = u_words s1 ++ u_words s2 <-> ~ unbroken colon s1 s2).
Proof.
  intros SL colon AL s1 s2 HA. split; [|now apply cut_words].
  intros E. pose proof (cut_where_allowed colon AL _ _ _ HA E) as K. rewrite !(seg_concat SL) in K. now apply may_cut_iff.
Qed.

(** C96: where that is so: at white space, and at the end of each line. *)
Lemma thm_C96_places :
  forall colon,
    (forall s1 s2, blank_seam s1 s2 -> ~ unbroken colon s1 s2)
    /\ (forall s1 s2, s1 <> [] -> s2 <> [] -> blank_seam s1 s2 -> pieces colon [s1; s2])
    /\ (forall ls s, Forall (fun x => ends_in x (is 10%N)) ls -> s <> [] -> pieces colon (ls ++ [s])).
Proof.
  intros colon. split; [apply blank_seam_cut|]. split; [|apply lines_pieces].
  intros s1 s2 N1 N2 H. apply P_more; [exact N1| |now apply P_last]. cbn [concat]. rewrite app_nil_r. now apply blank_seam_cut.
Qed.

Lemma pieces_line (SL : SegmenterLaws) colon (AL : AsciiLaws colon) tg sz post l ss : pieces colon ss -> forall pre, ascii (concat ss) ->
  (create_line_from_input_tokens tg (pre ++ InText (concat ss) [] :: post) sz = Ok l <->
   create_line_from_input_tokens tg (pre ++ map (fun s => InText s []) ss ++ post) sz = Ok l).
Proof.
  induction 1 as [s N|s ss N HU HP IH]; intros pre HA.
  - cbn [concat map app]. rewrite app_nil_r. tauto.
  - cbn [concat map app] in *. rewrite (thm_C66_cut tg sz pre post s (concat ss) l).
    + apply Forall_app in HA. destruct HA as [_ HA]. specialize (IH (pre ++ [InText s []]) HA). rewrite <- !app_assoc in IH. exact IH.
    + now apply (cut_words SL colon AL).
    + now apply words_some.
    + apply words_some; [exact SL|now apply (pieces_nonempty_text colon)].
Qed.

(** C96: the line of a text is the line of its pieces as inputs of their own. *)
Lemma thm_C96_pieces :
  forall (SL : SegmenterLaws) colon (AL : AsciiLaws colon) tg sz pre post ss l,
    ascii (concat ss) -> pieces colon ss ->
    (create_line_from_input_tokens tg (pre ++ InText (concat ss) [] :: post) sz = Ok l <->
     create_line_from_input_tokens tg (pre ++ map (fun s => InText s []) ss ++ post) sz = Ok l).
Proof. intros. eapply pieces_line; eauto. Qed.

Lemma bare_wf ss : Forall wf_input (map (fun s => InText s []) ss).
Proof. induction ss; constructor; [constructor|assumption]. Qed.
Lemma bare_none t ss : none_of t (map (fun s => InText s []) ss).
Proof. intros it a Hi Ha. apply in_map_iff in Hi. destruct Hi as (s & <- & _). destruct Ha. Qed.

Lemma moved_row_0 {A} (x : LRange * str * list A) : moved_row 0 x = x.
Proof. destruct x as [[[a b] t] v]. reflexivity. Qed.
Lemma moved_row_twice {A} j k (x : LRange * str * list A) : moved_row j (moved_row k x) = moved_row (j + k) x.
Proof. destruct x as [[[a b] t] v]. unfold moved_row, moved_range. cbn [fst snd]. now rewrite !Nat.add_assoc. Qed.
Lemma in_sequence_moved {A} (parts : list (nat * list (LRange * str * list A))) : forall j k, map (moved_row j) (in_sequence k parts) = in_sequence (j + k) parts.
Proof.
  induction parts as [|[n rows] parts IH]; intros j k; [reflexivity|]. cbn [in_sequence]. rewrite map_app, map_map, IH, Nat.add_assoc. f_equal.
  apply map_ext. intros x. apply moved_row_twice.
Qed.

(** C96: single-token resolvers: the rows of the pieces, one piece after the other. *)
Lemma thm_C96_local :
  forall (SL : SegmenterLaws) colon (AL : AsciiLaws colon) s tg sz id ss l,
    token_local s -> ascii (concat ss) -> pieces colon ss ->
    create_line_from_input_tokens tg [InText (concat ss) []] sz = Ok l ->
    exists l' parts, run_any id l s = Ok l' /\ query l' (writes s) = Ok (in_sequence 0 parts)
      /\ Forall2 (piece_reported tg sz id s) ss parts.
Proof.
  intros SL colon AL s tg sz id ss l HL HA HP HC.
  apply (pieces_line SL colon AL tg sz [] l ss HP [] HA) in HC. cbn [app] in HC. rewrite app_nil_r in HC. clear HA.
  enough (K : exists l' parts, run_any id l s = Ok l' /\ query l' (writes s) = Ok (in_sequence 0 parts)
      /\ length (ll_tokens l) = list_sum (map fst parts) /\ Forall2 (piece_reported tg sz id s) ss parts).
  { destruct K as (l' & parts & A & B & _ & C). now exists l', parts. }
  revert l HC. induction HP as [s0 N|s0 ss N HU HP IH]; intros l HC.
  - cbn [map] in HC. destruct (thm_C65_local s HL) as (F & HF).
    destruct (HF tg sz [InText s0 []] l id (bare_wf [s0]) (fun t _ => bare_none t [s0]) HC) as (l' & R & Q).
    exists l', [(length (ll_tokens l), rows_by (ll_tokens l) F)]. split; [exact R|]. split; [|split; [cbn; lia|]].
    + cbn [in_sequence]. rewrite app_nil_r, Q. f_equal. rewrite <- (map_id (rows_by (ll_tokens l) F)) at 1. apply map_ext. intros x. symmetry. apply moved_row_0.
    + constructor; [|constructor]. now exists l, l'.
  - cbn [map] in HC. change (InText s0 [] :: map (fun s => InText s []) ss) with ([InText s0 []] ++ map (fun s => InText s []) ss) in HC.
    destruct (thm_C55_join tg sz _ _ l (bare_wf [s0]) (bare_wf ss) HC) as (l1 & l2 & C1 & C2 & ET & _).
    destruct (IH l2 C2) as (l2' & parts & R2 & Q2 & L2 & F2).
    destruct (thm_C65_joined s tg sz _ _ l1 l2 l id id id HL (bare_wf [s0]) (bare_wf ss) (fun t _ => conj (bare_none t [s0]) (bare_none t ss)) C1 C2 HC)
      as (l1' & l2'' & l' & q1 & q2 & R1 & R2' & R & Q1 & Q2' & Q).
    assert (l2'' = l2') by congruence. subst l2''. assert (q2 = in_sequence 0 parts) by congruence. subst q2.
    exists l', ((length (ll_tokens l1), q1) :: parts). split; [exact R|]. split; [|split].
    + rewrite Q. cbn [in_sequence]. rewrite in_sequence_moved. f_equal. f_equal; [|f_equal; lia]. rewrite <- (map_id q1) at 1. apply map_ext. intros x. symmetry. apply moved_row_0.
    + rewrite ET, app_length, map_length. cbn. now rewrite L2.
    + constructor; [|exact F2]. now exists l1, l1'.
Qed.

(** ** Two parts *)
Section Two.
Context (SL : SegmenterLaws) (colon : bool) (AL : AsciiLaws colon) (tg : Target) (sz : str -> N).

Lemma tokens_text s l : ascii s -> create_line_from_input_tokens tg [InText s []] sz = Ok l ->
  Forall (fun t => exists x tag, t = LText x tag /\ x <> []) (map token (ll_tokens l)) /\ concat (map ltext (map token (ll_tokens l))) = s.
Proof.
  intros HA HC. destruct (text_pieces SL tg sz s [] l (Forall_nil _) HC) as (qs & ET & ES & HT). split.
  - rewrite ET. apply Forall_map. apply Forall_forall. intros [t tag] Hq. exists t, tag. split; [reflexivity|]. apply in_split in Hq. destruct Hq as (q1 & q2 & Eq).
    pose proof (HT q1 t tag q2 Eq) as K. apply (thm_C89_all SL colon AL tg sz s [] l _ _ _ _ HA (Forall_nil _) HC) in K. destruct K as [_ K]. apply lexeme_single in K. apply K.
  - rewrite ET, map_map. exact ES.
Qed.

Lemma last_token s l : ascii s -> s <> [] -> create_line_from_input_tokens tg [InText s []] sz = Ok l ->
  exists before tok x tag b, ll_tokens l = before ++ [tok] /\ token tok = LText x tag /\ x <> [] /\ b ++ x = s /\ token_at l b x tag [].
Proof.
  intros HA N HC. destruct (tokens_text s l HA HC) as [F E].
  assert (NT : ll_tokens l <> []) by (intros C; rewrite C in E; now subst s).
  destruct (exists_last NT) as (before & tok & ET). rewrite ET, map_app in F, E. apply Forall_app in F. destruct F as [_ F]. inversion F as [|? ? (x & tag & Ex & Nx) _]; subst.
  rewrite map_app, concat_app in *. cbn [map concat] in *. rewrite Ex in *. cbn [ltext] in *. rewrite app_nil_r in *.
  exists before, tok, x, tag, (concat (map ltext (map token before))). repeat (split; [assumption || reflexivity|]).
  exists (map token before), []. rewrite ET, map_app. cbn [map]. rewrite Ex. auto.
Qed.
Lemma first_token s l : ascii s -> s <> [] -> create_line_from_input_tokens tg [InText s []] sz = Ok l ->
  exists tok after x tag a, ll_tokens l = tok :: after /\ token tok = LText x tag /\ x <> [] /\ x ++ a = s /\ token_at l [] x tag a.
Proof.
  intros HA N HC. destruct (tokens_text s l HA HC) as [F E].
  destruct (ll_tokens l) as [|tok after] eqn:ET; [now subst s|]. cbn [map] in F, E. inversion F as [|? ? (x & tag & Ex & Nx) _]; subst.
  cbn [map concat] in *. rewrite Ex in *. cbn [ltext] in *.
  exists tok, after, x, tag, (concat (map ltext (map token after))). repeat (split; [assumption || reflexivity|]).
  exists [], (map token after). rewrite ET. cbn [map]. rewrite Ex. auto.
Qed.

Lemma still_quiet r s1 s2 l1 l2 : ascii s1 -> ascii s2 -> s1 <> [] -> s2 <> [] ->
  create_line_from_input_tokens tg [InText s1 []] sz = Ok l1 -> create_line_from_input_tokens tg [InText s2 []] sz = Ok l2 ->
  still_seam r s1 s2 -> quiet_seam r (ll_tokens l1) (ll_tokens l2).
Proof.
  intros A1 A2 N1 N2 C1 C2 [(p & c & E & Hd & Hs)|(c & q & E & Hd & Hs)].
  - left. destruct (last_token s1 l1 A1 N1 C1) as (before & tok & x & tag & b & ET & Ex & Nx & Eb & HT). exists before, tok. split; [exact ET|]. exists x, tag. split; [exact Ex|].
    destruct (exists_last Nx) as (x' & c' & ->). rewrite E, app_assoc in Eb. apply app_inj_tail in Eb. destruct Eb as [_ ->]. split.
    + intros ->. destruct (thm_C89_numbers SL colon AL tg sz s1 [] l1 b (x' ++ [c]) [] A1 (Forall_nil _) C1) as [K _]. destruct (K HT) as (_ & _ & F & _).
      apply Forall_app in F. destruct F as [_ F]. inversion F; subst. contradiction.
    + intros d Ed. change [d] with ([] ++ [d]) in Ed. apply app_inj_tail in Ed. destruct Ed as [_ <-]. exact Hs.
  - right. destruct (first_token s2 l2 A2 N2 C2) as (tok & after & x & tag & a & ET & Ex & Nx & Ea & HT). exists tok, after. split; [exact ET|]. exists x, tag. split; [exact Ex|].
    destruct x as [|c' x]; [easy|]. rewrite E in Ea. injection Ea as -> _. split.
    + intros ->. destruct (thm_C89_numbers SL colon AL tg sz s2 [] l2 [] (c :: x) a A2 (Forall_nil _) C2) as [K _]. destruct (K HT) as (_ & _ & F & _). inversion F; subst. contradiction.
    + intros d Ed. injection Ed as <- _. exact Hs.
Qed.

Lemma marked_separated r s1 s2 l1 l2 : ascii s1 -> ascii s2 -> s1 <> [] -> s2 <> [] ->
  create_line_from_input_tokens tg [InText s1 []] sz = Ok l1 -> create_line_from_input_tokens tg [InText s2 []] sz = Ok l2 ->
  marked_seam s1 s2 -> separated_seam r (ll_tokens l1) (ll_tokens l2).
Proof.
  intros A1 A2 N1 N2 C1 C2 HM.
  assert (PC : forall c, documented_punctuation c -> ~ ascii_letter c /\ ~ ascii_digit c /\ c <> 32%N /\ c <> 95%N /\ c <> 10%N /\ c <> 13%N /\ (c < 128)%N).
  { intros c H. unfold documented_punctuation, ascii_letter, ascii_digit in *. cbn [In] in H. lia. }
  assert (CH : forall b c a, documented_punctuation c -> ~ unbroken colon b (c :: a) -> ~ unbroken colon (b ++ [c]) a -> any_lexeme colon b [c] PUNC a).
  { intros b c a Hc H1 H2. exists b, [], [], a. cbn [app]. rewrite app_nil_r. split; [reflexivity|]. split; [reflexivity|]. split.
    - split; [discriminate|]. split; [now apply may_cut_iff|]. split; [now apply may_cut_iff|]. intros x y Nx Ny E. destruct x as [|? [|? ?]]; [easy| |discriminate]. injection E as _ <-. easy.
    - right. split; [intros (d & q & E & Hd); injection E as <- _; destruct (PC c Hc) as (_ & K & _); contradiction|]. split; [reflexivity|]. split; [reflexivity|]. now exists c. }
  destruct HM as [(p & c & E & Hc)|(c & q & E & Hc)].
  - left. destruct (last_token s1 l1 A1 N1 C1) as (before & tok & x & tag & b & ET & Ex & Nx & Eb & HT). rewrite ET. split; [now destruct before|]. right.
    assert (HL : any_lexeme colon p [c] PUNC []).
    { apply CH; [exact Hc| |intros C; now apply unbroken_ends in C]. intros C. destruct (unbroken_ends colon _ _ C) as [Np _]. destruct (exists_last Np) as (p' & d & ->). apply unbroken_ub in C.
      destruct (PC c Hc) as (P1 & P2 & P3 & P4 & P5 & P6 & _). unfold ub, alnum in C. assert (KS : forall P, ~ starts_in [] P) by (intros P (? & ? & K & _); discriminate). pose proof (KS ascii_letter). pose proof (KS ascii_digit). tauto. }
    pose proof (proj2 (thm_C89_all SL colon AL tg sz s1 [] l1 p [c] PUNC [] A1 (Forall_nil _) C1) (conj (eq_sym E) HL)) as (t1 & t2 & E1 & E2 & E3).
    destruct (tokens_text s1 l1 A1 C1) as [F _]. rewrite E1 in F. apply Forall_app in F. destruct F as [_ F]. inversion F as [|? ? _ F2]; subst.
    destruct t2 as [|t t2]; [|exfalso; inversion F2 as [|? ? (y & tg' & -> & Ny) _]; subst; cbn in E3; apply app_eq_nil in E3; tauto].
    rewrite ET, map_app in E1. cbn [map] in E1. apply app_inj_tail in E1. destruct E1 as [_ E1].
    exists tok, [c]. split; [|exact E1]. rewrite app_length. cbn. replace (length before + 1 - 1) with (length before) by lia. rewrite nth_error_app2, Nat.sub_diag; [reflexivity|lia].
  - right. right.
    assert (HL : any_lexeme colon [] [c] PUNC q).
    { apply CH; [exact Hc|apply unbroken_nil_l|]. cbn [app]. intros C. destruct (unbroken_ends colon _ _ C) as [_ Np]. destruct q as [|d q]; [easy|]. change [c] with ([] ++ [c]) in C. apply unbroken_ub in C.
      destruct (PC c Hc) as (P1 & P2 & P3 & P4 & P5 & P6 & _). unfold ub, alnum in C. assert (KE : forall P, ~ ends_in [] P) by (intros P (x & ? & K & _); now destruct x). pose proof (KE ascii_letter). pose proof (KE ascii_digit). tauto. }
    pose proof (proj2 (thm_C89_all SL colon AL tg sz s2 [] l2 [] [c] PUNC q A2 (Forall_nil _) C2) (conj (eq_sym E) HL)) as (t1 & t2 & E1 & E2 & E3).
    destruct (tokens_text s2 l2 A2 C2) as [F _]. rewrite E1 in F. apply Forall_app in F. destruct F as [F _].
    destruct t1 as [|t t1]; [|exfalso; inversion F as [|? ? (y & tg' & -> & Ny) _]; subst; cbn in E2; apply app_eq_nil in E2; tauto].
    destruct (ll_tokens l2) as [|tok after] eqn:ET; [discriminate|]. cbn [map app] in E1. injection E1 as E1 _. exists tok, [c]. split; [reflexivity|exact E1].
Qed.

End Two.

(** C96: the tokens and attributes of a text are those of its two parts, side by side. *)
Lemma thm_C96_line :
  forall (SL : SegmenterLaws) colon (AL : AsciiLaws colon) tg sz s1 s2 l,
    ascii (s1 ++ s2) -> s1 <> [] -> s2 <> [] -> ~ unbroken colon s1 s2 ->
    create_line_from_input_tokens tg [InText (s1 ++ s2) []] sz = Ok l ->
    exists l1 l2,
      create_line_from_input_tokens tg [InText s1 []] sz = Ok l1 /\ create_line_from_input_tokens tg [InText s2 []] sz = Ok l2
      /\ ll_tokens l = ll_tokens l1 ++
           map (moved_token (length (ll_tokens l1)) (end_of l1) (2 ^ usize_bits tg)) (ll_tokens l2)
      /\ forall t, exists q q1 q2, query l t = Ok q /\ query l1 t = Ok q1 /\ query l2 t = Ok q2
           /\ Permutation q (q1 ++ map (moved_row (length (ll_tokens l1))) q2).
Proof.
  intros SL colon AL tg sz s1 s2 l HA N1 N2 HU HC.
  apply (thm_C66_cut tg sz [] [] s1 s2 l (cut_words SL colon AL s1 s2 HA HU) (words_some SL s1 N1) (words_some SL s2 N2)) in HC. cbn [app] in HC.
  change [InText s1 []; InText s2 []] with ([InText s1 []] ++ [InText s2 []]) in HC.
  destruct (thm_C55_join tg sz _ _ l (bare_wf [s1]) (bare_wf [s2]) HC) as (l1 & l2 & C1 & C2 & ET & HQ).
  exists l1, l2. repeat (split; [assumption|]). intros t. destruct (HQ t) as (q & q1 & q2 & A & B & C & D & _). now exists q, q1, q2.
Qed.

(** C96: pipelines on a text and on its two parts. *)
Lemma thm_C96_steps :
  forall (SL : SegmenterLaws) colon (AL : AsciiLaws colon) tg sz s1 s2 l ss,
    ascii (s1 ++ s2) -> s1 <> [] -> s2 <> [] -> ~ unbroken colon s1 s2 ->
    create_line_from_input_tokens tg [InText (s1 ++ s2) []] sz = Ok l ->
    Forall (stays_apart s1 s2) ss ->
    exists l1 l2,
      create_line_from_input_tokens tg [InText s1 []] sz = Ok l1 /\ create_line_from_input_tokens tg [InText s2 []] sz = Ok l2
      /\ ((exists l', after_steps l ss l') <-> (exists l1', after_steps l1 ss l1') /\ (exists l2', after_steps l2 ss l2'))
      /\ forall l' l1' l2', after_steps l ss l' -> after_steps l1 ss l1' -> after_steps l2 ss l2' -> answers_side_by_side l' l1' l2'.
Proof.
  intros SL colon AL tg sz s1 s2 l ss HA N1 N2 HU HC HS. apply Forall_app in HA as HA'. destruct HA' as [A1 A2].
  apply (thm_C66_cut tg sz [] [] s1 s2 l (cut_words SL colon AL s1 s2 HA HU) (words_some SL s1 N1) (words_some SL s2 N2)) in HC. cbn [app] in HC.
  change [InText s1 []; InText s2 []] with ([InText s1 []] ++ [InText s2 []]) in HC.
  destruct (thm_C55_join tg sz _ _ l (bare_wf [s1]) (bare_wf [s2]) HC) as (l1 & l2 & C1 & C2 & _).
  exists l1, l2. split; [exact C1|]. split; [exact C2|].
  apply (thm_C73_pipelines tg sz _ _ l l1 l2 ss (bare_wf [s1]) (bare_wf [s2]) (bare_none TTextTag [s1; s2]) (bare_none TChar [s1; s2]) HC C1 C2).
  revert HS. apply Forall_impl. intros [id st] H. unfold stays_apart, keeps_apart in *. cbn [snd] in *. destruct st; auto. now apply (still_quiet SL colon AL tg sz r s1 s2).
Qed.

(** C96: clauses of a text and of its two parts. *)
Lemma thm_C96_clauses :
  forall (SL : SegmenterLaws) colon (AL : AsciiLaws colon) tg sz s1 s2 l r id id',
    ascii (s1 ++ s2) -> s1 <> [] -> s2 <> [] -> ~ unbroken colon s1 s2 -> marked_seam s1 s2 ->
    create_line_from_input_tokens tg [InText (s1 ++ s2) []] sz = Ok l ->
    exists l1 l2 rows rows1 rows2,
      create_line_from_input_tokens tg [InText s1 []] sz = Ok l1 /\ create_line_from_input_tokens tg [InText s2 []] sz = Ok l2
      /\ clauses_reported id id' r l rows /\ clauses_reported id id' r l1 rows1 /\ clauses_reported id id' r l2 rows2
      /\ map fst rows = map fst rows1 ++ map (fun x => (moved_range (length (ll_tokens l1)) (fst x), snd x)) (map fst rows2).
Proof.
  intros SL colon AL tg sz s1 s2 l r id id' HA N1 N2 HU HM HC. apply Forall_app in HA as HA'. destruct HA' as [A1 A2].
  apply (thm_C66_cut tg sz [] [] s1 s2 l (cut_words SL colon AL s1 s2 HA HU) (words_some SL s1 N1) (words_some SL s2 N2)) in HC. cbn [app] in HC.
  change [InText s1 []; InText s2 []] with ([InText s1 []] ++ [InText s2 []]) in HC.
  destruct (thm_C55_join tg sz _ _ l (bare_wf [s1]) (bare_wf [s2]) HC) as (l1 & l2 & C1 & C2 & _).
  destruct (thm_C74_ranges tg sz _ _ l l1 l2 r id id' (bare_wf [s1]) (bare_wf [s2]) (bare_none TKeyword [s1; s2]) (bare_none TTextTag [s1; s2]) (bare_none TClause [s1; s2]) HC C1 C2
    (marked_separated SL colon AL tg sz r s1 s2 l1 l2 A1 A2 N1 N2 C1 C2 HM)) as (rows & rows1 & rows2 & K).
  exists l1, l2, rows, rows1, rows2. auto.
Qed.

End Cut.
