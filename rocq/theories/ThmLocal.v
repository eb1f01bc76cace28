(** C65: resolvers that look at one token at a time, and joined inputs. *)

From Verif Require Export SpecCurrency ThmEnd ThmLaws.
From Coq Require Import Lia.

Section ThmLocal.
Context {UC : Unicode} {U : UserTypes}.

(** C65: what such a resolver reports is decided token by token. *)
Lemma thm_C65_local :
  forall s, token_local s ->
    exists F, forall tg sz input l id,
      Forall wf_input input -> (forall t, In t (writes s :: reads s) -> none_of t input) ->
      create_line_from_input_tokens tg input sz = Ok l ->
      exists l', run_any id l s = Ok l' /\ query l' (writes s) = Ok (rows_by (ll_tokens l) F).
Proof.
  intros s HL. destruct HL as [t m N1 N2|r|dict noun].
  - exists (fun text _ => match map_get str_eqb (lookup m) (if case_sensitive m then text else u_lower text) with Some vs => vs | None => [] end).
    intros tg sz input l id HW HN HC. cbn [run_any run_step writes].
    eapply text_match_rows with (f := fun text => match map_get str_eqb (lookup m) (if case_sensitive m then text else u_lower text) with Some vs => vs | None => [] end); eauto.
    + apply HN. now left.
    + intros lg H. now apply text_match_run.
  - exists (fun text _ => opt_list (keyword_of r text)). intros tg sz input l id HW HN HC.
    destruct (created_fresh tg sz input l HW HC) as (lg & H & HP & HF).
    destruct (clause_keyword_run id l lg r H) as (l' & E & ET & H'). rewrite <- ET in H'.
    exists l'. split; [exact E|]. rewrite <- ET. apply (fresh_tokens (t := TKeyword) l' lg _ (fun text _ => opt_list (keyword_of r text)) H'); auto.
    apply HF; try discriminate. apply HN. now left.
  - eexists. intros tg sz input l id HW HN HC. apply (thm_C50_created tg sz input l id dict noun HW); auto; apply HN; cbn; auto.
Qed.

Definition row_for {V} (f : str -> TextTag -> list V) (x : nat * LLToken) : option (LRange * str * list V) :=
  match token (snd x) with
  | LText text tag => match f text tag with [] => None | vs => Some ((fst x, fst x), text, vs) end
  | LValue => None
  end.

Lemma rows_by_for {V} (f : str -> TextTag -> list V) toks : rows_by toks f = filter_map (row_for f) (enumerate_from 0 toks).
Proof. unfold rows_by. apply filter_map_ext. intros [i tok] _. reflexivity. Qed.

Lemma rows_from {V} (f : str -> TextTag -> list V) toks : forall j k,
  filter_map (row_for f) (enumerate_from (k + j) toks) = map (moved_row k) (filter_map (row_for f) (enumerate_from j toks)).
Proof.
  induction toks as [|tok toks IH]; intros j k; [reflexivity|]. cbn [enumerate_from filter_map].
  rewrite plus_n_Sm, IH.
  assert (E : row_for f (k + j, tok) = option_map (moved_row k) (row_for f (j, tok))).
  { unfold row_for. cbn [fst snd]. destruct (token tok) as [text tag|]; [|reflexivity]. destruct (f text tag); reflexivity. }
  rewrite E. destruct (row_for f (j, tok)); reflexivity.
Qed.

Lemma rows_contents {V} (f : str -> TextTag -> list V) toks toks' : map token toks = map token toks' ->
  forall j, filter_map (row_for f) (enumerate_from j toks) = filter_map (row_for f) (enumerate_from j toks').
Proof.
  revert toks'. induction toks as [|tok toks IH]; intros [|tok' toks'] E j; try discriminate E; [reflexivity|].
  cbn [map] in E. injection E as E1 E2. cbn [enumerate_from filter_map]. rewrite (IH toks' E2). replace (row_for f (j, tok')) with (row_for f (j, tok)); [reflexivity|].
  unfold row_for. cbn [fst snd]. now rewrite E1.
Qed.

Lemma enumerate_app {A} (xs ys : list A) : forall k, enumerate_from k (xs ++ ys) = enumerate_from k xs ++ enumerate_from (length xs + k) ys.
Proof. induction xs as [|x xs IH]; intros k; [reflexivity|]. cbn [app enumerate_from length]. rewrite IH, <- plus_n_Sm. reflexivity. Qed.

(** C65: on joined inputs it reports what it reports on each, side by side. *)
Lemma thm_C65_joined :
  forall s tg sz i1 i2 l1 l2 l id1 id2 id,
    token_local s -> Forall wf_input i1 -> Forall wf_input i2 ->
    (forall t, In t (writes s :: reads s) -> none_of t i1 /\ none_of t i2) ->
    create_line_from_input_tokens tg i1 sz = Ok l1 -> create_line_from_input_tokens tg i2 sz = Ok l2 ->
    create_line_from_input_tokens tg (i1 ++ i2) sz = Ok l ->
    exists l1' l2' l' q1 q2,
      run_any id1 l1 s = Ok l1' /\ run_any id2 l2 s = Ok l2' /\ run_any id l s = Ok l'
      /\ query l1' (writes s) = Ok q1 /\ query l2' (writes s) = Ok q2
      /\ query l' (writes s) = Ok (q1 ++ map (moved_row (length (ll_tokens l1))) q2).
Proof.
  intros s tg sz i1 i2 l1 l2 l id1 id2 id HL HW1 HW2 HN C1 C2 C. destruct (thm_C65_local s HL) as (F & HF).
  destruct (HF tg sz i1 l1 id1 HW1 (fun t Ht => proj1 (HN t Ht)) C1) as (l1' & R1 & Q1).
  destruct (HF tg sz i2 l2 id2 HW2 (fun t Ht => proj2 (HN t Ht)) C2) as (l2' & R2 & Q2).
  assert (HNA : forall t, In t (writes s :: reads s) -> none_of t (i1 ++ i2)).
  { intros t Ht it a Hi. apply in_app_iff in Hi. destruct (HN t Ht) as [A B]. destruct Hi; eauto. }
  destruct (HF tg sz (i1 ++ i2) l id (proj2 (Forall_app _ _ _) (conj HW1 HW2)) HNA C) as (l' & R & Q).
  exists l1', l2', l', (rows_by (ll_tokens l1) F), (rows_by (ll_tokens l2) F). repeat (split; [assumption|]). rewrite Q. f_equal.
  destruct (thm_C55_join tg sz i1 i2 l HW1 HW2 C) as (x1 & x2 & E1 & E2 & ET & _).
  assert (x1 = l1) by congruence. assert (x2 = l2) by congruence. subst x1 x2.
  rewrite ET, !rows_by_for, enumerate_app, filter_map_app. f_equal. rewrite rows_from. f_equal. apply rows_contents.
  rewrite map_map. reflexivity.
Qed.

(** ** C66 Cutting a text *)

Section Cut.
Context (sz : str -> N).

Lemma flush_letters_acc acc lt ls : flush_letters sz (acc ++ lt) ls = acc ++ flush_letters sz lt ls.
Proof. destruct ls; [reflexivity|]. cbn [flush_letters]. now rewrite app_assoc. Qed.
Lemma flush_digits_acc acc lt ds : flush_digits sz (acc ++ lt) ds = acc ++ flush_digits sz lt ds.
Proof. destruct ds; [reflexivity|]. cbn [flush_digits]. now rewrite app_assoc. Qed.

Lemma split_digit_acc cs : forall ds ls acc lt, split_digit_word sz cs ds ls (acc ++ lt) = acc ++ split_digit_word sz cs ds ls lt.
Proof.
  induction cs as [|c cs IH]; intros ds ls acc lt; cbn [split_digit_word].
  - now rewrite ?flush_letters_acc, ?flush_digits_acc, ?flush_letters_acc.
  - destruct (is_ascii_digit c); [|destruct (u_alphabetic c)]; rewrite ?flush_letters_acc, ?flush_digits_acc, ?flush_letters_acc, ?app_assoc_reverse; apply IH.
Qed.

Lemma segment_acc acc lt w : tokens_of_segment sz (acc ++ lt) w = rmap (app acc) (tokens_of_segment sz lt w).
Proof.
  unfold tokens_of_segment. destruct w as [|c w]; [reflexivity|]. destruct (is_ascii_digit c).
  - destruct (str_is_ascii (c :: w)); [|reflexivity]. unfold rmap. cbn [bind]. now rewrite split_digit_acc.
  - unfold rmap. cbn [bind]. now rewrite app_assoc.
Qed.

Lemma segments_acc ws : forall acc lt, foldM (tokens_of_segment sz) ws (acc ++ lt) = rmap (app acc) (foldM (tokens_of_segment sz) ws lt).
Proof.
  induction ws as [|w ws IH]; intros acc lt; [reflexivity|]. cbn [foldM]. rewrite segment_acc. unfold rmap.
  destruct (tokens_of_segment sz lt w); cbn [bind]; try reflexivity. apply IH.
Qed.

Lemma foldM_app {S A} (f : S -> A -> res S) xs ys : forall s, foldM f (xs ++ ys) s = (s' <- foldM f xs s;; foldM f ys s').
Proof. induction xs as [|x xs IH]; intros s; [reflexivity|]. cbn [app foldM]. destruct (f s x); cbn [bind]; auto. Qed.

Lemma tokens_cut s1 s2 : u_words (s1 ++ s2) = u_words s1 ++ u_words s2 ->
  create_tokens_for_string sz (s1 ++ s2)
  = (g1 <- create_tokens_for_string sz s1;; g2 <- create_tokens_for_string sz s2;; Ok (g1 ++ g2)).
Proof.
  intros E. unfold create_tokens_for_string. rewrite E, foldM_app. destruct (foldM _ (u_words s1) []) as [g1| |]; cbn [bind]; try reflexivity.
  pose proof (segments_acc (u_words s2) g1 []) as X. rewrite app_nil_r in X. rewrite X. unfold rmap. reflexivity.
Qed.

Lemma segments_some ws g : ws <> [] -> foldM (tokens_of_segment sz) ws [] = Ok g -> g <> [].
Proof.
  intros HN HG. pose proof (create_tokens_fold_inv sz ws [] g HG) as F. destruct (create_tokens_fold_ok sz ws [] F) as (pss & Hp & E).
  rewrite HG in E. injection E as ->. destruct (segments_concat ws pss Hp) as (_ & _ & X). specialize (X HN).
  cbn [app]. destruct (concat pss); [easy|discriminate].
Qed.

Lemma spans_app : forall g1 i1 g2 i2 k, length g1 = length i1 ->
  spans k (g1 ++ g2) (i1 ++ i2) = spans k g1 i1 ++ spans (k + length (concat g1)) g2 i2.
Proof.
  induction g1 as [|g g1 IH]; intros [|it i1] g2 i2 k E; try discriminate E; [cbn; now rewrite Nat.add_0_r|].
  cbn [app spans concat]. rewrite IH by (now injection E). rewrite app_length, Nat.add_assoc. reflexivity.
Qed.

Lemma no_attrs l s e : add_any_attrs l s e [] = Ok l.
Proof. unfold add_any_attrs. cbn [foldM bind]. now destruct l. Qed.

Lemma Forall2_len {A B} (R : A -> B -> Prop) xs ys : Forall2 R xs ys -> length xs = length ys.
Proof. induction 1; cbn [length]; congruence. Qed.

Lemma create_from_groups tg input groups : Forall2 (fun it g => input_ltokens sz it = Ok g) input groups ->
  Forall (fun g => g <> []) groups -> fits tg 0 (concat groups) ->
  create_line_from_input_tokens tg input sz
  = (l <- line_new (layout_by (wadd tg) 0 0%N (concat groups));;
     foldM (fun l x => let '(s, e, ats) := x in add_any_attrs l s e ats) (spans 0 groups input) l).
Proof.
  intros HG HN HF. unfold create_line_from_input_tokens. rewrite (create_fold_ok tg sz input groups (mkCS [] [] 0%N)) by assumption.
  reflexivity.
Qed.

Lemma cut_same tg pre post s1 s2 gp gq g1 g2 :
  u_words (s1 ++ s2) = u_words s1 ++ u_words s2 ->
  Forall2 (fun it g => input_ltokens sz it = Ok g) pre gp -> Forall2 (fun it g => input_ltokens sz it = Ok g) post gq ->
  create_tokens_for_string sz s1 = Ok g1 -> create_tokens_for_string sz s2 = Ok g2 ->
  Forall (fun g => g <> []) (gp ++ g1 :: g2 :: gq) -> fits tg 0 (concat gp ++ g1 ++ g2 ++ concat gq) ->
  create_line_from_input_tokens tg (pre ++ InText (s1 ++ s2) [] :: post) sz
  = create_line_from_input_tokens tg (pre ++ InText s1 [] :: InText s2 [] :: post) sz.
Proof.
  intros EW FP FQ E1 E2 HN HF. apply Forall_app in HN. destruct HN as (NP & HN). inversion HN as [|? ? N1 HN']; subst. inversion HN' as [|? ? N2 NQ]; subst.
  rewrite (create_from_groups tg _ (gp ++ (g1 ++ g2) :: gq)), (create_from_groups tg _ (gp ++ g1 :: g2 :: gq)).
  - rewrite !concat_app. cbn [concat]. rewrite <- (app_assoc g1 g2). destruct (line_new _) as [l| |]; cbn [bind]; try reflexivity.
    rewrite !spans_app by (symmetry; now apply Forall2_len in FP). rewrite !foldM_app.
    destruct (foldM _ (spans 0 gp pre) l) as [l1| |]; cbn [bind]; try reflexivity.
    cbn [spans foldM input_attrs]. rewrite !no_attrs. cbn [bind]. rewrite no_attrs. cbn [bind]. now rewrite app_length, Nat.add_assoc.
  - apply Forall2_app; [assumption|]. constructor; [exact E1|]. constructor; [exact E2|assumption].
  - apply Forall_app. split; [assumption|]. now repeat constructor.
  - now rewrite concat_app.
  - apply Forall2_app; [assumption|]. constructor; [|assumption]. cbn [input_ltokens]. rewrite (tokens_cut s1 s2 EW), E1. cbn [bind]. now rewrite E2.
  - apply Forall_app. split; [assumption|]. constructor; [|assumption]. destruct g1; [easy|discriminate].
  - rewrite concat_app. cbn [concat]. now rewrite <- app_assoc.
Qed.
End Cut.

(** C66: a text may be cut into two inputs wherever the segmenter cuts it. *)
Lemma thm_C66_cut :
  forall tg sz pre post s1 s2 l,
    u_words (s1 ++ s2) = u_words s1 ++ u_words s2 -> u_words s1 <> [] -> u_words s2 <> [] ->
    (create_line_from_input_tokens tg (pre ++ InText (s1 ++ s2) [] :: post) sz = Ok l <->
     create_line_from_input_tokens tg (pre ++ InText s1 [] :: InText s2 [] :: post) sz = Ok l).
Proof.
  intros tg sz pre post s1 s2 l EW W1 W2. split; intros H; pose proof H as H0; apply create_inv in H0; destruct H0 as (gs & HG & HN & HF).
  - apply Forall2_app_inv_l in HG. destruct HG as (gp & gr & FP & FR & ->). inversion FR as [|? g ? gq Eg FQ]; subst.
    cbn [input_ltokens] in Eg. rewrite (tokens_cut sz s1 s2 EW) in Eg. inv_bind Eg. inv_bind Eg. injection Eg as <-.
    rewrite <- H. symmetry. apply (cut_same sz tg pre post s1 s2 gp gq a a0); auto.
    + apply Forall_app in HN. destruct HN as (NP & HN). inversion HN; subst. apply Forall_app. split; [assumption|].
      constructor; [exact (segments_some sz _ _ W1 E)|]. constructor; [exact (segments_some sz _ _ W2 E0)|assumption].
    + rewrite concat_app in HF. cbn [concat] in HF. now rewrite <- app_assoc in HF.
  - apply Forall2_app_inv_l in HG. destruct HG as (gp & gr & FP & FR & ->). inversion FR as [|? g1 ? gr' E1 FR']; subst. inversion FR' as [|? g2 ? gq E2 FQ]; subst.
    cbn [input_ltokens] in E1, E2. rewrite <- H. apply (cut_same sz tg pre post s1 s2 gp gq g1 g2); auto.
    rewrite concat_app in HF. exact HF.
Qed.

End ThmLocal.
