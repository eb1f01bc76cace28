(** Proofs of the properties of the display (C35, C36). *)

From Verif Require Export ThmSel SpecDisplay.

Section ThmDisplay.
Context {UC : Unicode} {U : UserTypes}.

Lemma columns_width s : columns s = str_width s.
Proof. induction s; simpl; auto. Qed.

Lemma str_width_app a b : str_width (a ++ b) = str_width a + str_width b.
Proof. induction a; simpl; auto. rewrite IHa. lia. Qed.

Lemma shown_display tok : token_display tok = shown tok.
Proof. reflexivity. Qed.

(** The opening line with its columns. *)
Lemma opening_false toks : forall line starts ends,
  opening false line starts ends toks =
  (line ++ flat_map (fun tok => two_spaces ++ shown tok) toks,
   starts ++ map (fun i => str_width (line ++ two_spaces ++ row_before toks i)) (seq 0 (length toks)),
   ends ++ map (fun i => str_width (line ++ two_spaces ++ row_upto toks i)) (seq 0 (length toks))).
Proof.
  induction toks as [|tok toks IH]; intros line starts ends; cbn [opening].
  - simpl. now rewrite !app_nil_r.
  - rewrite IH. unfold padding, token_display. fold two_spaces. fold (shown tok).
    cbn [length]. rewrite <- cons_seq, <- seq_shift. cbn [map flat_map]. rewrite !map_map.
    rewrite <- !app_assoc. cbn [app]. f_equal; [f_equal|].
    + f_equal. simpl. f_equal. apply map_ext. intros i. unfold row_before. cbn [firstn flat_map].
      now rewrite <- !app_assoc.
    + f_equal. unfold row_upto at 1. simpl. f_equal. apply map_ext. intros i. unfold row_upto, row_before.
      cbn [firstn flat_map nth_error]. now rewrite <- !app_assoc.
Qed.

Lemma join_flat ts : forall t, join two_spaces (t :: ts) = t ++ flat_map (fun x => two_spaces ++ x) ts.
Proof.
  induction ts as [|u ts IH]; intros t; [simpl; now rewrite app_nil_r|].
  change (join two_spaces (t :: u :: ts)) with (t ++ two_spaces ++ join two_spaces (u :: ts)).
  rewrite IH. simpl. reflexivity.
Qed.

Lemma opening_true toks :
  opening true [] [] [] toks =
  (first_row toks, map (fun i => columns (row_before toks i)) (seq 0 (length toks)),
   map (fun i => columns (row_upto toks i)) (seq 0 (length toks))).
Proof.
  destruct toks as [|tok toks]; auto. cbn [opening app]. rewrite opening_false.
  unfold first_row. cbn [map]. rewrite join_flat. cbn [length]. rewrite <- cons_seq, <- seq_shift. cbn [map].
  rewrite !map_map. f_equal; [f_equal|].
  - unfold token_display. fold (shown tok). f_equal. rewrite !flat_map_concat_map, map_map. reflexivity.
  - cbn [app]. f_equal. apply map_ext. intros i. change columns with str_width. unfold row_before. cbn [firstn flat_map].
    rewrite <- app_assoc. reflexivity.
  - cbn [app]. f_equal. apply map_ext. intros i. change columns with str_width.
    unfold row_upto, row_before. cbn [firstn flat_map nth_error]. unfold token_display. fold (shown tok).
    now rewrite <- !app_assoc.
Qed.

Lemma row_before_le toks : forall s e, s <= e < length toks -> columns (row_before toks s) <= columns (row_upto toks e).
Proof.
  induction toks as [|tok toks IH]; intros s e H; simpl in H; [lia|].
  change columns with str_width. destruct s as [|s]; [simpl; lia|]. destruct e as [|e]; [lia|].
  specialize (IH s e ltac:(lia)). change columns with str_width in IH.
  unfold row_upto, row_before in *. cbn [firstn flat_map nth_error]. rewrite <- app_assoc, !str_width_app in *. lia.
Qed.

Lemma nth_map_seq {A} (f : nat -> A) n i : i < n -> nth_error (map f (seq 0 n)) i = Some (f i).
Proof.
  intros H. rewrite nth_error_map. replace (nth_error (seq 0 n) i) with (Some i); auto.
  symmetry. rewrite nth_error_nth' with (d := 0) by (rewrite seq_length; auto). now rewrite seq_nth.
Qed.

Lemma display_row_ok tg toks row :
  fst (fst row) <= snd (fst row) < length toks ->
  display_row tg (map (fun i => columns (row_before toks i)) (seq 0 (length toks)))
              (map (fun i => columns (row_upto toks i)) (seq 0 (length toks))) row
  = Ok (attribute_row toks row).
Proof.
  destruct row as [[s e] text]. simpl. intros H. unfold display_row.
  rewrite !nth_map_seq by lia. cbn [expect bind]. pose proof (row_before_le toks s e H) as HL.
  set (c1 := columns (row_before toks s)) in *. set (c2 := columns (row_upto toks e)) in *.
  unfold char_len_of. rewrite (proj2 (Nat.leb_le c1 c2) HL). cbn [bind]. f_equal.
  unfold c_newline, c_space, c_left, c_dash, c_right. do 2 f_equal.
  remember (c2 - c1) as w. replace (c2 - 1 - (c1 + 1)) with (w - 2) by lia.
  destruct w as [|[|w]]; [reflexivity|reflexivity|].
  replace (1 <? N.of_nat (S (S w)))%N with true by (symmetry; apply N.ltb_lt; lia).
  unfold underline. replace (S (S w) - 2) with w by lia. cbn [app]. rewrite <- !app_assoc. reflexivity.
Qed.

Lemma include_rows_included t dbg lg : include_rows t dbg lg = included t dbg lg.
Proof.
  unfold include_rows, included. apply flat_map_ext. intros r. rewrite <- map_rev, map_map. reflexivity.
Qed.

(** C36: what is included. *)
Lemma thm_C36_include :
  forall l lg t dbg d,
    History l lg -> disp_line d = l ->
    exists d', display_include t dbg d = Ok d' /\ disp_line d' = l
      /\ include_attrs d' = include_attrs d ++ included t dbg lg.
Proof.
  intros l lg t dbg [l0 rows] H E. simpl in E. subst l0.
  exists (mkDisplay l (rows ++ included t dbg lg)). rewrite <- include_rows_included.
  split; auto. apply display_include_run. now apply history_repr.
Qed.

(** C36: the form that takes the display and gives it back. *)
Lemma thm_C36_with :
  forall l lg t dbg d,
    History l lg -> disp_line d = l ->
    exists d', display_with t dbg d = Ok d' /\ disp_line d' = l
      /\ include_attrs d' = include_attrs d ++ included t dbg lg.
Proof. intros l lg t dbg d. exact (thm_C36_include l lg t dbg d). Qed.

(** C36: every value assigned exactly once. *)
Lemma thm_C36_once :
  forall l lg t dbg,
    History l lg ->
    Permutation (included t dbg lg) (map (fun rv => (fst rv, dbg (snd rv))) (assigned t lg)).
Proof.
  intros l lg t dbg H. unfold included.
  etransitivity.
  2:{ apply Permutation_map. apply (group_perm (assigned t lg)). }
  fold (ranges_of t lg). induction (ranges_of t lg) as [|r rs IH]; simpl; auto.
  rewrite map_app. apply Permutation_app; auto. rewrite map_map. apply Permutation_map.
  symmetry. apply Permutation_rev.
Qed.

(** C35: displaying any list of included types, exactly. *)
Lemma thm_C35_display :
  forall tg l lg (incs : list { t : ty & den t -> str }),
    History l lg -> proper lg ->
    show tg l incs =
      Ok (first_row (ll_tokens l)
          ++ flat_map (attribute_row (ll_tokens l))
               (flat_map (fun x => included (projT1 x) (projT2 x) lg) incs)).
Proof.
  intros tg l lg incs H HP. pose proof (history_repr _ _ H) as HR. rewrite (show_run tg l lg) by auto.
  unfold display. cbn [disp_line include_attrs]. rewrite opening_true.
  replace (all_rows incs lg) with (flat_map (fun x => included (projT1 x) (projT2 x) lg) incs).
  2:{ apply flat_map_ext. intros x. symmetry. apply include_rows_included. }
  rewrite (mapM_ok _ (attribute_row (ll_tokens l))).
  - cbn [bind]. rewrite (flat_map_concat_map (attribute_row _)). reflexivity.
  - intros row Hin. apply display_row_ok. apply in_flat_map in Hin. destruct Hin as (x & _ & Hin).
    unfold included in Hin. apply in_flat_map in Hin. destruct Hin as (r & Hr & Hin).
    apply in_map_iff in Hin. destruct Hin as (v & <- & _). simpl.
    apply ranges_of_logged in Hr. apply in_map_iff in Hr. destruct Hr as (e & <- & He).
    destruct (in_line_entry _ _ _ (rp_in l lg HR) He). unfold proper in HP. rewrite Forall_forall in HP.
    specialize (HP e He). split; auto.
Qed.

Lemma mapM_panics {A B} (f : A -> res B) l a p :
  (forall x, In x l -> f x <> OutOfFuel) -> In a l -> f a = Panic p -> exists q, mapM f l = Panic q.
Proof.
  intros HF. induction l as [|x l IH]; intros Hin Ha; [easy|]. cbn [mapM].
  destruct (f x) as [b|q|] eqn:E; cbn [bind]; eauto.
  - destruct Hin as [->|Hin]; [congruence|]. destruct IH as (q & Eq); auto.
    + intros y Hy. apply HF. now right.
    + rewrite Eq. cbn [bind]. eauto.
  - exfalso. apply (HF x); auto. now left.
Qed.

(** The hypothesis on ranges is needed: with overflow checks (debug builds) displaying
    a range whose end lies in an earlier column than its start panics. *)
Lemma thm_C35_reversed_panics :
  forall tg l lg (incs : list { t : ty & den t -> str }) x r,
    History l lg -> overflow_checks tg = true ->
    In x incs -> In r (map fst (assigned (projT1 x) lg)) ->
    columns (row_upto (ll_tokens l) (snd r)) < columns (row_before (ll_tokens l) (fst r)) ->
    exists p, show tg l incs = Panic p.
Proof.
  intros tg l lg incs x r H HO Hx Hr HC. pose proof (history_repr _ _ H) as HR. rewrite (show_run tg l lg) by auto.
  unfold display. cbn [disp_line include_attrs]. rewrite opening_true.
  assert (HI : In r (ranges_of (projT1 x) lg)) by (unfold ranges_of; now apply firsts_In).
  assert (HV : exists v, In v (values_on (projT1 x) r lg)).
  { apply in_map_iff in Hr. destruct Hr as ([r' v] & E & Hin). simpl in E. subst r'. exists v.
    unfold values_on. apply in_filter_map. exists (r, v). split; auto. now rewrite range_eqb_refl. }
  destruct HV as (v & HV).
  assert (HL : fst r < length (ll_tokens l) /\ snd r < length (ll_tokens l)).
  { apply ranges_of_logged in HI. apply in_map_iff in HI. destruct HI as (e & <- & He).
    apply (in_line_entry _ _ _ (rp_in l lg HR) He). }
  destruct (mapM_panics (display_row tg (map (fun i => columns (row_before (ll_tokens l) i)) (seq 0 (length (ll_tokens l))))
              (map (fun i => columns (row_upto (ll_tokens l) i)) (seq 0 (length (ll_tokens l)))))
              (all_rows incs lg) (r, projT2 x v) POverflow) as (q & ->).
  - intros [[s e] d] _. unfold display_row. destruct (nth_error _ s); [|discriminate]. cbn [expect bind].
    destruct (nth_error _ e); [|discriminate]. cbn [expect bind]. unfold char_len_of.
    destruct (n <=? n0); [discriminate|]. destruct (overflow_checks tg); discriminate.
  - apply in_flat_map. exists x. split; auto. rewrite include_rows_included. apply in_flat_map. exists r. split; auto.
    apply in_map_iff. exists v. split; auto. now apply in_rev in HV.
  - destruct r as [s e]. unfold display_row. simpl in HL, HC. rewrite !nth_map_seq by lia. cbn [expect bind].
    unfold char_len_of. rewrite (proj2 (Nat.leb_gt _ _) HC), HO. reflexivity.
  - cbn [bind]. eauto.
Qed.

(** The columns of C35 are where the tokens are: the first row consists of the part
    before token [i], the token, and the rest. *)
Lemma thm_C35_columns :
  forall toks i tok, nth_error toks i = Some tok ->
    exists rest, first_row toks = row_before toks i ++ shown tok ++ rest
      /\ row_upto toks i = row_before toks i ++ shown tok.
Proof.
  intros toks. unfold first_row. induction toks as [|t toks IH]; intros [|i] tok H; simpl in H; try discriminate.
  - inversion H; subst. unfold row_upto, row_before. cbn [map firstn flat_map nth_error]. rewrite join_flat. eexists. split; reflexivity.
  - destruct (IH i tok H) as (rest & E1 & E2). exists rest. unfold row_upto. simpl nth_error. rewrite H.
    split; auto. unfold row_before. cbn [firstn flat_map]. rewrite <- !app_assoc.
    destruct toks as [|u toks]; [destruct i; discriminate|]. cbn [map] in *.
    change (join two_spaces (shown t :: shown u :: map shown toks))
      with (shown t ++ two_spaces ++ join two_spaces (shown u :: map shown toks)).
    rewrite E1. reflexivity.
Qed.

(** The underline has the width of the range. *)
Lemma thm_C35_underline :
  forall w, length (underline w) = Nat.max 1 w.
Proof. intros [|[|w]]; auto. unfold underline. rewrite !app_length, repeat_length. simpl. lia. Qed.

End ThmDisplay.
