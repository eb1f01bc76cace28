(** C67: texts and positions in any unit. *)

From Verif Require Export SpecSlice ThmJoin.

Section ThmSlice.
Context {UC : Unicode} {U : UserTypes}.

Definition items (p : LToken * N) : list (char + N) :=
  match fst p with LText s _ => map inl s | LValue => [inr (snd p)] end.
Local Notation all_items g := (flat_map items g).

Lemma extent_app sz xs ys : extent sz (xs ++ ys) = (extent sz xs + extent sz ys)%N.
Proof. induction xs as [|x xs IH]; [reflexivity|]. cbn [app extent fold_right]. fold (extent sz (xs ++ ys)). fold (extent sz xs). rewrite IH. lia. Qed.

Lemma extent_text sz s : additive sz -> extent sz (map inl s) = sz s.
Proof.
  intros HA. assert (H0 : sz [] = 0%N) by (pose proof (HA [] []) as X; cbn [app] in X; lia).
  induction s as [|c s IH]; [now rewrite H0|]. cbn [map extent fold_right]. fold (extent sz (map inl s)). rewrite IH.
  symmetry. apply (HA [c] s).
Qed.

Lemma chars_text s : chars_of (map inl s) = s.
Proof. induction s as [|c s IH]; [reflexivity|]. cbn [map chars_of flat_map app]. fold (chars_of (map inl s)). now rewrite IH. Qed.

(** The tokens of a group are as long as their items. *)
Definition sized_items (sz : str -> N) (g : list (LToken * N)) : Prop := Forall (fun p => extent sz (items p) = snd p) g.

Lemma map_inl_concat (ts : list LToken) (g : list (LToken * N)) :
  map fst g = ts -> Forall (fun t => exists s tag, t = LText s tag /\ s <> []) ts ->
  all_items g = map inl (concat (map ltext ts)).
Proof.
  intros <-. induction g as [|[t n] g IH]; intros H; [reflexivity|]. inversion H as [|? ? (s & tag & E & _) H']. cbn [fst] in E. subst.
  cbn [flat_map map fst items ltext concat]. rewrite map_app. f_equal. now apply IH.
Qed.

Lemma groups_items (SL : SegmenterLaws) sz input groups : additive sz ->
  Forall2 (fun it g => input_ltokens sz it = Ok g) input groups -> Forall (fun g => g <> []) groups ->
  all_items (concat groups) = source_items input /\ sized_items sz (concat groups).
Proof.
  intros HA H HN. pose proof (groups_cut SL sz input groups H HN) as HC. clear H HN.
  induction HC as [|it g input groups (H1 & H2) HC (IH1 & IH2)]; [split; [reflexivity|constructor]|].
  cbn [concat]. rewrite flat_map_app, IH1. unfold source_items at 2. cbn [flat_map]. fold (source_items input).
  destruct it as [text ats|n ats]; cbn [cut_of sized_by] in H1, H2.
  - destruct H1 as (_ & H1 & H3). split.
    + f_equal. rewrite (map_inl_concat _ g eq_refl H1). now rewrite H3.
    + apply Forall_app. split; [|exact IH2]. clear -H1 H2 HA. induction g as [|[t n] g IH]; [constructor|].
      inversion H1 as [|? ? (s & tag & E & _) H1']. inversion H2 as [|? ? E2 H2']. cbn [fst snd] in E, E2. subst.
      constructor; [|now apply IH]. cbn [items fst snd ltext]. now apply extent_text.
  - destruct g as [|[t m] [|]]; try discriminate H1. cbn in H1. injection H1 as ->. cbn in H2. injection H2 as ->.
    split; [reflexivity|]. constructor; [|exact IH2]. cbn. lia.
Qed.

Lemma sized_total sz g : sized_items sz g -> total g = extent sz (all_items g).
Proof.
  induction 1 as [|[t n] g E H IH]; [reflexivity|]. cbn [total flat_map]. rewrite extent_app, E, IH. reflexivity.
Qed.

Lemma line_items (SL : SegmenterLaws) tg sz input l : additive sz -> Forall wf_input input ->
  (extent sz (source_items input) < 2 ^ usize_bits tg)%N -> create_line_from_input_tokens tg input sz = Ok l ->
  exists g : list (LToken * N), ll_tokens l = layout_by N.add 0 0%N g /\ sized_items sz g /\ all_items g = source_items input.
Proof.
  intros HA HW HS H. destruct (create_facts tg sz input l HW H) as (groups & H1 & H2 & H3 & HT & _).
  destruct (groups_items SL sz input groups HA H1 H2) as (E1 & E2).
  destruct (wadd_fold_exact tg (concat groups) 0 0%N) as [E _].
  { rewrite N.add_0_l, (sized_total sz _ E2), E1. exact HS. }
  exists (concat groups). rewrite E in HT. auto.
Qed.

Lemma items_pos sz g : forall i p k tok, sized_items sz g -> nth_error (layout_by N.add i p g) k = Some tok ->
  pos_starts_at tok = (p + extent sz (all_items (firstn k g)))%N
  /\ pos_ends_at tok = (p + extent sz (all_items (firstn (S k) g)))%N.
Proof.
  induction g as [|[t n] g IH]; intros i p k tok HF H; [destruct k; discriminate|].
  inversion HF as [|? ? E HF']; subst. cbn [snd] in E. destruct k as [|k]; cbn [layout_by nth_error] in H.
  - injection H as <-. cbn [pos_starts_at pos_ends_at firstn flat_map]. rewrite app_nil_r, E. split; [cbn; lia|reflexivity].
  - destruct (IH _ _ _ _ HF' H) as (A & B). rewrite A, B. cbn [firstn flat_map]. rewrite !extent_app, E. split; lia.
Qed.

Lemma chars_items g : chars_of (all_items g) = concat (map ltext (map fst g)).
Proof.
  induction g as [|[t n] g IH]; [reflexivity|]. cbn [flat_map map concat fst]. unfold chars_of. rewrite flat_map_app.
  fold (chars_of (all_items g)). rewrite IH. f_equal. destruct t; [apply chars_text|reflexivity].
Qed.

Lemma line_part (SL : SegmenterLaws) tg sz input l i j ti tj : additive sz -> Forall wf_input input ->
  (extent sz (source_items input) < 2 ^ usize_bits tg)%N -> create_line_from_input_tokens tg input sz = Ok l ->
  nth_error (ll_tokens l) i = Some ti -> nth_error (ll_tokens l) j = Some tj -> i <= j ->
  source_part sz input (pos_starts_at ti) (pos_ends_at tj) (text_between (ll_tokens l) i j).
Proof.
  intros HA HW HS H Hi Hj Hij. destruct (line_items SL tg sz input l HA HW HS H) as (g & HT & HF & HC).
  rewrite HT in *. destruct (items_pos sz g 0 0%N i ti HF Hi) as (A & _).
  destruct (items_pos sz g 0 0%N j tj HF Hj) as (_ & B).
  assert (Lj : j < length g) by (rewrite <- (layout_by_length N.add 0 0%N g); apply nth_error_Some; congruence).
  unfold text_between. rewrite layout_text_between by lia.
  exists (all_items (firstn i g)), (all_items (firstn (S j - i) (skipn i g))), (all_items (skipn (S j - i) (skipn i g))).
  rewrite <- !flat_map_app, !firstn_skipn. split; [now symmetry|]. split; [rewrite A; lia|]. split; [|apply chars_items].
  rewrite B, N.add_0_l. do 2 f_equal. rewrite <- (firstn_skipn i g) at 3.
  rewrite firstn_app, firstn_length, Nat.min_l by lia. rewrite firstn_firstn, Nat.min_r by lia. reflexivity.
Qed.

(** C67: the text of a query row is what the inputs have between the positions of
    its first and its last token. *)
Lemma thm_C67_query :
  forall (SL : SegmenterLaws) tg sz input l0 l t q r text vs,
    additive sz -> Forall wf_input input -> (extent sz (source_items input) < 2 ^ usize_bits tg)%N ->
    create_line_from_input_tokens tg input sz = Ok l0 -> later l0 l ->
    query l t = Ok q -> In (r, text, vs) q ->
    exists ti tj, nth_error (ll_tokens l) (fst r) = Some ti /\ nth_error (ll_tokens l) (snd r) = Some tj
      /\ (fst r <= snd r -> source_part sz input (pos_starts_at ti) (pos_ends_at tj) text)
      /\ (snd r < fst r -> text = []).
Proof.
  intros SL tg sz input l0 l t q r text vs HA HW HS H HL HQ Hin.
  pose proof (later_tokens _ _ HL) as ET.
  destruct (history_create tg sz input l0) as (lg0 & H0); auto.
  destruct (later_history _ _ _ H0 HL) as (lg & HH). pose proof (history_repr _ _ HH) as HR.
  assert (HO : Forall range_ordered (ranges_of t lg)).
  { destruct (Forall_dec range_ordered (fun r => le_dec (fst r) (S (snd r))) (ranges_of t lg)) as [D|D]; [exact D|].
    pose proof (thm_C10_query_panics l lg t HH D) as X. congruence. }
  rewrite (query_ordered l lg t HR HO) in HQ. injection HQ as <-. unfold query_spec in Hin.
  apply in_map_iff in Hin. destruct Hin as (r' & E & Hr). injection E as -> <- <-.
  destruct (repr_range_in l lg t r HR Hr) as [L1 L2].
  destruct (nth_error (ll_tokens l) (fst r)) as [ti|] eqn:Ei; [|apply nth_error_None in Ei; lia].
  destruct (nth_error (ll_tokens l) (snd r)) as [tj|] eqn:Ej; [|apply nth_error_None in Ej; lia].
  exists ti, tj. split; [reflexivity|]. split; [reflexivity|]. split.
  - intros Hle. rewrite ET in *. eapply line_part; eauto.
  - intros Hlt. unfold text_between. replace (S (snd r) - fst r) with 0 by lia. reflexivity.
Qed.

(** C67 for [find]. *)
Lemma thm_C67_find :
  forall (SL : SegmenterLaws) tg sz input l0 l lg P has A (m : matcher A) fs x,
    additive sz -> Forall wf_input input -> (extent sz (source_items input) < 2 ^ usize_bits tg)%N ->
    create_line_from_input_tokens tg input sz = Ok l0 -> later l0 l -> History l lg -> proper lg -> lib_matcher P has A m ->
    find l m = Ok fs -> In x fs ->
    exists i j ms, i <= j < length (ll_tokens l) /\ m (Fwd i) l = Ok ms /\ In (found x, j) ms
      /\ source_part sz input (start_pos_at x) (end_pos_at x) (text_between (ll_tokens l) i j).
Proof.
  intros SL tg sz input l0 l lg P has A m fs x HA HW HS H HL HH HP HM HF Hin.
  pose proof (later_tokens _ _ HL) as ET.
  pose proof (thm_C22_inside l lg P has A m HH HP HM) as HB.
  unfold find in HF. apply flat_mapM_In with (b := x) in HF; [|exact Hin].
  destruct HF as (i & ys & Hi & Hy & Hx). apply in_seq in Hi. inv_bind Hy. rename a into ms.
  apply mapM_Forall2 in Hy.
  assert (Hout : exists out j, In (out, j) ms /\ (s0 <- pos_start_at l i;; e0 <- pos_end_at l j;; Ok (mkFind s0 e0 out)) = Ok x).
  { clear - Hy Hx. induction Hy as [|[out j] y ms ys E Hy IH]; [easy|]. destruct Hx as [<-|Hx].
    - exists out, j. split; [now left|exact E].
    - destruct (IH Hx) as (out' & j' & A1 & A2). exists out', j'. split; [now right|exact A2]. }
  destruct Hout as (out & j & Hout & Ex).
  destruct (HB (Fwd i) ms out j) as [Hij Hj]; [simpl; lia|exact E|exact Hout|].
  simpl in Hij. unfold pos_start_at, pos_end_at in Ex.
  destruct (nth_error (ll_tokens l) i) as [ti|] eqn:Ei; [|apply nth_error_None in Ei; lia].
  destruct (nth_error (ll_tokens l) j) as [tj|] eqn:Ej; [|apply nth_error_None in Ej; lia].
  cbn in Ex. injection Ex as <-. cbn [start_pos_at end_pos_at found].
  exists i, j, ms. split; [lia|]. split; [exact E|]. split; [exact Hout|].
  rewrite ET in *. eapply line_part; eauto.
Qed.

(** If nothing has size zero, positions determine the text. *)
Lemma prefix_unique sz (xs : list (char + N)) : (forall c, (0 < sz [c])%N) -> ~ In (inr 0%N) xs ->
  forall a b a' b', xs = a ++ b -> xs = a' ++ b' -> extent sz a = extent sz a' -> a = a'.
Proof.
  intros HP. assert (POS : forall x ys, ~ In (inr 0%N) (x :: ys) -> (extent sz (x :: ys) > 0)%N).
  { intros x ys Hn. cbn [extent fold_right]. destruct x as [c|n]; [specialize (HP c); lia|]. destruct n; [exfalso; apply Hn; now left|lia]. }
  induction xs as [|x xs IH]; intros Hn a b a' b' E E' EX.
  - symmetry in E, E'. apply app_eq_nil in E. apply app_eq_nil in E'. destruct E as [-> _], E' as [-> _]. reflexivity.
  - assert (N0 : forall y ys zs, x :: xs = (y :: ys) ++ zs -> ~ In (inr 0%N) (y :: ys)).
    { intros y ys zs Ey Hi. apply Hn. rewrite Ey. apply in_or_app. now left. }
    destruct a as [|y a], a' as [|y' a']; auto.
    + pose proof (POS _ _ (N0 _ _ _ E')). change (extent sz []) with 0%N in EX. lia.
    + pose proof (POS _ _ (N0 _ _ _ E)). change (extent sz []) with 0%N in EX. lia.
    + cbn [app] in E, E'. injection E as -> E. injection E' as <- E'. f_equal. apply (IH ltac:(intros X; apply Hn; now right) a b a' b' E E').
      cbn [extent fold_right] in EX. fold (extent sz a) in EX. fold (extent sz a') in EX. lia.
Qed.

Lemma thm_C67_determined :
  forall sz input p q text text',
    (forall c, (0 < sz [c])%N) -> (forall ats, ~ In (InCustom 0 ats) input) ->
    source_part sz input p q text -> source_part sz input p q text' -> text = text'.
Proof.
  intros sz input p q text text' HP HI (b & m & a & E & E1 & E2 & <-) (b' & m' & a' & E' & E1' & E2' & <-).
  assert (HN : ~ In (inr 0%N) (source_items input)).
  { intros X. apply in_flat_map in X. destruct X as (it & Hit & X). destruct it as [s ats|n ats].
    - apply in_map_iff in X. destruct X as (? & ? & _). discriminate.
    - destruct X as [X|[]]. injection X as ->. exact (HI _ Hit). }
  assert (b = b') by (eapply (prefix_unique sz _ HP HN); eauto; congruence). subst b'.
  assert (b ++ m = b ++ m') as X by (eapply (prefix_unique sz _ HP HN) with (b := a) (b' := a'); rewrite ?app_assoc_reverse; eauto; congruence).
  apply app_inv_head in X. now subst.
Qed.

(** The size functions used in the repository. *)
Lemma thm_C67_units : additive str_len /\ additive utf16_len.
Proof.
  split; intros a b; [apply str_len_app|]. induction a as [|c a IH]; [reflexivity|].
  cbn [app utf16_len fold_right]. fold (utf16_len (a ++ b)). fold (utf16_len a). rewrite IH. lia.
Qed.

End ThmSlice.
