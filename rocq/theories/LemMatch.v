(** Matchers against the log. *)

From Verif Require Export LemLine SpecMatch.

Section LemMatch.
Context {U : UserTypes}.

(** ** Grouping by range is a permutation *)

Section Group.
Context {A : Type}.

Definition vals (al : list (LRange * A)) (r : LRange) : list A :=
  filter_map (fun '(r', v) => if range_eqb r' r then Some v else None) al.

Lemma flat_map_partition {X Y} (g : X -> list Y) (p : X -> bool) F :
  Permutation (flat_map g F) (flat_map g (filter p F) ++ flat_map g (filter (fun x => negb (p x)) F)).
Proof.
  induction F as [|x F IH]; simpl; auto. destruct (p x); simpl.
  - rewrite <- app_assoc. now apply Permutation_app_head.
  - etransitivity; [apply Permutation_app_head, IH|].
    rewrite !app_assoc. apply Permutation_app_tail, Permutation_app_comm.
Qed.

Lemma filter_eq_NoDup r F : NoDup F ->
  filter (fun x => range_eqb x r) F = if existsb (range_eqb r) F then [r] else [].
Proof.
  induction 1 as [|x F Hx H IH]; simpl; auto. rewrite (range_eqb_sym r x).
  destruct (range_eqb x r) eqn:E; simpl; auto.
  apply range_eqb_spec in E; subst. f_equal. rewrite IH.
  destruct (existsb (range_eqb r) F) eqn:E; auto. apply existsb_range_In in E. contradiction.
Qed.

Lemma group_perm (al : list (LRange * A)) :
  Permutation (flat_map (fun r => map (pair r) (vals al r)) (firsts (map fst al))) al.
Proof.
  induction al as [|[r v] al IH]; simpl; auto.
  unfold vals at 1. simpl. rewrite range_eqb_refl. simpl. constructor.
  rewrite (flat_map_ext_in _ (fun r' => map (pair r') (vals al r'))).
  2:{ intros r' Hr'. apply filter_In in Hr'. destruct Hr' as [_ Hr'].
      unfold vals. simpl. rewrite range_eqb_sym. destruct (range_eqb r' r); [discriminate|reflexivity]. }
  fold (vals al r). etransitivity; [|exact IH].
  etransitivity; [|symmetry; apply (flat_map_partition _ (fun x => range_eqb x r))].
  apply Permutation_app; auto. rewrite filter_eq_NoDup by apply firsts_NoDup.
  destruct (existsb (range_eqb r) (firsts (map fst al))) eqn:E; simpl.
  - now rewrite app_nil_r.
  - assert (vals al r = []) as ->; auto. apply filter_map_none. intros [r' v'] Hin.
    destruct (range_eqb r' r) eqn:E2; auto. apply range_eqb_spec in E2; subst.
    assert (existsb (range_eqb r) (firsts (map fst al)) = true); [|congruence].
    apply existsb_range_In, firsts_In, in_map_iff. exists (r, v'); auto.
Qed.

(** Grouped reading of a filtered index. *)
Lemma grouped_filter {B} (al : list (LRange * A)) (p : LRange -> bool) (f : LRange -> A -> option B) :
  flat_map (fun r => filter_map (f r) (vals al r)) (filter p (firsts (map fst al))) =
  filter_map (fun '(r, v) => if p r then f r v else None)
    (flat_map (fun r => map (pair r) (vals al r)) (firsts (map fst al))).
Proof.
  generalize (firsts (map fst al)). induction l as [|r l IH]; simpl; auto.
  rewrite filter_map_app, filter_map_map, <- IH. destruct (p r); simpl; auto.
  rewrite (filter_map_none (fun _ : A => None)); auto.
Qed.

Lemma grouped_perm {B} (al : list (LRange * A)) (p : LRange -> bool) (f : LRange -> A -> option B) :
  Permutation (flat_map (fun r => filter_map (f r) (vals al r)) (filter p (firsts (map fst al))))
    (filter_map (fun '(r, v) => if p r then f r v else None) al).
Proof. rewrite grouped_filter. apply filter_map_length_perm, group_perm. Qed.
End Group.

(** ** The value lookup *)

Lemma values_at_ok l lg t r : Repr l lg -> In r (map fst lg) -> values_at l t r = Ok (values_on t r lg).
Proof.
  intros HR Hin. unfold values_at. pose proof (rp_values l lg HR r) as H.
  destruct (map_get range_eqb (values (attrs l)) r); [|contradiction]. simpl. apply H.
Qed.

Lemma ranges_of_logged t r lg : In r (ranges_of t lg) -> In r (map fst lg).
Proof. rewrite ranges_of_In. intros (v & H). apply in_map_iff. exists (r, mkany t v); auto. Qed.

(** The result of an index scan. *)
Definition scan {B} (t : ty) (lg : list entry) (p : LRange -> bool) (f : LRange -> den t -> option B) : list B :=
  flat_map (fun r => filter_map (f r) (values_on t r lg)) (filter p (ranges_of t lg)).

Lemma scan_perm {B} t lg p (f : LRange -> den t -> option B) :
  Permutation (scan t lg p f)
    (filter_map (fun '(r, v) => if p r then f r v else None) (assigned t lg)).
Proof. apply (grouped_perm (assigned t lg) p f). Qed.

Lemma scan_ok {B} l lg t p (f : LRange -> den t -> option B) rs
    (g : LRange -> list (den t) -> list B) :
  Repr l lg -> rs = filter p (ranges_of t lg) ->
  (forall r vs, g r vs = filter_map (f r) vs) ->
  flat_mapM (fun range => vs <- values_at l t range;; Ok (g range vs)) rs = Ok (scan t lg p f).
Proof.
  intros HR -> Hg. unfold scan. apply flat_mapM_ok. intros r Hr. apply filter_In in Hr.
  destruct Hr as [Hr _]. rewrite (values_at_ok l lg) by (auto; eapply ranges_of_logged; eauto).
  simpl. now rewrite Hg.
Qed.

Definition starts_here (i : nat) (r : LRange) : bool := Nat.eqb (fst r) i.
Definition ends_here (i : nat) (r : LRange) : bool := Nat.eqb (snd r) i.

Lemma starts_nth l lg i t : Repr l lg ->
  match nth_error (starts_at (attrs l)) i with
  | Some m => i < length (ll_tokens l) /\ tm_get m t = filter (starts_here i) (ranges_of t lg)
  | None => length (ll_tokens l) <= i
  end.
Proof.
  intros HR. destruct (nth_error (starts_at (attrs l)) i) as [m|] eqn:E.
  - split; [|apply (rp_starts l lg HR i m t E)].
    apply nth_error_lt_rev in E. now rewrite (rp_starts_len l lg HR) in E.
  - apply nth_error_None in E. now rewrite (rp_starts_len l lg HR) in E.
Qed.

Lemma ends_nth l lg i t : Repr l lg ->
  match nth_error (ends_at (attrs l)) i with
  | Some m => i < length (ll_tokens l) /\ tm_get m t = filter (ends_here i) (ranges_of t lg)
  | None => length (ll_tokens l) <= i
  end.
Proof.
  intros HR. destruct (nth_error (ends_at (attrs l)) i) as [m|] eqn:E.
  - split; [|apply (rp_ends l lg HR i m t E)].
    apply nth_error_lt_rev in E. now rewrite (rp_ends_len l lg HR) in E.
  - apply nth_error_None in E. now rewrite (rp_ends_len l lg HR) in E.
Qed.

(** Results of the elementary matchers as a function of the number of tokens,
    the tokens and the log. *)
Definition sel_of (d : direction) (r : LRange) : bool :=
  match d with Fwd i => starts_here i r | Bwd i => ends_here i r end.
Definition other_end (d : direction) (r : LRange) : nat :=
  match d with Fwd _ => snd r | Bwd _ => fst r end.
Definition out_panic (d : direction) : panic :=
  match d with Fwd _ => PFwdAtEnd | Bwd _ => PBwdOut end.

Lemma filter_map_if {X Y} (p : X -> bool) (f : X -> Y) l :
  map f (filter p l) = filter_map (fun x => if p x then Some (f x) else None) l.
Proof. induction l as [|x l IH]; simpl; auto. destruct (p x); simpl; congruence. Qed.

Lemma dir_attr_run l lg t d : Repr l lg ->
  dir_attr t d l =
  if dir_idx d <? length (ll_tokens l)
  then Ok (scan t lg (sel_of d) (fun r v => Some (v, other_end d r)))
  else Panic (out_panic d).
Proof.
  intros HR. destruct d as [i|i]; simpl.
  - pose proof (starts_nth l lg i t HR) as H. destruct (nth_error (starts_at (attrs l)) i) as [m|]; simpl.
    + destruct H as [H1 H2]. apply Nat.ltb_lt in H1. rewrite H1.
      apply (scan_ok l lg t (starts_here i) (fun r v => Some (v, snd r)) _ (fun range vs => map (fun v => (v, snd range)) vs)); auto.
      intros r vs. symmetry. apply filter_map_some.
    + apply Nat.ltb_ge in H. now rewrite H.
  - pose proof (ends_nth l lg i t HR) as H. destruct (nth_error (ends_at (attrs l)) i) as [m|]; simpl.
    + destruct H as [H1 H2]. apply Nat.ltb_lt in H1. rewrite H1.
      apply (scan_ok l lg t (ends_here i) (fun r v => Some (v, fst r)) _ (fun range vs => map (fun v => (v, fst range)) vs)); auto.
      intros r vs. symmetry. apply filter_map_some.
    + apply Nat.ltb_ge in H. now rewrite H.
Qed.

Lemma dir_attr_eq_run l lg t eqT equals d : Repr l lg ->
  dir_attr_eq t eqT equals d l =
  if dir_idx d <? length (ll_tokens l)
  then Ok (scan t lg (sel_of d) (fun r v => if eqT v equals then Some (tt, other_end d r) else None))
  else Panic (out_panic d).
Proof.
  intros HR. destruct d as [i|i]; simpl.
  - pose proof (starts_nth l lg i t HR) as H. destruct (nth_error (starts_at (attrs l)) i) as [m|]; simpl.
    + destruct H as [H1 H2]. apply Nat.ltb_lt in H1. rewrite H1.
      apply (scan_ok l lg t (starts_here i) (fun r v => if eqT v equals then Some (tt, snd r) else None) _
        (fun range vs => filter_map (fun v => if eqT v equals then Some (tt, snd range) else None) vs)); auto.
    + apply Nat.ltb_ge in H. now rewrite H.
  - pose proof (ends_nth l lg i t HR) as H. destruct (nth_error (ends_at (attrs l)) i) as [m|]; simpl.
    + destruct H as [H1 H2]. apply Nat.ltb_lt in H1. rewrite H1.
      apply (scan_ok l lg t (ends_here i) (fun r v => if eqT v equals then Some (tt, fst r) else None) _
        (fun range vs => filter_map (fun v => if eqT v equals then Some (tt, fst range) else None) vs)); auto.
    + apply Nat.ltb_ge in H. now rewrite H.
Qed.

Lemma attributed_dec i lg : {attributed i lg} + {~ attributed i lg}.
Proof. unfold attributed. apply in_dec. decide equality; apply Nat.eq_dec. Qed.

Lemma token_attr_one_of_fwd l lg t eqT set i : Repr l lg ->
  dir_token_attr_one_of t eqT set (Fwd i) l =
  if attributed_dec i lg
  then Ok (filter_map (fun v => if slice_contains eqT set v then Some (v, i) else None) (values_on t (i, i) lg))
  else Panic PFwdAtEnd.
Proof.
  intros HR. simpl. pose proof (rp_values l lg HR (i, i)) as H.
  destruct (map_get range_eqb (values (attrs l)) (i, i)) as [tb|]; simpl;
    destruct (attributed_dec i lg) as [a|a]; unfold attributed in a; try tauto.
  destruct H as [_ H]. now rewrite H.
Qed.

Lemma token_attr_one_of_bwd l lg t eqT set i : Repr l lg ->
  dir_token_attr_one_of t eqT set (Bwd i) l =
  if i <? length (ll_tokens l)
  then Ok (scan t lg (ends_here i) (fun r v => if slice_contains eqT set v then Some (v, fst r) else None))
  else Panic PBwdOut.
Proof.
  intros HR. simpl. pose proof (ends_nth l lg i t HR) as H.
  destruct (nth_error (ends_at (attrs l)) i) as [m|]; simpl.
  - destruct H as [H1 H2]. apply Nat.ltb_lt in H1. rewrite H1.
    apply (scan_ok l lg t (ends_here i) (fun r v => if slice_contains eqT set v then Some (v, fst r) else None) _
      (fun range vs => filter_map (fun v => if slice_contains eqT set v then Some (v, fst range) else None) vs)); auto.
  - apply Nat.ltb_ge in H. now rewrite H.
Qed.

(** ** A matcher depends only on the tokens and the log of the types it looks up *)

Lemma scan_ext {B} t lg lg' p (f : LRange -> den t -> option B) :
  assigned t lg = assigned t lg' -> scan t lg p f = scan t lg' p f.
Proof. intros E. unfold scan, ranges_of, values_on. now rewrite E. Qed.

(** ... and of the tokens, only their contents *)
Definition contents (l : LLLine) : list LToken := map token (ll_tokens l).

Lemma contents_len l l' : contents l = contents l' -> length (ll_tokens l) = length (ll_tokens l').
Proof. intros E. apply (f_equal (@length _)) in E. unfold contents in E. now rewrite !map_length in E. Qed.

Lemma contents_nth l l' i : contents l = contents l' ->
  option_map token (nth_error (ll_tokens l) i) = option_map token (nth_error (ll_tokens l') i).
Proof. intros E. unfold contents in E. rewrite <- !nth_error_map. now rewrite E. Qed.

Lemma go_after_ext {B} (mb : matcher B) l l' :
  contents l = contents l' -> (forall d, mb d l = mb d l') ->
  forall d i, go_after mb d i l = go_after mb d i l'.
Proof.
  intros Ht H d i. unfold go_after.
  assert (dir_after d i l = dir_after d i l') as E by (unfold dir_after; now rewrite (contents_len _ _ Ht)).
  rewrite E. destruct (dir_after d i l'); auto.
Qed.

Lemma bind_ext {A B} (x : res A) (f g : A -> res B) : (forall a, f a = g a) -> bind x f = bind x g.
Proof. intros H. destruct x; simpl; auto. Qed.

Lemma lib_matcher_contents P has A (m : matcher A) l lg l' lg' :
  lib_matcher P has A m ->
  Repr l lg -> Repr l' lg' -> contents l = contents l' ->
  (forall t, P t -> assigned t lg = assigned t lg') ->
  (has = true -> forall i, attributed i lg <-> attributed i lg') ->
  forall d, m d l = m d l'.
Proof.
  intros HM HR HR' HC HP. pose proof (contents_len _ _ HC) as HT. induction HM; intros HA d.
  - unfold x_attr. rewrite (dir_attr_run l lg), (dir_attr_run l' lg') by auto.
    rewrite HT. erewrite scan_ext; eauto.
  - unfold x_attr_eq. rewrite (dir_attr_eq_run l lg), (dir_attr_eq_run l' lg') by auto.
    rewrite HT. erewrite scan_ext; eauto.
  - unfold x_token_has_any. destruct d as [i|i].
    + rewrite (token_attr_one_of_fwd l lg), (token_attr_one_of_fwd l' lg') by auto.
      specialize (HA eq_refl i). unfold values_on. rewrite (HP t) by auto.
      destruct (attributed_dec i lg), (attributed_dec i lg'); tauto.
    + rewrite (token_attr_one_of_bwd l lg), (token_attr_one_of_bwd l' lg') by auto.
      rewrite HT. erewrite scan_ext; eauto.
  - unfold x_token_text, dir_text_token. destruct d as [i|i]; pose proof (contents_nth _ _ i HC) as E;
      destruct (nth_error (ll_tokens l) i) as [tok|], (nth_error (ll_tokens l') i) as [tok'|]; simpl in E; try discriminate; try reflexivity;
      injection E as E; simpl; now rewrite E.
  - unfold x_all2. rewrite IHHM1, IHHM2; auto; intros E; apply HA; rewrite E, ?orb_true_r; auto.
  - unfold x_all3. rewrite IHHM1, IHHM2, IHHM3; auto; intros E; apply HA; rewrite E, ?orb_true_r; auto.
  - unfold x_any_of2. rewrite IHHM1, IHHM2; auto; intros E; apply HA; rewrite E, ?orb_true_r; auto.
  - unfold x_any_of3. rewrite IHHM1, IHHM2, IHHM3; auto; intros E; apply HA; rewrite E, ?orb_true_r; auto.
  - unfold x_seq2. rewrite IHHM1 by (intros E; apply HA; rewrite E, ?orb_true_r; auto).
    apply bind_ext. intros al. apply flat_mapM_ext. intros [a i] _.
    rewrite (go_after_ext mb l l'); auto. apply IHHM2. intros E; apply HA; rewrite E, ?orb_true_r; auto.
  - unfold x_seq3. rewrite IHHM1 by (intros E; apply HA; rewrite E, ?orb_true_r; auto).
    apply bind_ext. intros al. apply flat_mapM_ext. intros [a i] _.
    rewrite (go_after_ext mb l l'); [|auto|apply IHHM2; intros E; apply HA; rewrite E, ?orb_true_r; auto].
    apply bind_ext. intros bl. apply flat_mapM_ext. intros [b j] _.
    rewrite (go_after_ext mc l l'); auto. apply IHHM3. intros E; apply HA; rewrite E, ?orb_true_r; auto.
Qed.

Lemma lib_matcher_ext P has A (m : matcher A) l lg l' lg' :
  lib_matcher P has A m ->
  Repr l lg -> Repr l' lg' -> ll_tokens l = ll_tokens l' ->
  (forall t, P t -> assigned t lg = assigned t lg') ->
  (has = true -> forall i, attributed i lg <-> attributed i lg') ->
  forall d, m d l = m d l'.
Proof. intros HM HR HR' HT. eapply lib_matcher_contents; eauto. unfold contents. now rewrite HT. Qed.

(** query as a function of tokens and log *)
Lemma query_run l lg t : Repr l lg ->
  query l t = mapM (fun r => toks <- slice_incl (ll_tokens l) (fst r) (snd r);;
                             Ok (r, concat (map token_str toks), values_on t r lg)) (ranges_of t lg).
Proof.
  intros HR. unfold query. rewrite (rp_ranges l lg HR). apply mapM_ext. intros r Hr.
  apply bind_ext. intros toks. apply ranges_of_logged in Hr.
  pose proof (rp_values l lg HR r) as H. destruct (map_get range_eqb (values (attrs l)) r); [|tauto].
  simpl. destruct H as [_ H]. now rewrite H.
Qed.

Lemma slice_contents l l' a b : contents l = contents l' ->
  rmap (map token) (slice_incl (ll_tokens l) a b) = rmap (map token) (slice_incl (ll_tokens l') a b).
Proof.
  intros E. unfold slice_incl. rewrite (contents_len _ _ E). destruct (_ && _); [|reflexivity].
  unfold rmap. cbn [bind]. f_equal. rewrite <- !firstn_map, <- !skipn_map. unfold contents in E. now rewrite E.
Qed.

Lemma token_strs toks : map token_str toks = map (fun t => match t with LText text _ => text | LValue => [] end) (map token toks).
Proof. rewrite map_map. reflexivity. Qed.

Lemma query_contents l lg l' lg' t :
  Repr l lg -> Repr l' lg' -> contents l = contents l' -> assigned t lg = assigned t lg' ->
  query l t = query l' t.
Proof.
  intros HR HR' HC E. rewrite (query_run l lg), (query_run l' lg') by auto.
  unfold ranges_of, values_on. rewrite E. apply mapM_ext. intros r _.
  pose proof (slice_contents l l' (fst r) (snd r) HC) as ES. unfold rmap in ES.
  destruct (slice_incl (ll_tokens l) (fst r) (snd r)), (slice_incl (ll_tokens l') (fst r) (snd r)); cbn [bind] in *; try discriminate; try congruence.
  inversion ES as [E1]. now rewrite !token_strs, E1.
Qed.

Lemma query_ext l lg l' lg' t :
  Repr l lg -> Repr l' lg' -> ll_tokens l = ll_tokens l' -> assigned t lg = assigned t lg' ->
  query l t = query l' t.
Proof.
  intros HR HR' HT E. rewrite (query_run l lg), (query_run l' lg') by auto.
  unfold ranges_of, values_on. now rewrite HT, E.
Qed.

(** display as a function of tokens and log *)
Definition include_rows (t : ty) (dbg : den t -> str) (lg : list entry) : list (LRange * str) :=
  flat_map (fun r => map (fun s => (r, s)) (rev (map dbg (values_on t r lg)))) (ranges_of t lg).

Lemma display_include_run {UC : Unicode} l lg t dbg rows : Repr l lg ->
  display_include t dbg (mkDisplay l rows) = Ok (mkDisplay l (rows ++ include_rows t dbg lg)).
Proof.
  intros HR. unfold display_include. simpl. rewrite (rp_ranges l lg HR).
  rewrite (flat_mapM_ok _ (fun r => map (fun s => (r, s)) (rev (map dbg (values_on t r lg))))); auto.
  intros r Hr. apply ranges_of_logged in Hr. pose proof (rp_values l lg HR r) as H.
  destruct (map_get range_eqb (values (attrs l)) r); [|tauto].
  destruct H as [_ H]. now rewrite (tb_get_debug_ok _ _ _ (values_on t r lg)).
Qed.

Definition all_rows (incs : list { t : ty & den t -> str }) (lg : list entry) : list (LRange * str) :=
  flat_map (fun x => include_rows (projT1 x) (projT2 x) lg) incs.

Lemma includes_run {UC : Unicode} l lg incs : Repr l lg -> forall rows,
  foldM (fun d x => display_include (projT1 x) (projT2 x) d) incs (mkDisplay l rows)
  = Ok (mkDisplay l (rows ++ all_rows incs lg)).
Proof.
  intros HR. induction incs as [|x incs IH]; intros rows; simpl.
  - now rewrite app_nil_r.
  - rewrite (display_include_run l lg) by auto. simpl. rewrite IH. now rewrite app_assoc.
Qed.

Lemma show_run {UC : Unicode} tg l lg incs : Repr l lg ->
  show tg l incs = display tg (mkDisplay l (all_rows incs lg)).
Proof. intros HR. unfold show, display_new. rewrite (includes_run l lg incs HR). reflexivity. Qed.

Lemma opening_contents {UC : Unicode} toks : forall toks' first line starts ends, map token toks = map token toks' ->
  opening first line starts ends toks = opening first line starts ends toks'.
Proof.
  induction toks as [|x toks IH]; intros [|y toks'] first line starts ends E; try discriminate; [reflexivity|].
  cbn [map] in E. inversion E as [[E1 E2]]. cbn [opening]. unfold token_display. rewrite E1. now apply IH.
Qed.

Lemma show_contents {UC : Unicode} tg l lg l' lg' incs :
  Repr l lg -> Repr l' lg' -> contents l = contents l' ->
  (forall x, In x incs -> assigned (projT1 x) lg = assigned (projT1 x) lg') ->
  show tg l incs = show tg l' incs.
Proof.
  intros HR HR' HT HI. rewrite (show_run tg l lg), (show_run tg l' lg') by auto.
  replace (all_rows incs lg') with (all_rows incs lg).
  - unfold display. simpl. now rewrite (opening_contents _ (ll_tokens l') _ _ _ _ HT).
  - apply flat_map_ext_in. intros x Hx. unfold include_rows, ranges_of, values_on. now rewrite (HI x Hx).
Qed.

Lemma show_ext {UC : Unicode} tg l lg l' lg' incs :
  Repr l lg -> Repr l' lg' -> ll_tokens l = ll_tokens l' ->
  (forall x, In x incs -> assigned (projT1 x) lg = assigned (projT1 x) lg') ->
  show tg l incs = show tg l' incs.
Proof.
  intros HR HR' HT HI. rewrite (show_run tg l lg), (show_run tg l' lg') by auto.
  replace (all_rows incs lg') with (all_rows incs lg).
  - unfold display. simpl. now rewrite HT.
  - apply flat_map_ext_in. intros x Hx. unfold include_rows, ranges_of, values_on. now rewrite (HI x Hx).
Qed.

End LemMatch.
