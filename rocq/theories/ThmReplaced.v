(** C100: pieces replaced by others. *)

From Verif Require Export SpecReplaced ThmScan ThmPass ThmEnd.

Local Open Scope list_scope.

Section Replaced.
Context {UC : Unicode} {U : UserTypes}.

Lemma marked_token r tok tok' m : token tok = token tok' -> marked r tok m -> marked r tok' m.
Proof. unfold marked. intros ->. auto. Qed.

Lemma roles_marks tg tg' sz sz' r r' xs ys : Forall2 (same_roles tg tg' sz sz' r r') xs ys -> forall l l',
  Forall wf_input (concat xs) -> Forall wf_input (concat ys) ->
  create_line_from_input_tokens tg (concat xs) sz = Ok l -> create_line_from_input_tokens tg' (concat ys) sz' = Ok l' ->
  exists ms, Forall2 (marked r) (ll_tokens l) ms /\ Forall2 (marked r') (ll_tokens l') ms.
Proof.
  induction 1 as [|x y xs ys (lx & ly & Cx & Cy & HM) _ IH]; intros l l' W W' E E'; cbn [concat] in *.
  - cbn in E, E'. injection E as <-. injection E' as <-. exists []. split; constructor.
  - apply Forall_app in W, W'. destruct W as [W1 W2], W' as [W1' W2'].
    destruct (thm_C55_join tg sz x (concat xs) l W1 W2 E) as (l1 & l2 & E1 & E2 & ET & _). destruct (thm_C55_join tg' sz' y (concat ys) l' W1' W2' E') as (l1' & l2' & E1' & E2' & ET' & _).
    assert (l1 = lx) by congruence. assert (l1' = ly) by congruence. subst l1 l1'. destruct (IH l2 l2' W2 W2' E2 E2') as (ms & M2 & M2').
    assert (exists ms1, Forall2 (marked r) (ll_tokens lx) ms1 /\ Forall2 (marked r') (ll_tokens ly) ms1) as (ms1 & M1 & M1').
    { clear - HM. induction HM as [|tok tok' ts ts' (m & A & B) _ (ms & C & D)]; [exists []; split; constructor|]. exists (m :: ms). split; constructor; assumption. }
    assert (MV : forall rr k p M toks ms0, Forall2 (marked rr) toks ms0 -> Forall2 (marked rr) (map (moved_token k p M) toks) ms0).
    { clear. intros rr k p M toks ms0. induction 1 as [|tok m toks ms0 HM _ IH]; constructor; [|exact IH]. eapply marked_token; [|exact HM]. reflexivity. }
    exists (ms1 ++ ms). rewrite ET, ET'. split; apply Forall2_app; auto.
Qed.

(** C100: the clauses are in the same places and of the same kinds. *)
Lemma thm_C100_clauses :
  forall tg tg' sz sz' xs ys l l' r r' id1 id2 id1' id2',
    Forall wf_input (concat xs) -> none_of TKeyword (concat xs) -> none_of TTextTag (concat xs) -> none_of TClause (concat xs) ->
    Forall wf_input (concat ys) -> none_of TKeyword (concat ys) -> none_of TTextTag (concat ys) -> none_of TClause (concat ys) ->
    create_line_from_input_tokens tg (concat xs) sz = Ok l -> create_line_from_input_tokens tg' (concat ys) sz' = Ok l' ->
    Forall2 (same_roles tg tg' sz sz' r r') xs ys ->
    exists rows rows', clauses_reported id1 id2 r l rows /\ clauses_reported id1' id2' r' l' rows' /\ map place rows = map place rows'.
Proof.
  intros tg tg' sz sz' xs ys l l' r r' id1 id2 id1' id2' W N1 N2 N3 W' N1' N2' N3' E E' HR.
  destruct (roles_marks tg tg' sz sz' r r' xs ys HR l l' W W' E E') as (ms & M & M').
  do 2 eexists. split; [exact (thm_C81_scan tg sz (concat xs) l r id1 id2 ms W N1 N2 N3 E M)|]. split; [exact (thm_C81_scan tg' sz' (concat ys) l' r' id1' id2' ms W' N1' N2' N3' E' M')|].
  rewrite !map_map. apply map_ext. intros x. reflexivity.
Qed.

Lemma marks_joined tg sz i1 i2 l l1 l2 r ms1 ms2 : Forall wf_input i1 -> Forall wf_input i2 ->
  create_line_from_input_tokens tg (i1 ++ i2) sz = Ok l -> create_line_from_input_tokens tg i1 sz = Ok l1 -> create_line_from_input_tokens tg i2 sz = Ok l2 ->
  number_marks l1 r ms1 -> number_marks l2 r ms2 -> number_marks l r (ms1 ++ ms2).
Proof.
  intros HW1 HW2 H C1 C2 (L1 & M1) (L2 & M2).
  destruct (thm_C55_join tg sz i1 i2 l HW1 HW2 H) as (x1 & x2 & E1 & E2 & ET & _).
  assert (x1 = l1) by congruence. assert (x2 = l2) by congruence. subst x1 x2. clear E1 E2.
  destruct (bare_joined tg sz i1 i2 l l1 l2 HW1 HW2 H C1 C2) as (B1 & B2).
  split; [rewrite ET, !app_length, map_length; congruence|]. intros i m tok Em Et. rewrite ET in Et.
  destruct (lt_dec i (length (ll_tokens l1))) as [Hi|Hi].
  - rewrite nth_error_app1 in Em by lia. rewrite nth_error_app1 in Et by lia. specialize (M1 i m tok Em Et).
    unfold number_mark in *. destruct (token tok); [exact M1|]. destruct m; try exact M1; rewrite (B1 i Hi); exact M1.
  - rewrite nth_error_app2 in Em by lia. rewrite nth_error_app2 in Et by lia. rewrite L1 in Em. rewrite nth_error_map in Et.
    destruct (nth_error (ll_tokens l2) (i - length (ll_tokens l1))) as [tok2|] eqn:En; [|discriminate Et]. injection Et as <-.
    specialize (M2 _ m tok2 Em En). unfold number_mark in *. cbn [moved_token token]. specialize (B2 (i - length (ll_tokens l1))).
    replace (length (ll_tokens l1) + (i - length (ll_tokens l1))) with i in B2 by lia.
    destruct (token tok2); [exact M2|]. destruct m; try exact M2; rewrite B2; exact M2.
Qed.

Lemma numbers_marks tg tg' sz sz' r r' xs ys : Forall2 (same_numbers tg tg' sz sz' r r') xs ys -> forall l l',
  Forall wf_input (concat xs) -> Forall wf_input (concat ys) ->
  create_line_from_input_tokens tg (concat xs) sz = Ok l -> create_line_from_input_tokens tg' (concat ys) sz' = Ok l' ->
  exists ms, number_marks l r ms /\ number_marks l' r' ms.
Proof.
  induction 1 as [|x y xs ys (lx & ly & ms1 & Cx & Cy & M1 & M1') _ IH]; intros l l' W W' E E'; cbn [concat] in *.
  - cbn in E, E'. injection E as <-. injection E' as <-. exists []. split; (split; [reflexivity|intros [|i] m tok Em; discriminate Em]).
  - apply Forall_app in W, W'. destruct W as [W1 W2], W' as [W1' W2'].
    destruct (thm_C55_join tg sz x (concat xs) l W1 W2 E) as (l1 & l2 & E1 & E2 & _). destruct (thm_C55_join tg' sz' y (concat ys) l' W1' W2' E') as (l1' & l2' & E1' & E2' & _).
    destruct (IH l2 l2' W2 W2' E2 E2') as (ms & M2 & M2'). exists (ms1 ++ ms).
    split; [exact (marks_joined tg sz x (concat xs) l lx l2 r ms1 ms W1 W2 E Cx E2 M1 M2)|exact (marks_joined tg' sz' y (concat ys) l' ly l2' r' ms1 ms W1' W2' E' Cy E2' M1' M2')].
Qed.

(** C100: the amounts are in the same places and have the same values. *)
Lemma thm_C100_amounts :
  forall tg tg' sz sz' xs ys l l' parse r r' id id',
    Forall wf_input (concat xs) -> none_of TTextTag (concat xs) -> none_of TChar (concat xs) -> none_of TAmount (concat xs) ->
    Forall wf_input (concat ys) -> none_of TTextTag (concat ys) -> none_of TChar (concat ys) -> none_of TAmount (concat ys) ->
    create_line_from_input_tokens tg (concat xs) sz = Ok l -> create_line_from_input_tokens tg' (concat ys) sz' = Ok l' ->
    no_digit_signs r -> no_digit_signs r' -> Forall2 (same_numbers tg tg' sz sz' r r') xs ys ->
    (exists l1 l1' rows rows', run id l (amount_go parse r) = Ok l1 /\ run id' l' (amount_go parse r') = Ok l1'
       /\ query l1 TAmount = Ok rows /\ query l1' TAmount = Ok rows' /\ map place rows = map place rows')
    \/ (exists p p', run id l (amount_go parse r) = Panic p /\ run id' l' (amount_go parse r') = Panic p').
Proof.
  intros tg tg' sz sz' xs ys l l' parse r r' id id' W N1 N2 N3 W' N1' N2' N3' E E' D D' HR.
  destruct (numbers_marks tg tg' sz sz' r r' xs ys HR l l' W W' E E') as (ms & M & M').
  pose proof (thm_C82_pass tg sz (concat xs) l parse r id ms W N1 N2 N3 E D M) as P. pose proof (thm_C82_pass tg' sz' (concat ys) l' parse r' id' ms W' N1' N2' N3' E' D' M') as P'.
  destruct (whole_pass Idle 0 ms) as [zs|]; [destruct (parsed parse zs) as [out|]|]; try solve [right; destruct P as (p & P), P' as (p' & P'); eauto].
  left. destruct P as (l1 & R & Q), P' as (l1' & R' & Q'). do 4 eexists. split; [exact R|]. split; [exact R'|]. split; [exact Q|]. split; [exact Q'|].
  rewrite !map_map. apply map_ext. intros x. reflexivity.
Qed.

(** What holds of the tokens of the pieces pairwise holds of those of the lines. *)
Lemma pieces_tokens (R : LToken -> LToken -> Prop) tg tg' sz sz' xs ys :
  Forall2 (fun x y => exists lx ly, create_line_from_input_tokens tg x sz = Ok lx /\ create_line_from_input_tokens tg' y sz' = Ok ly
    /\ Forall2 (fun tok tok' => R (token tok) (token tok')) (ll_tokens lx) (ll_tokens ly)) xs ys -> forall l l',
  Forall wf_input (concat xs) -> Forall wf_input (concat ys) ->
  create_line_from_input_tokens tg (concat xs) sz = Ok l -> create_line_from_input_tokens tg' (concat ys) sz' = Ok l' ->
  Forall2 (fun tok tok' => R (token tok) (token tok')) (ll_tokens l) (ll_tokens l').
Proof.
  induction 1 as [|x y xs ys (lx & ly & Cx & Cy & HM) _ IH]; intros l l' W W' E E'; cbn [concat] in *.
  - cbn in E, E'. injection E as <-. injection E' as <-. constructor.
  - apply Forall_app in W, W'. destruct W as [W1 W2], W' as [W1' W2'].
    destruct (thm_C55_join tg sz x (concat xs) l W1 W2 E) as (l1 & l2 & E1 & E2 & ET & _). destruct (thm_C55_join tg' sz' y (concat ys) l' W1' W2' E') as (l1' & l2' & E1' & E2' & ET' & _).
    assert (l1 = lx) by congruence. assert (l1' = ly) by congruence. subst l1 l1'. rewrite ET, ET'. apply Forall2_app; [exact HM|].
    specialize (IH l2 l2' W2 W2' E2 E2'). clear - IH. induction IH; cbn; constructor; assumption.
Qed.

Lemma rows_by_places {V} (f g : str -> TextTag -> list V) toks toks' :
  Forall2 (fun tok tok' => match token tok with LText s p => f s p | LValue => [] end = match token tok' with LText s p => g s p | LValue => [] end) toks toks' ->
  map place (rows_by toks f) = map place (rows_by toks' g).
Proof.
  unfold rows_by. generalize 0. intros n H. revert n. induction H as [|tok tok' toks toks' H _ IH]; intros n; [reflexivity|]. cbn [enumerate_from filter_map].
  specialize (IH (S n)). destruct (token tok) as [s p|], (token tok') as [s' p'|].
  - rewrite H. destruct (g s' p'); [exact IH|]. cbn [map]. now rewrite IH.
  - rewrite H. exact IH.
  - rewrite <- H. exact IH.
  - exact IH.
Qed.

Lemma table_created t tg sz input l id (a : Table t) : Forall wf_input input -> none_of t input -> t <> TChar -> t <> TTextTag -> hash_table a ->
  create_line_from_input_tokens tg input sz = Ok l ->
  exists l', run id l (text_match_go (text_match_of a)) = Ok l' /\ query l' t = Ok (rows_by (ll_tokens l) (fun text _ => table_says text a)).
Proof. intros W N1 N2 N3 HT E. destruct a as [table|table]; [now apply (thm_C37_created t tg sz input)|now apply (thm_C38_created t tg sz input)]. Qed.

(** C100: the matches are in the same places and have the same values. *)
Lemma thm_C100_matches :
  forall t tg tg' sz sz' xs ys l l' (a b : Table t) id id',
    Forall wf_input (concat xs) -> none_of t (concat xs) -> Forall wf_input (concat ys) -> none_of t (concat ys) ->
    t <> TChar -> t <> TTextTag -> hash_table a -> hash_table b ->
    create_line_from_input_tokens tg (concat xs) sz = Ok l -> create_line_from_input_tokens tg' (concat ys) sz' = Ok l' ->
    Forall2 (same_values tg tg' sz sz' a b) xs ys ->
    exists l1 l1' rows rows', run id l (text_match_go (text_match_of a)) = Ok l1 /\ run id' l' (text_match_go (text_match_of b)) = Ok l1'
      /\ query l1 t = Ok rows /\ query l1' t = Ok rows' /\ map place rows = map place rows'.
Proof.
  intros t tg tg' sz sz' xs ys l l' a b id id' W N W' N' T1 T2 HA HB E E' HR.
  destruct (table_created t tg sz (concat xs) l id a W N T1 T2 HA E) as (l1 & R1 & Q1). destruct (table_created t tg' sz' (concat ys) l' id' b W' N' T1 T2 HB E') as (l1' & R1' & Q1').
  do 4 eexists. split; [exact R1|]. split; [exact R1'|]. split; [exact Q1|]. split; [exact Q1'|]. apply rows_by_places.
  exact (pieces_tokens (fun x y => values_in a x = values_in b y) tg tg' sz sz' xs ys HR l l' W W' E E').
Qed.

(** C100: the parts of speech are in the same places. *)
Lemma thm_C100_parts_of_speech :
  forall tg tg' sz sz' xs ys l l' dict dict' noun noun' id id',
    Forall wf_input (concat xs) -> none_of TTextTag (concat xs) -> none_of TPos (concat xs) ->
    Forall wf_input (concat ys) -> none_of TTextTag (concat ys) -> none_of TPos (concat ys) ->
    create_line_from_input_tokens tg (concat xs) sz = Ok l -> create_line_from_input_tokens tg' (concat ys) sz' = Ok l' ->
    Forall2 (same_parts tg tg' sz sz' dict dict' noun noun') xs ys ->
    exists l1 l1' rows rows', run id l (pos_go dict noun) = Ok l1 /\ run id' l' (pos_go dict' noun') = Ok l1'
      /\ query l1 TPos = Ok rows /\ query l1' TPos = Ok rows' /\ map place rows = map place rows'.
Proof.
  intros tg tg' sz sz' xs ys l l' dict dict' noun noun' id id' W N1 N2 W' N1' N2' E E' HR.
  destruct (thm_C50_created tg sz (concat xs) l id dict noun W N1 N2 E) as (l1 & R1 & Q1). destruct (thm_C50_created tg' sz' (concat ys) l' id' dict' noun' W' N1' N2' E') as (l1' & R1' & Q1').
  do 4 eexists. split; [exact R1|]. split; [exact R1'|]. split; [exact Q1|]. split; [exact Q1'|]. apply rows_by_places.
  pose proof (pieces_tokens (fun x y => parts_in dict noun x = parts_in dict' noun' y) tg tg' sz sz' xs ys HR l l' W W' E E') as H.
  clear - H. induction H as [|tok tok' toks toks' H _ IH]; constructor; [|exact IH]. unfold parts_in in H. destruct (token tok) as [s [| | | |]|], (token tok') as [s' [| | | |]|]; exact H.
Qed.

End Replaced.
