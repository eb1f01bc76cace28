(** Correctness of LLLine's attribute indexes, run and query against the log. *)

From Verif Require Export LemStore.

Section LemLine.
Context {U : UserTypes}.

(** The line [l] represents the log [lg]. *)
Record Repr (l : LLLine) (lg : list entry) : Prop := {
  rp_starts_len : length (starts_at (attrs l)) = length (ll_tokens l);
  rp_ends_len : length (ends_at (attrs l)) = length (ll_tokens l);
  rp_in : in_line (length (ll_tokens l)) lg;
  rp_ranges : forall t, tm_get (ranges (attrs l)) t = ranges_of t lg;
  rp_starts : forall i m t, nth_error (starts_at (attrs l)) i = Some m ->
    tm_get m t = filter (fun r => Nat.eqb (fst r) i) (ranges_of t lg);
  rp_ends : forall i m t, nth_error (ends_at (attrs l)) i = Some m ->
    tm_get m t = filter (fun r => Nat.eqb (snd r) i) (ranges_of t lg);
  rp_values : forall r,
    match map_get range_eqb (values (attrs l)) r with
    | None => ~ In r (map fst lg)
    | Some tb => In r (map fst lg) /\ forall t, tb_get tb t = Ok (values_on t r lg)
    end;
}.

Lemma values_on_absent t r lg : ~ In r (map fst lg) -> values_on t r lg = [].
Proof.
  intros H. destruct (values_on t r lg) as [|v vs] eqn:E; auto.
  exfalso. apply H. assert (In v (values_on t r lg)) by (rewrite E; now left).
  apply values_on_In in H0. apply in_map_iff. exists (r, mkany t v); auto.
Qed.

Section Insert.
Variables (l : LLLine) (lg : list entry) (r : LRange) (t : ty) (v : den t).
Variable F : TypeBucket -> res TypeBucket.
Hypothesis HF : forall tb (G : forall t, list (den t)),
  (forall t', tb_get tb t' = Ok (G t')) ->
  exists tb', F tb = Ok tb' /\
    forall t', tb_get tb' t' = Ok (G t' ++ opt_list (downcast t' (mkany t v))).

Definition insert_with (a : LLLineAttrs) : res LLLineAttrs :=
  sa <- update_nth PStartsAt (fst r) (fun m => tm_insert_distinct m t r) (starts_at a);;
  ea <- update_nth PEndsAt (snd r) (fun m => tm_insert_distinct m t r) (ends_at a);;
  vs <- map_entry range_eqb (values a) r tb_new F;;
  Ok (mkAttrs (tm_insert_distinct (ranges a) t r) sa ea vs).

Lemma index_insert (p : LRange -> bool) (m : TypeIdToMany) t' :
  p r = true ->
  tm_get m t' = filter p (ranges_of t' lg) ->
  tm_get (tm_insert_distinct m t r) t' = filter p (ranges_of t' (lg ++ [(r, mkany t v)])).
Proof.
  intros Hp Hm. rewrite tm_insert_get, ranges_of_snoc.
  destruct (ty_eqb t t'); auto. rewrite Hm, filter_push_distinct, Hp. reflexivity.
Qed.

Lemma index_keep (p : LRange -> bool) (m : TypeIdToMany) t' :
  p r = false ->
  tm_get m t' = filter p (ranges_of t' lg) ->
  tm_get m t' = filter p (ranges_of t' (lg ++ [(r, mkany t v)])).
Proof.
  intros Hp Hm. rewrite ranges_of_snoc.
  destruct (ty_eqb t t'); auto. rewrite Hm, filter_push_distinct, Hp. reflexivity.
Qed.

Lemma insert_with_ok :
  Repr l lg -> fst r < length (ll_tokens l) -> snd r < length (ll_tokens l) ->
  exists a', insert_with (attrs l) = Ok a' /\
             Repr (mkLine (ll_tokens l) a') (lg ++ [(r, mkany t v)]).
Proof.
  intros [Hsl Hel Hin Hr Hs He Hv] H1 H2. unfold insert_with.
  destruct (update_nth_ok PStartsAt (fst r) (fun m => tm_insert_distinct m t r) (starts_at (attrs l)))
    as (sa & Esa & Lsa & Nsa); [lia|]. rewrite Esa; simpl.
  destruct (update_nth_ok PEndsAt (snd r) (fun m => tm_insert_distinct m t r) (ends_at (attrs l)))
    as (ea & Eea & Lea & Nea); [lia|]. rewrite Eea; simpl.
  assert (HG : forall t', tb_get (match map_get range_eqb (values (attrs l)) r with
                                  | Some tb => tb | None => tb_new end) t' = Ok (values_on t' r lg)).
  { intros t'. specialize (Hv r). destruct (map_get range_eqb (values (attrs l)) r).
    - apply Hv.
    - rewrite tb_get_new. now rewrite values_on_absent. }
  destruct (HF _ (fun t' => values_on t' r lg) HG) as (tb' & EF & Htb').
  destruct (map_entry_ok range_eqb range_eqb_spec (values (attrs l)) r tb_new F tb' EF)
    as (vs & Evs & Hvs). rewrite Evs; simpl.
  eexists; split; [reflexivity|]. constructor; simpl.
  - congruence.
  - congruence.
  - apply Forall_app. split; auto.
  - intros t'. rewrite tm_insert_get, Hr, ranges_of_snoc. reflexivity.
  - intros i m t' Hm. rewrite Nsa in Hm. destruct (Nat.eqb (fst r) i) eqn:E.
    + apply Nat.eqb_eq in E; subst i.
      destruct (nth_error (starts_at (attrs l)) (fst r)) as [m0|] eqn:Em; simpl in Hm; [|discriminate].
      inversion Hm; subst m. apply index_insert; auto. now rewrite Nat.eqb_refl.
    + apply index_keep; auto.
  - intros i m t' Hm. rewrite Nea in Hm. destruct (Nat.eqb (snd r) i) eqn:E.
    + apply Nat.eqb_eq in E; subst i.
      destruct (nth_error (ends_at (attrs l)) (snd r)) as [m0|] eqn:Em; simpl in Hm; [|discriminate].
      inversion Hm; subst m. apply index_insert; auto. now rewrite Nat.eqb_refl.
    + apply index_keep; auto.
  - intros r'. rewrite Hvs. rewrite map_app; simpl. destruct (range_eqb r r') eqn:E.
    + apply range_eqb_spec in E; subst r'. split.
      * apply in_or_app; right; now left.
      * intros t'. rewrite Htb', values_on_app, values_on_single, range_eqb_refl. reflexivity.
    + specialize (Hv r'). apply range_eqb_neq in E.
      destruct (map_get range_eqb (values (attrs l)) r').
      * destruct Hv as [Hv1 Hv2]. split; [apply in_or_app; auto|].
        intros t'. rewrite values_on_app, values_on_single.
        apply range_eqb_neq in E. rewrite E, app_nil_r. apply Hv2.
      * intros F'. apply in_app_or in F'. destruct F' as [F'|[F'|[]]]; auto.
Qed.
End Insert.

Lemma attrs_insert_ok l lg r t v :
  Repr l lg -> fst r < length (ll_tokens l) -> snd r < length (ll_tokens l) ->
  exists a', attrs_insert (attrs l) r t v = Ok a' /\
             Repr (mkLine (ll_tokens l) a') (lg ++ [(r, mkany t v)]).
Proof.
  apply (insert_with_ok l lg r t v (fun tb => tb_insert tb t v)).
  intros tb G HG. now apply tb_insert_ok.
Qed.

Lemma attrs_insert_any_ok l lg r t v :
  Repr l lg -> fst r < length (ll_tokens l) -> snd r < length (ll_tokens l) ->
  exists a', attrs_insert_any (attrs l) r (any_attribute_new t v) = Ok a' /\
             Repr (mkLine (ll_tokens l) a') (lg ++ [(r, mkany t v)]).
Proof.
  apply (insert_with_ok l lg r t v (fun tb => tb_insert_any_attribute tb (any_attribute_new t v))).
  intros tb G HG. now apply tb_insert_any_ok.
Qed.

Lemma attrs_insert_panic l lg r t v :
  Repr l lg -> ~ (fst r < length (ll_tokens l) /\ snd r < length (ll_tokens l)) ->
  attrs_insert (attrs l) r t v = Panic PStartsAt \/ attrs_insert (attrs l) r t v = Panic PEndsAt.
Proof.
  intros [Hsl Hel _ _ _ _ _] H. unfold attrs_insert.
  destruct (Nat.lt_ge_cases (fst r) (length (ll_tokens l))) as [H1|H1].
  - destruct (update_nth_ok PStartsAt (fst r) (fun m => tm_insert_distinct m t r) (starts_at (attrs l)))
      as (sa & Esa & _); [lia|]. rewrite Esa; simpl.
    rewrite update_nth_panic by lia. auto.
  - rewrite update_nth_panic by lia. auto.
Qed.

(** ** Storing a list of assignments *)

Lemma store_ok {t : ty} (ass : list (LLCursorAssignment t)) l lg :
  Repr l lg ->
  Forall (fun x => as_start x < length (ll_tokens l) /\ as_end x < length (ll_tokens l)) ass ->
  exists l', store_assignments l ass = Ok l' /\ ll_tokens l' = ll_tokens l /\
             Repr l' (lg ++ map assignment_entry ass).
Proof.
  unfold store_assignments. revert l lg. induction ass as [|x ass IH]; simpl; intros l lg HR HF.
  - exists l. destruct l; simpl. rewrite app_nil_r. auto.
  - inversion HF as [|? ? [H1 H2] HF']; subst.
    destruct (attrs_insert_ok l lg (as_start x, as_end x) t (as_value x) HR H1 H2) as (a' & E & HR').
    rewrite E; simpl.
    destruct (IH (mkLine (ll_tokens l) a') _ HR') as (l' & E' & Ht & HR'').
    { simpl; auto. }
    simpl in E'. exists l'. split; auto. split; auto.
    rewrite <- app_assoc in HR''. exact HR''.
Qed.

Lemma store_panic {t : ty} (ass : list (LLCursorAssignment t)) l lg :
  Repr l lg ->
  ~ Forall (fun x => as_start x < length (ll_tokens l) /\ as_end x < length (ll_tokens l)) ass ->
  store_assignments l ass = Panic PStartsAt \/ store_assignments l ass = Panic PEndsAt.
Proof.
  unfold store_assignments. revert l lg. induction ass as [|x ass IH]; simpl; intros l lg HR HF.
  - exfalso; apply HF; constructor.
  - destruct (Nat.ltb (as_start x) (length (ll_tokens l)) && Nat.ltb (as_end x) (length (ll_tokens l))) eqn:B.
    + apply andb_true_iff in B. destruct B as [H1 H2].
      apply Nat.ltb_lt in H1, H2.
      destruct (attrs_insert_ok l lg (as_start x, as_end x) t (as_value x) HR H1 H2) as (a' & E & HR').
      rewrite E; simpl.
      apply (IH (mkLine (ll_tokens l) a') _ HR'). simpl. intros C. apply HF. constructor; auto.
    + destruct (attrs_insert_panic l lg (as_start x, as_end x) t (as_value x) HR) as [E|E].
      * simpl. intros [H1 H2]. apply Nat.ltb_lt in H1, H2. rewrite H1, H2 in B. discriminate.
      * rewrite E. auto.
      * rewrite E. auto.
Qed.

(** ** query *)

Lemma text_between_slice toks s e :
  s <= S e -> e < length toks ->
  exists sl, slice_incl toks s e = Ok sl /\ concat (map token_str sl) = text_between toks s e.
Proof.
  intros H1 H2. unfold slice_incl.
  rewrite (proj2 (Nat.leb_le s (S e)) H1), (proj2 (Nat.leb_le (S e) (length toks)) H2). simpl andb.
  cbv iota. eexists; split; [reflexivity|].
  unfold text_between.
  assert (Hb : s + (S e - s) <= length toks) by lia.
  clear H1 H2. remember (S e - s) as n eqn:En. clear En e.
  revert s Hb. induction n as [|n IH]; intros s Hb; [reflexivity|].
  simpl seq. simpl flat_map.
  destruct (nth_error_lt toks s) as (tok & Etok); [lia|]. rewrite Etok.
  rewrite <- (IH (S s)) by lia.
  assert (E : skipn s toks = tok :: skipn (S s) toks).
  { clear - Etok. revert s Etok. induction toks as [|x toks IH]; intros [|s] H; simpl in *; try discriminate.
    - congruence.
    - auto. }
  rewrite E. reflexivity.
Qed.

Lemma query_ok l lg t :
  Repr l lg -> ordered lg -> query l t = Ok (query_spec (ll_tokens l) t lg).
Proof.
  intros [Hsl Hel Hin Hr Hs He Hv] Ho. unfold query, query_spec. rewrite Hr.
  apply mapM_ok. intros r HIn. apply ranges_of_In in HIn. destruct HIn as (v & HIn).
  unfold in_line, ordered in *. rewrite Forall_forall in Hin, Ho.
  specialize (Hin _ HIn). specialize (Ho _ HIn). simpl in Hin, Ho.
  destruct (text_between_slice (ll_tokens l) (fst r) (snd r)) as (sl & Esl & Tsl); try lia.
  rewrite Esl; simpl. specialize (Hv r).
  destruct (map_get range_eqb (values (attrs l)) r) as [tb|].
  - simpl. destruct Hv as [_ Hv]. rewrite Hv; simpl. rewrite Tsl. reflexivity.
  - exfalso. apply Hv. apply in_map_iff. exists (r, mkany t v); auto.
Qed.

End LemLine.
