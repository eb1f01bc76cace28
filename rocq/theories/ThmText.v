(** C37, C38, C45, C46, C50: resolvers that look at one token at a time. *)

From Verif Require Export SpecRes ThmSel.

Section ThmText.
Context {UC : Unicode} {U : UserTypes}.

Lemma str_eqb_spec a b : str_eqb a b = true <-> a = b.
Proof.
  revert b. induction a as [|x a IH]; intros [|y b]; simpl; try easy.
  rewrite andb_true_iff, N.eqb_eq, IH. split; [intros [-> ->]; auto|]. intros E. inversion E. auto.
Qed.

Lemma range_whole n : 0 < n -> range_incl 0 (n - 1) = seq 0 n.
Proof. intros H. unfold range_incl. f_equal. lia. Qed.

Lemma enumerate_seq {A} (l : list A) : forall i, map fst (enumerate_from i l) = seq i (length l).
Proof. induction l as [|a l IH]; intros i; simpl; [reflexivity|]. now rewrite IH. Qed.

Lemma flat_mapM_map {A B C} (g : A -> B) (f : B -> res (list C)) l :
  flat_mapM f (map g l) = flat_mapM (fun a => f (g a)) l.
Proof. induction l as [|a l IH]; [reflexivity|]. cbn [map]. rewrite !flat_mapM_cons, IH. reflexivity. Qed.

(** Finding with a matcher that only reports single tokens. *)
Lemma find_by_tokens {A} id l (m : matcher A) (f : nat -> LLToken -> list A) :
  ll_tokens l <> [] ->
  (forall i tok, nth_error (ll_tokens l) i = Some tok -> m (Fwd i) l = Ok (map (fun a => (a, i)) (f i tok))) ->
  find_by (whole id l) m =
  Ok (flat_map (fun '(i, tok) => map (fun a => (mkSel (mkRc id l) i i, a)) (f i tok))
        (enumerate_from 0 (ll_tokens l))).
Proof.
  intros HN HM. unfold find_by, whole, line_of. cbn [start_idx end_idx sel_line rc_line].
  rewrite range_whole by (destruct (ll_tokens l); [easy|simpl; lia]).
  rewrite <- (enumerate_seq (ll_tokens l) 0), flat_mapM_map. apply flat_mapM_ok.
  intros [i tok] Hin. apply enumerate_In in Hin. destruct Hin as [_ Hn]. rewrite Nat.sub_0_r in Hn.
  cbn [fst]. rewrite (HM i tok Hn). cbn [bind]. now rewrite map_map.
Qed.

Definition text_of (tok : LLToken) : list str :=
  match token tok with LText s _ => [s] | LValue => [] end.

Lemma token_text_at l i tok : nth_error (ll_tokens l) i = Some tok ->
  x_token_text (Fwd i) l = Ok (map (fun a => (a, i)) (text_of tok)).
Proof.
  intros Hn. unfold x_token_text, dir_text_token, text_of. rewrite Hn. cbn [expect bind].
  destruct (token tok); reflexivity.
Qed.

Lemma find_text_tokens id l : ll_tokens l <> [] ->
  find_by (whole id l) x_token_text =
  Ok (map (fun '(i, s) => (mkSel (mkRc id l) i i, s)) (text_tokens (ll_tokens l))).
Proof.
  intros HN. rewrite (find_by_tokens id l x_token_text (fun _ => text_of) HN).
  - f_equal. unfold text_tokens. rewrite map_filter_map, <- flat_map_filter_map. apply flat_map_ext.
    intros [i tok]. unfold text_of. destruct (token tok); reflexivity.
  - intros i tok Hn. now apply token_text_at.
Qed.

Lemma text_tokens_In toks i s : In (i, s) (text_tokens toks) <->
  exists tok tag, nth_error toks i = Some tok /\ token tok = LText s tag.
Proof.
  unfold text_tokens. rewrite in_filter_map. split.
  - intros ([k tok] & Hin & E). apply enumerate_In in Hin. destruct Hin as [_ Hn]. rewrite Nat.sub_0_r in Hn.
    destruct (token tok) as [s' tag|] eqn:Et; [|discriminate]. inversion E; subst. eauto.
  - intros (tok & tag & Hn & Et). exists (i, tok). split.
    + apply enumerate_In. rewrite Nat.sub_0_r. split; [lia|auto].
    + now rewrite Et.
Qed.

Definition as_pair {t} (x : LLCursorAssignment t) : LRange * den t := ((as_start x, as_end x), as_value x).

Lemma runs_to_intro {t} id l lg (r : Resolver t) out :
  History l lg ->
  (ll_tokens l = [] -> out = []) ->
  (ll_tokens l <> [] -> exists ass, r (whole id l) = Ok (mkGo ass false) /\ map as_pair ass = out) ->
  Forall (fun x => fst (fst x) < length (ll_tokens l) /\ snd (fst x) < length (ll_tokens l)) out ->
  runs_to id l lg r out.
Proof.
  intros H HE HG HF. destruct (ll_tokens l) as [|t0 ts] eqn:ET.
  - exists l. assert (ER : run id l r = Ok l) by (unfold run; now rewrite ET). split; auto. split; auto.
    rewrite (HE eq_refl). cbn [map]. rewrite app_nil_r. auto.
  - rewrite <- ET in *. assert (HN : ll_tokens l <> []) by (rewrite ET; discriminate).
    destruct (HG HN) as (ass & Hr & Ho).
    assert (HI : assignments_in (length (ll_tokens l)) ass).
    { unfold assignments_in. apply Forall_forall. intros x Hx. rewrite Forall_forall in HF.
      apply (HF (as_pair x)). rewrite <- Ho. now apply in_map. }
    assert (HX : exists l', run id l r = Ok l').
    { apply (thm_C14_run_ok_iff t id l lg r H HN). exists (mkGo ass false). auto. }
    destruct HX as (l' & E). exists l'. split; auto.
    destruct (run_inv id l lg r l' (history_repr _ _ H) HN E) as (_ & _ & _ & _ & HT & _). split; auto.
    rewrite <- Ho, map_map. replace (map (fun x => (let '(rg, v) := as_pair x in (rg, mkany t v)) : entry) ass)
      with (map assignment_entry ass) by (apply map_ext; reflexivity).
    exact (H_run l lg t id r (mkGo ass false) l' H HN Hr E).
Qed.

Lemma on_tokens_in {A} (f : nat -> str -> list A) l :
  Forall (fun x => fst (fst x) < length (ll_tokens l) /\ snd (fst x) < length (ll_tokens l)) (on_tokens f (ll_tokens l)).
Proof.
  apply Forall_forall. intros x Hx. unfold on_tokens in Hx. apply in_flat_map in Hx. destruct Hx as ([i s] & Hin & Hx).
  apply text_tokens_In in Hin. destruct Hin as (tok & tag & Hn & _). apply nth_error_lt_rev in Hn.
  apply in_map_iff in Hx. destruct Hx as (v & <- & _). auto.
Qed.

Lemma on_tokens_nil {A} (f : nat -> str -> list A) toks : toks = [] -> on_tokens f toks = [].
Proof. intros ->. reflexivity. Qed.

(** ** Text matching *)

Lemma map_get_values {V} (tb : list (str * list V)) text : NoDup (map fst tb) ->
  match map_get str_eqb tb text with Some vs => vs | None => [] end
  = entry_values (fun k => str_eqb k text) tb.
Proof.
  unfold entry_values. induction tb as [|[k vs] tb IH]; simpl; auto. intros HN. inversion HN; subst.
  destruct (str_eqb k text) eqn:E; auto. apply str_eqb_spec in E. subst k.
  rewrite flat_map_nil; [now rewrite app_nil_r|]. intros [k' vs'] Hin. destruct (str_eqb k' text) eqn:E; auto.
  apply str_eqb_spec in E. subst. exfalso. apply H1. apply in_map_iff. now exists (text, vs').
Qed.

Lemma text_match_run {t} id l lg (r : TextMatch t) :
  History l lg ->
  runs_to id l lg (text_match_go r)
    (on_tokens (fun _ text => match map_get str_eqb (lookup r) (if case_sensitive r then text else u_lower text) with
                            | Some vs => vs | None => [] end) (ll_tokens l)).
Proof.
  intros H. apply runs_to_intro; auto using on_tokens_in, on_tokens_nil.
  intros HN. eexists. split.
  - unfold text_match_go, no_retain. rewrite (find_text_tokens id l HN). cbn [bind]. reflexivity.
  - unfold on_tokens. rewrite flat_map_concat_map, concat_map, map_map, map_map.
    rewrite flat_map_concat_map. f_equal. apply map_ext. intros [i s].
    destruct (map_get _ _ _) as [vs|]; [|reflexivity]. now rewrite map_map.
Qed.

Lemma runs_to_eq {t} id l lg (r : Resolver t) out out' : out = out' -> runs_to id l lg r out -> runs_to id l lg r out'.
Proof. now intros ->. Qed.

Lemma on_tokens_ext {A} (f g : nat -> str -> list A) toks : (forall i s, In (i, s) (text_tokens toks) -> f i s = g i s) ->
  on_tokens f toks = on_tokens g toks.
Proof. intros H. unfold on_tokens. apply flat_map_ext_in. intros [i s] Hin. now rewrite H. Qed.

(** C37: a case-sensitive table assigns, to each text token, the values of the key
    equal to its text. *)
Lemma thm_C37_case_sensitive :
  forall t id l lg (table : list (str * list (den t))),
    History l lg -> NoDup (map fst table) ->
    runs_to id l lg (text_match_go (text_match_new table))
      (on_tokens (fun _ text => entry_values (fun k => str_eqb k text) table) (ll_tokens l)).
Proof.
  intros t id l lg table H HN. eapply runs_to_eq; [|apply text_match_run; auto].
  apply on_tokens_ext. intros i s _. simpl. now apply map_get_values.
Qed.

Lemma map_get_insert {V} (m : list (str * V)) k v x :
  map_get str_eqb (map_insert str_eqb m k v) x = if str_eqb k x then Some v else map_get str_eqb m x.
Proof.
  induction m as [|[k' v'] m IH]; simpl; auto. destruct (str_eqb k' k) eqn:E; simpl.
  - apply str_eqb_spec in E. subst. destruct (str_eqb k x); auto.
  - rewrite IH. destruct (str_eqb k' x) eqn:E1; auto. destruct (str_eqb k x) eqn:E2; auto.
    apply str_eqb_spec in E1, E2. subst. rewrite (proj2 (str_eqb_spec x x) eq_refl) in E. discriminate.
Qed.

Lemma collect_get {V} (tb : list (str * V)) x : forall m,
  map_get str_eqb (fold_left (fun m '(k, v) => map_insert str_eqb m k v) tb m) x
  = match rev (filter (fun e => str_eqb (fst e) x) tb) with (_, v) :: _ => Some v | [] => map_get str_eqb m x end.
Proof.
  induction tb as [|[k v] tb IH]; intros m; simpl; auto. rewrite IH, map_get_insert.
  destruct (str_eqb k x) eqn:E; simpl; auto.
  destruct (rev (filter _ tb)) as [|[k' v'] rest]; reflexivity.
Qed.

Lemma collect_last {V} (tb : list (str * list V)) text :
  match map_get str_eqb (collect_map (map (fun '(k, v) => (u_lower k, v)) tb)) (u_lower text) with Some vs => vs | None => [] end
  = last_entry_values (fun k => same_ignoring_case k text) tb.
Proof.
  unfold collect_map. rewrite collect_get. unfold last_entry_values, same_ignoring_case.
  replace (filter (fun e => str_eqb (fst e) (u_lower text)) (map (fun '(k, v) => (u_lower k, v)) tb))
    with (map (fun '(k, v) => (u_lower k, v)) (filter (fun e => str_eqb (u_lower (fst e)) (u_lower text)) tb)).
  - rewrite <- map_rev. destruct (rev _) as [|[k v] rest]; reflexivity.
  - induction tb as [|[k v] tb IH]; simpl; auto. destruct (str_eqb (u_lower k) (u_lower text)); simpl; now rewrite IH.
Qed.

(** C38, in full: whatever the table, each text token gets the values of the last
    entry (in the hash map's iteration order) equal to it up to case. *)
Lemma thm_C38_last_wins :
  forall t id l lg (table : list (str * list (den t))),
    History l lg ->
    runs_to id l lg (text_match_go (text_match_new_ci table))
      (on_tokens (fun _ text => last_entry_values (fun k => same_ignoring_case k text) table) (ll_tokens l)).
Proof.
  intros t id l lg table H. eapply runs_to_eq; [|apply text_match_run; auto].
  apply on_tokens_ext. intros i s _. simpl. apply collect_last.
Qed.

Lemma last_entry_unique {V} (key : str -> str) (tb : list (str * list V)) (x : str) : NoDup (map (fun e => key (fst e)) tb) ->
  last_entry_values (fun k => str_eqb (key k) x) tb = entry_values (fun k => str_eqb (key k) x) tb.
Proof.
  unfold last_entry_values, entry_values. induction tb as [|[k vs] tb IH]; simpl; auto. intros HN. inversion HN; subst.
  destruct (str_eqb (key k) x) eqn:E; [|auto]. apply str_eqb_spec in E. subst x.
  assert (EF : filter (fun e : str * list V => str_eqb (key (fst e)) (key k)) tb = []).
  { apply filter_none. intros [k' vs'] Hin. destruct (str_eqb _ _) eqn:E; auto. apply str_eqb_spec in E. exfalso.
    apply H1. apply in_map_iff. exists (k', vs'). auto. }
  rewrite EF. simpl. rewrite flat_map_nil; [now rewrite app_nil_r|].
  intros [k' vs'] Hin. destruct (str_eqb (key k') (key k)) eqn:E; auto. exfalso.
  assert (In (k', vs') (filter (fun e : str * list V => str_eqb (key (fst e)) (key k)) tb)) by (apply filter_In; auto).
  rewrite EF in H. destruct H.
Qed.

(** C37: the same without regard to case, for tables without keys equal up to case. *)
Lemma thm_C37_case_insensitive :
  forall t id l lg (table : list (str * list (den t))),
    History l lg -> NoDup (map (fun e => u_lower (fst e)) table) ->
    runs_to id l lg (text_match_go (text_match_new_ci table))
      (on_tokens (fun _ text => entry_values (fun k => same_ignoring_case k text) table) (ll_tokens l)).
Proof.
  intros t id l lg table H HN. eapply runs_to_eq; [|apply thm_C38_last_wins; auto].
  apply on_tokens_ext. intros i s _. now apply (last_entry_unique u_lower).
Qed.

(** The array constructor is the same with one value per key. *)
Lemma thm_C37_array :
  forall t id l lg (table : list (str * den t)),
    History l lg -> NoDup (map (fun e => u_lower (fst e)) table) ->
    runs_to id l lg (text_match_go (text_match_new_ci_arr table))
      (on_tokens (fun _ text => entry_values (fun k => same_ignoring_case k text) (map (fun '(k, v) => (k, [v])) table))
         (ll_tokens l)).
Proof.
  intros t id l lg table H HN.
  replace (text_match_new_ci_arr table) with (text_match_new_ci (map (fun '(k, v) => (k, [v])) table)).
  - apply thm_C37_case_insensitive; auto. rewrite map_map. erewrite map_ext; [exact HN|]. intros [k v]. reflexivity.
  - unfold text_match_new_ci, text_match_new_ci_arr. do 2 f_equal. rewrite map_map. apply map_ext. intros [k v]. reflexivity.
Qed.

Lemma last_entry_app {V} p (tb : list (str * list V)) k vs : p k = true -> last_entry_values p (tb ++ [(k, vs)]) = vs.
Proof. intros E. unfold last_entry_values. rewrite filter_app. simpl. rewrite E, rev_app_distr. reflexivity. Qed.

Lemma last_entry_agree {V} p (tb : list (str * list V)) (vs : list V) :
  (forall k vs', In (k, vs') tb -> p k = true -> vs' = vs) -> (exists k vs', In (k, vs') tb /\ p k = true) ->
  last_entry_values p tb = vs.
Proof.
  intros HA (k & vs' & Hin & E). unfold last_entry_values.
  destruct (rev (filter (fun e => p (fst e)) tb)) as [|[k1 vs1] rest] eqn:ER.
  - exfalso. assert (In (k, vs') (rev (filter (fun e => p (fst e)) tb))) by (rewrite <- in_rev; apply filter_In; auto).
    rewrite ER in H. destruct H.
  - assert (H : In (k1, vs1) (rev (filter (fun e => p (fst e)) tb))) by (rewrite ER; now left).
    rewrite <- in_rev in H. apply filter_In in H. destruct H as [H1 H2]. eauto.
Qed.

(** C38: the outcome does not depend on the order of the hash map if keys equal up
    to case have equal values ... *)
Lemma thm_C38_order_independent :
  forall t id l lg (table table' : list (str * list (den t))) out,
    History l lg -> Permutation table table' ->
    (forall k vs k' vs', In (k, vs) table -> In (k', vs') table -> u_lower k = u_lower k' -> vs = vs') ->
    runs_to id l lg (text_match_go (text_match_new_ci table)) out ->
    runs_to id l lg (text_match_go (text_match_new_ci table')) out.
Proof.
  intros t id l lg table table' out H HP HC HR.
  set (f := fun tb (_ : nat) text => last_entry_values (fun k => same_ignoring_case k text) tb : list (den t)).
  assert (EF : forall i text, f table i text = f table' i text).
  { intros i0 text. unfold f. clear i0.
    destruct (existsb (fun e => same_ignoring_case (fst e) text) table) eqn:EX.
    - apply existsb_exists in EX. destruct EX as ([k vs] & Hin & E). simpl in E.
      assert (HA : forall k' vs', In (k', vs') table -> same_ignoring_case k' text = true -> vs' = vs).
      { intros k' vs' Hin' E'. unfold same_ignoring_case in E, E'. apply str_eqb_spec in E, E'.
        apply (HC k' vs' k vs); auto. congruence. }
      rewrite (last_entry_agree _ table vs); [|auto|now exists k, vs].
      rewrite (last_entry_agree _ table' vs); [auto| |exists k, vs].
      + intros k' vs' Hin'. apply HA. eapply Permutation_in; [symmetry; exact HP|exact Hin'].
      + split; auto. eapply Permutation_in; eauto.
    - unfold last_entry_values. rewrite !filter_none; auto.
      + intros x Hx. destruct (same_ignoring_case (fst x) text) eqn:E; auto.
        assert (existsb (fun e => same_ignoring_case (fst e) text) table = true).
        { apply existsb_exists. exists x. split; auto. eapply Permutation_in; [symmetry; exact HP|exact Hx]. }
        congruence.
      + intros x Hx. destruct (same_ignoring_case (fst x) text) eqn:E; auto.
        assert (existsb (fun e => same_ignoring_case (fst e) text) table = true).
        { apply existsb_exists. exists x. auto. }
        congruence. }
  destruct HR as (l1 & E1 & ET & H1).
  assert (ER : run id l (text_match_go (text_match_new_ci table')) = run id l (text_match_go (text_match_new_ci table))).
  { unfold run. destruct (ll_tokens l) as [|t0 ts] eqn:ETk; auto.
    assert (HN : ll_tokens l <> []) by (rewrite ETk; discriminate).
    unfold text_match_go, no_retain. rewrite (find_text_tokens id l HN). cbn [bind].
    replace (flat_map _ (map (fun '(i, s) => (mkSel (mkRc id l) i i, s)) (text_tokens (ll_tokens l))))
      with (flat_map
       (fun '(sel, text) =>
        match
          map_get str_eqb (lookup (text_match_new_ci table))
            (if case_sensitive (text_match_new_ci table) then text else u_lower text)
        with
        | Some vs => map (fun v : den t => finish_with_attr sel v) vs
        | None => []
        end) (map (fun '(i, s) => (mkSel (mkRc id l) i i, s)) (text_tokens (ll_tokens l)))); auto.
    apply flat_map_ext. intros [s text]. cbn [case_sensitive lookup text_match_new_ci].
    specialize (EF 0 text). unfold f in EF. rewrite <- !collect_last in EF.
    destruct (map_get str_eqb (collect_map (map (fun '(k, v) => (u_lower k, v)) table)) (u_lower text));
    destruct (map_get str_eqb (collect_map (map (fun '(k, v) => (u_lower k, v)) table')) (u_lower text)); subst; auto. }
  exists l1. rewrite ER. auto.
Qed.

Lemma in_last {A} (x : A) l : In x l -> exists l', Permutation l (l' ++ [x]).
Proof.
  intros H. apply in_split in H. destruct H as (l1 & l2 & ->). exists (l1 ++ l2).
  rewrite <- app_assoc. apply Permutation_app_head. apply Permutation_cons_append.
Qed.

Lemma on_tokens_at {A} (f : nat -> str -> list A) toks i s : In (i, s) (text_tokens toks) ->
  filter_map (fun x => if range_eqb (fst x) (i, i) then Some (snd x) else None) (on_tokens f toks) = f i s.
Proof.
  unfold on_tokens, text_tokens. generalize 0. induction toks as [|tok toks IH]; intros k; simpl; [easy|].
  assert (HH : forall k' s', In (k', s') (filter_map (fun '(i, tok) => match token tok with LText s _ => Some (i, s) | LValue => None end)
             (enumerate_from (S k) toks)) -> k < k').
  { intros k' s' Hin. apply in_filter_map in Hin. destruct Hin as ([j tok'] & Hin & E). apply enumerate_In in Hin.
    destruct (token tok'); inversion E; subst. lia. }
  assert (HS : forall j (vs : list A), j <> i ->
     filter_map (fun x : LRange * A => if range_eqb (fst x) (i, i) then Some (snd x) else None) (map (pair (j, j)) vs) = []).
  { intros j vs Hj. apply filter_map_none. intros x Hx. apply in_map_iff in Hx. destruct Hx as (v & <- & _).
    simpl. unfold range_eqb. simpl. now rewrite (proj2 (Nat.eqb_neq j i) Hj). }
  destruct (token tok) as [s0 tag|]; [|intros Hin; apply IH; auto].
  simpl. rewrite filter_map_app. intros [E|Hin].
  - inversion E; subst. rewrite filter_map_map. cbn [fst snd]. unfold range_eqb at 1. cbn [fst snd].
    rewrite Nat.eqb_refl. cbn [andb]. rewrite filter_map_some, map_id.
    rewrite filter_map_none; [apply app_nil_r|]. intros x Hx. apply in_flat_map in Hx. destruct Hx as ([k' s'] & Hin & Hx).
    specialize (HH k' s' Hin). apply in_map_iff in Hx. destruct Hx as (v & <- & _). simpl. unfold range_eqb. simpl.
    now rewrite (proj2 (Nat.eqb_neq k' i)) by lia.
  - rewrite HS by (specialize (HH i s Hin); lia). apply IH. exact Hin.
Qed.

Lemma runs_to_same {t} id l lg (r : Resolver t) out out' :
  runs_to id l lg r out -> runs_to id l lg r out' ->
  forall rg, filter_map (fun x => if range_eqb (fst x) rg then Some (snd x) else None) out
   = filter_map (fun x => if range_eqb (fst x) rg then Some (snd x) else None) out'.
Proof.
  intros (l1 & E1 & _ & H1) (l2 & E2 & _ & H2) rg. rewrite E1 in E2. apply Ok_inj in E2. subst l2.
  assert (HV : forall o, values_on t rg (lg ++ map (fun '(rg, v) => (rg, mkany t v)) o) =
     values_on t rg lg ++ filter_map (fun x => if range_eqb (fst x) rg then Some (snd x) else None) o).
  { intros o. unfold values_on, assigned. rewrite !filter_map_app. f_equal. rewrite !filter_map_map.
    induction o as [|[r0 v] o IH]; simpl; auto. rewrite downcast_same. simpl. destruct (range_eqb r0 rg); simpl; now rewrite IH. }
  pose proof (rp_values l1 _ (history_repr _ _ H1) rg) as V1.
  pose proof (rp_values l1 _ (history_repr _ _ H2) rg) as V2.
  destruct (map_get range_eqb (values (attrs l1)) rg) as [tb|].
  - destruct V1 as [_ V1]. destruct V2 as [_ V2]. specialize (V1 t). specialize (V2 t). rewrite V1 in V2.
    apply Ok_inj in V2. rewrite !HV in V2. now apply app_inv_head in V2.
  - rewrite !filter_map_none; auto.
    + intros x Hx. destruct (range_eqb (fst x) rg) eqn:E; auto. exfalso. apply range_eqb_spec in E. apply V2.
      apply in_map_iff. exists (fst x, mkany t (snd x)). split; auto. apply in_or_app. right. apply in_map_iff.
      exists x. destruct x; auto.
    + intros x Hx. destruct (range_eqb (fst x) rg) eqn:E; auto. exfalso. apply range_eqb_spec in E. apply V1.
      apply in_map_iff. exists (fst x, mkany t (snd x)). split; auto. apply in_or_app. right. apply in_map_iff.
      exists x. destruct x; auto.
Qed.

(** ... and it does depend on it if two of them do not and the key occurs in the line. *)
Lemma thm_C38_order_dependent :
  forall t id l lg (table : list (str * list (den t))) k vs k' vs' i text,
    History l lg ->
    In (k, vs) table -> In (k', vs') table -> u_lower k = u_lower k' -> vs <> vs' ->
    In (i, text) (text_tokens (ll_tokens l)) -> u_lower text = u_lower k ->
    exists table1 table2, Permutation table table1 /\ Permutation table table2
      /\ forall out,
          runs_to id l lg (text_match_go (text_match_new_ci table1)) out ->
          ~ runs_to id l lg (text_match_go (text_match_new_ci table2)) out.
Proof.
  intros t id l lg table k vs k' vs' i text H H1 H2 EL NE Hi ET.
  destruct (in_last _ _ H1) as (t1 & P1). destruct (in_last _ _ H2) as (t2 & P2).
  exists (t1 ++ [(k, vs)]), (t2 ++ [(k', vs')]). split; auto. split; auto. intros out R1 R2.
  assert (HV : forall tb ku vu, u_lower text = u_lower ku ->
     runs_to id l lg (text_match_go (text_match_new_ci (tb ++ [(ku, vu)]))) out ->
     filter_map (fun x => if range_eqb (fst x) (i, i) then Some (snd x) else None) out = vu).
  { intros tb ku vu EK HR'.
    rewrite (runs_to_same _ _ _ _ _ _ HR' (thm_C38_last_wins t id l lg _ H) (i, i)).
    rewrite (on_tokens_at _ _ i text Hi). apply last_entry_app. unfold same_ignoring_case. apply str_eqb_spec. now symmetry. }
  apply NE. rewrite <- (HV t1 k vs ET R1). apply (HV t2 k' vs'); auto. congruence.
Qed.

(** ** Clause keywords *)

Lemma str_in_spec s l : str_in s l = true <-> In s l.
Proof.
  unfold str_in. rewrite existsb_exists. split.
  - intros (x & Hx & E). apply str_eqb_spec in E. now subst.
  - intros H. exists s. split; auto. now apply str_eqb_spec.
Qed.

Lemma keyword_of_spec r text k : keyword_of r text = Some k <-> classified r text k.
Proof.
  unfold keyword_of, classified.
  destruct (str_in _ (kw_cond_start r)) eqn:E1; [apply str_in_spec in E1|
    assert (~ In (u_lower text) (kw_cond_start r)) by (rewrite <- str_in_spec; congruence)].
  { split; [intros E; inversion E; auto|]. destruct k; tauto. }
  destruct (str_in _ (kw_then r)) eqn:E2; [apply str_in_spec in E2|
    assert (~ In (u_lower text) (kw_then r)) by (rewrite <- str_in_spec; congruence)].
  { split; [intros E; inversion E; auto|]. destruct k; tauto. }
  destruct (str_in _ (kw_and r)) eqn:E3; [apply str_in_spec in E3|
    assert (~ In (u_lower text) (kw_and r)) by (rewrite <- str_in_spec; congruence)].
  { split; [intros E; inversion E; auto|]. destruct k; tauto. }
  split; [discriminate|]. destruct k; tauto.
Qed.

Lemma clause_keyword_run id l lg r : History l lg ->
  runs_to id l lg (clause_keyword_go r) (on_tokens (fun _ text => opt_list (keyword_of r text)) (ll_tokens l)).
Proof.
  intros H. apply runs_to_intro; auto using on_tokens_in, on_tokens_nil.
  intros HN. eexists. split.
  - unfold clause_keyword_go, no_retain. rewrite (find_text_tokens id l HN). cbn [bind]. reflexivity.
  - unfold on_tokens. rewrite flat_map_concat_map, concat_map, map_map, map_map.
    rewrite flat_map_concat_map. f_equal. apply map_ext. intros [i s]. destruct (keyword_of r s); reflexivity.
Qed.

Lemma on_tokens_In {A} (f : nat -> str -> list A) toks a b v : In ((a, b), v) (on_tokens f toks) <->
  a = b /\ exists tok s tag, nth_error toks a = Some tok /\ token tok = LText s tag /\ In v (f a s).
Proof.
  unfold on_tokens. rewrite in_flat_map. split.
  - intros ([i s] & Hin & Hx). apply text_tokens_In in Hin. destruct Hin as (tok & tag & Hn & Et).
    apply in_map_iff in Hx. destruct Hx as (v' & E & Hv). inversion E; subst. split; auto. exists tok, s, tag. auto.
  - intros (<- & tok & s & tag & Hn & Et & Hv). exists (a, s). split; [apply text_tokens_In; eauto|].
    apply in_map_iff. eauto.
Qed.

Lemma text_tokens_sorted toks : StronglySorted lt (map fst (text_tokens toks)).
Proof.
  unfold text_tokens. generalize 0. induction toks as [|tok toks IH]; intros k; simpl; [constructor|].
  destruct (token tok) as [s tag|]; [|auto]. simpl. constructor; auto. apply Forall_forall. intros x Hx.
  apply in_map_iff in Hx. destruct Hx as ([i s'] & <- & Hin). apply in_filter_map in Hin.
  destruct Hin as ([j tok'] & Hin & E). apply enumerate_In in Hin. destruct (token tok'); inversion E; subst. simpl. lia.
Qed.

Lemma on_tokens_sorted {A} (f : nat -> str -> list A) toks : (forall i s, length (f i s) <= 1) ->
  StronglySorted lt (map (fun x => fst (fst x)) (on_tokens f toks)).
Proof.
  intros HL. unfold on_tokens. pose proof (text_tokens_sorted toks) as HS.
  induction (text_tokens toks) as [|[i s] ts IH]; simpl; [constructor|]. inversion HS; subst.
  rewrite map_app, map_map. cbn [fst]. specialize (HL i s). destruct (f i s) as [|v [|]]; simpl in HL; try lia; simpl; auto.
  constructor; auto. apply Forall_forall. intros x Hx. apply in_map_iff in Hx. destruct Hx as (y & <- & Hy).
  apply in_flat_map in Hy. destruct Hy as ([j s'] & Hin & Hy). apply in_map_iff in Hy. destruct Hy as (v' & <- & _). simpl.
  rewrite Forall_forall in H2. apply H2. apply in_map_iff. exists (j, s'). auto.
Qed.

(** C45: a token gets a keyword iff its lowercase text is configured, by priority
    condition start, then, and; at most one keyword per token, in token order. *)
Lemma thm_C45_keywords :
  forall id l lg r,
    History l lg ->
    exists out, runs_to id l lg (clause_keyword_go r) out
      /\ (forall a b k, In ((a, b), k) out <->
            a = b /\ exists tok text tag, nth_error (ll_tokens l) a = Some tok
                      /\ token tok = LText text tag /\ classified r text k)
      /\ StronglySorted lt (map (fun x => fst (fst x)) out).
Proof.
  intros id l lg r H. eexists. split; [apply clause_keyword_run; auto|]. split.
  - intros a b k. rewrite on_tokens_In. split.
    + intros (E & tok & s & tag & Hn & Et & Hk). split; auto. exists tok, s, tag. split; auto. split; auto.
      apply keyword_of_spec. destruct (keyword_of r s); simpl in Hk; [|easy]. destruct Hk as [->|[]]. auto.
    + intros (E & tok & s & tag & Hn & Et & Hk). split; auto. exists tok, s, tag. split; auto. split; auto.
      apply keyword_of_spec in Hk. rewrite Hk. now left.
  - apply on_tokens_sorted. intros i s. destruct (keyword_of r s); simpl; lia.
Qed.

(** C46, exactly: a token is recognised iff its lowercase text is one of the
    configured words (as configured). *)
Lemma thm_C46_exact :
  forall id l lg r a,
    History l lg ->
    exists out, runs_to id l lg (clause_keyword_go r) out
      /\ ((exists k, In ((a, a), k) out) <->
           exists tok text tag, nth_error (ll_tokens l) a = Some tok
             /\ token tok = LText text tag /\ configured r (u_lower text)).
Proof.
  intros id l lg r a H. destruct (thm_C45_keywords id l lg r H) as (out & HR & HI & _). exists out. split; auto. split.
  - intros (k & Hk). apply HI in Hk. destruct Hk as (_ & tok & s & tag & Hn & Et & Hc). exists tok, s, tag.
    split; auto. split; auto. unfold configured. destruct k; simpl in Hc; tauto.
  - intros (tok & s & tag & Hn & Et & Hc).
    assert (HK : exists k, keyword_of r s = Some k).
    { unfold keyword_of. destruct (str_in _ (kw_cond_start r)) eqn:E1; eauto.
      destruct (str_in _ (kw_then r)) eqn:E2; eauto. destruct (str_in _ (kw_and r)) eqn:E3; eauto. exfalso.
      unfold configured in Hc. rewrite <- !str_in_spec in Hc. rewrite E1, E2, E3 in Hc. intuition discriminate. }
    destruct HK as (k & HK). exists k. apply HI. split; auto. exists tok, s, tag. split; auto. split; auto.
    now apply keyword_of_spec.
Qed.

(** C46 as claimed, for words configured in lowercase. *)
Lemma thm_C46_lowercase_partial :
  forall id l lg r w a tok text tag,
    History l lg -> configured r w -> u_lower w = w ->
    nth_error (ll_tokens l) a = Some tok -> token tok = LText text tag -> u_lower text = u_lower w ->
    exists out k, runs_to id l lg (clause_keyword_go r) out /\ In ((a, a), k) out.
Proof.
  intros id l lg r w a tok text tag H Hc Hw Hn Et El. destruct (thm_C46_exact id l lg r a H) as (out & HR & HI).
  destruct (proj2 HI) as (k & Hk).
  - exists tok, text, tag. split; auto. split; auto. rewrite El, Hw. auto.
  - exists out, k. auto.
Qed.

(** C46: a word not configured in lowercase never causes a recognition
    ([to_lowercase] being idempotent). *)
Lemma thm_C46_never :
  forall id l lg r a,
    History l lg -> (forall s, u_lower (u_lower s) = u_lower s) ->
    (forall w, configured r w -> u_lower w <> w) ->
    exists out, runs_to id l lg (clause_keyword_go r) out /\ forall k, ~ In ((a, a), k) out.
Proof.
  intros id l lg r a H HI HW. destruct (thm_C46_exact id l lg r a H) as (out & HR & HX). exists out. split; auto.
  intros k Hk. destruct (proj1 HX) as (tok & s & tag & _ & _ & Hc); [eauto|]. apply (HW _ Hc). apply HI.
Qed.

(** ** Matching text tokens with a tag *)

Lemma perm_const {A} (c : A) l l' : (forall x, In x l -> x = c) -> Permutation l l' -> l = l'.
Proof.
  intros H P. assert (H' : forall x, In x l' -> x = c) by (intros x Hx; apply H; eapply Permutation_in; [symmetry; exact P|auto]).
  assert (HR : forall l, (forall x, In x l -> x = c) -> l = repeat c (length l)).
  { clear. induction l as [|x l IH]; simpl; intros H; auto. rewrite <- IH by auto. rewrite (H x) by auto. auto. }
  rewrite (HR l H), (HR l' H'), (Permutation_length P). auto.
Qed.

Lemma starting_at_single t i lg : map fst (filter (fun x => Nat.eqb (snd x) i) (starting_at t i lg)) = values_on t (i, i) lg.
Proof.
  unfold starting_at, values_on. rewrite filter_filter_map, map_filter_map. apply filter_map_ext.
  intros [[a b] v] _. unfold range_eqb. simpl. destruct (Nat.eqb a i); simpl; auto. destruct (Nat.eqb b i); auto.
Qed.

Lemma tagged_text_at l lg tag i tok :
  History l lg -> nth_error (ll_tokens l) i = Some tok ->
  x_all2 (x_attr_eq TTextTag TextTag_eqb tag) x_token_text (Fwd i) l =
  Ok (map (fun a => (a, i)) (flat_map (fun s => map (fun _ => (tt, s)) (tagged tag i lg)) (text_of tok))).
Proof.
  intros H Hn. pose proof (nth_error_lt_rev _ _ _ Hn) as Hi.
  destruct (thm_C15_attr_eq l lg TTextTag TextTag_eqb tag i H Hi) as ((al & Ea & Pa) & _).
  unfold x_all2. rewrite Ea, (token_text_at l i tok Hn). cbn [bind]. f_equal.
  unfold text_of. destruct (token tok) as [s g|]; simpl.
  - rewrite app_nil_r, map_map.
    transitivity (map (fun _ => ((tt, s), i)) (at_end i al)).
    + unfold at_end. clear. induction al as [|[[] j] al IH]; simpl; auto.
      destruct (Nat.eqb j i) eqn:E; simpl; auto. apply Nat.eqb_eq in E. subst. now rewrite IH.
    + apply (perm_const ((tt, s), i)).
      * intros x Hx. apply in_map_iff in Hx. destruct Hx as (? & <- & _). auto.
      * rewrite (Permutation_map (fun _ => ((tt, s), i)) (at_end_perm i _ _ Pa)).
        unfold at_end, tagged. rewrite <- (starting_at_single TTextTag i lg). clear.
        apply Permutation_refl'. unfold passing. induction (starting_at TTextTag i lg) as [|[v j] ms IH]; simpl; auto.
        destruct (TextTag_eqb v tag) eqn:E1; destruct (Nat.eqb j i) eqn:E2; simpl; rewrite ?E1, ?E2; simpl; rewrite ?E1; simpl; first [exact IH|f_equal; exact IH].
  - clear. induction al as [|[a j] al IH]; simpl; auto.
Qed.

Lemma find_tagged_text id l lg tag : History l lg -> ll_tokens l <> [] ->
  find_by (whole id l) (x_all2 (x_attr_eq TTextTag TextTag_eqb tag) x_token_text) =
  Ok (flat_map (fun '(i, s) => map (fun _ => (mkSel (mkRc id l) i i, (tt, s))) (tagged tag i lg)) (text_tokens (ll_tokens l))).
Proof.
  intros H HN.
  rewrite (find_by_tokens id l _ (fun i tok => flat_map (fun s => map (fun _ => (tt, s)) (tagged tag i lg)) (text_of tok)) HN).
  - f_equal. unfold text_tokens. generalize 0. generalize (ll_tokens l). induction l0 as [|tok toks IH]; intros k; simpl; auto.
    rewrite IH. unfold text_of. destruct (token tok); simpl; auto. now rewrite app_nil_r, map_map.
  - intros i tok Hn. apply tagged_text_at; auto.
Qed.

(** C50: the tags of each WORD token are those of the dictionary entry for its
    lowercase text, Noun without one; once per WORD tag on the token. *)
Lemma thm_C50_tags :
  forall id l lg dict noun,
    History l lg ->
    runs_to id l lg (pos_go dict noun)
      (on_tokens (fun i text => flat_map (fun _ => match dict (u_lower text) with Some tags => tags | None => [noun] end)
                                         (tagged WORD i lg)) (ll_tokens l)).
Proof.
  intros id l lg dict noun H. apply runs_to_intro; auto using on_tokens_in, on_tokens_nil.
  intros HN. eexists. split.
  - unfold pos_go, no_retain. rewrite (find_tagged_text id l lg WORD H HN). cbn [bind]. reflexivity.
  - unfold on_tokens. rewrite flat_map_concat_map, concat_map, map_map.
    induction (text_tokens (ll_tokens l)) as [|[i s] ts IH]; [reflexivity|].
    cbn [flat_map]. rewrite map_app, concat_app, IH. f_equal. rewrite map_map.
    induction (tagged WORD i lg) as [|w ws IHw]; [reflexivity|]. cbn [map flat_map concat].
    rewrite IHw, map_app. f_equal. rewrite !map_map. reflexivity.
Qed.

(** ** Lines with the tokenizer's tags and characters only *)

Lemma assigned_app t lg lg' : assigned t (lg ++ lg') = assigned t lg ++ assigned t lg'.
Proof. unfold assigned. apply filter_map_app. Qed.

Lemma tokens_log_values t : (t = TTextTag \/ t = TChar) -> forall ts k i,
  values_on t (i, i) (tokens_log k ts)
  = match (if k <=? i then nth_error ts (i - k) else None) with
    | Some tok => values_on t (i, i) (token_entries i tok)
    | None => []
    end.
Proof.
  intros Ht. induction ts as [|tok ts IH]; intros k i; simpl.
  - destruct (k <=? i); [destruct (i - k)|]; reflexivity.
  - unfold values_on in *. rewrite assigned_app, filter_map_app, IH.
    destruct (Nat.eq_dec k i) as [->|N].
    + rewrite Nat.leb_refl, Nat.sub_diag. cbn [nth_error].
      destruct (S i <=? i) eqn:E; [apply Nat.leb_le in E; lia|]. apply app_nil_r.
    + assert (E0 : filter_map (fun '(r', v) => if range_eqb r' (i, i) then Some v else None) (assigned t (token_entries k tok)) = []).
      { apply filter_map_none. intros [rg v] Hin. unfold assigned in Hin. apply in_filter_map in Hin.
        destruct Hin as ([rg' a] & Hin & E). destruct (downcast t a); inversion E; subst.
        assert (rg = (k, k)). { destruct tok as [s tag|]; [|easy]. simpl in Hin. destruct s as [|c [|]]; simpl in Hin; intuition congruence. }
        subst. rewrite (proj2 (range_eqb_neq (k, k) (i, i))); auto. intros C. inversion C. lia. }
      rewrite E0. cbn [app].
      destruct (k <=? i) eqn:E1; destruct (S k <=? i) eqn:E2; rewrite ?Nat.leb_le, ?Nat.leb_nle in *; try lia; auto.
      replace (i - k) with (S (i - S k)) by lia. reflexivity.
Qed.

Lemma plain_values t l lg i tok : (t = TTextTag \/ t = TChar) -> plain t l lg ->
  nth_error (ll_tokens l) i = Some tok -> values_on t (i, i) lg = values_on t (i, i) (token_entries i (token tok)).
Proof.
  intros Ht HP Hn. unfold values_on at 1. rewrite HP. fold (values_on t (i, i) (tokens_log 0 (map token (ll_tokens l)))).
  rewrite (tokens_log_values t Ht). cbn [Nat.leb]. rewrite Nat.sub_0_r, nth_error_map, Hn. reflexivity.
Qed.

Lemma plain_plain_tags l lg : plain TTextTag l lg -> plain_tags l lg.
Proof.
  intros HP i tok s tag Hn Et. rewrite (plain_values TTextTag l lg i tok) by auto. rewrite Et. unfold values_on. simpl.
  destruct s as [|c [|]]; simpl; rewrite range_eqb_refl; reflexivity.
Qed.

Lemma plain_chars l lg i tok : plain TChar l lg -> nth_error (ll_tokens l) i = Some tok ->
  values_on TChar (i, i) lg = opt_list (char_of (token tok)).
Proof.
  intros HP Hn. rewrite (plain_values TChar l lg i tok) by auto. unfold values_on. destruct (token tok) as [s tag|]; [|reflexivity].
  simpl. destruct s as [|c [|]]; simpl; rewrite ?range_eqb_refl; reflexivity.
Qed.

(** Lines are created with plain tags (and characters) unless the input brings
    its own, ... *)
Lemma thm_C07_created_plain :
  forall tg sz input l,
    Forall wf_input input ->
    create_line_from_input_tokens tg input sz = Ok l ->
    exists lg, History l lg /\ forall t, none_of t input -> plain t l lg.
Proof.
  intros tg sz input l HW H. destruct (create_facts tg sz input l HW H) as (groups & H1 & H2 & H3 & HT & HR).
  exists (creation_log (map (map fst) groups) input). split; [eapply H_create; eauto|].
  intros t HN. unfold plain, creation_log. rewrite assigned_app.
  assert (E : forall gs inp k, (forall it, In it inp -> In it input) -> assigned t (input_log k gs inp) = []).
  { induction gs as [|g gs IH]; intros [|it inp] k HI; simpl; auto. rewrite assigned_app, IH by (intros; apply HI; now right).
    rewrite app_nil_r. unfold assigned. rewrite filter_map_map. apply filter_map_none. intros a Ha.
    rewrite (HN it a); auto. apply HI. now left. }
  rewrite E by auto. rewrite app_nil_r. do 2 f_equal. rewrite HT, layout_by_tokens. apply concat_map_map.
Qed.

(** ... and resolvers for other types keep them so. *)
Lemma thm_C12_keeps_plain :
  forall t t' id l lg (r : Resolver t') out,
    t <> t' -> plain t l lg -> runs_to id l lg r out ->
    exists l', run id l r = Ok l' /\ History l' (lg ++ map (fun '(rg, v) => (rg, mkany t' v)) out)
      /\ plain t l' (lg ++ map (fun '(rg, v) => (rg, mkany t' v)) out).
Proof.
  intros t t' id l lg r out HT HP (l' & E & ET & H). exists l'. split; auto. split; auto.
  unfold plain. rewrite ET, assigned_app, HP.
  replace (assigned t (map (fun '(rg, v) => (rg, mkany t' v)) out)) with (@nil (LRange * den t)); [apply app_nil_r|].
  symmetry. unfold assigned. rewrite filter_map_map. apply filter_map_none. intros [rg v] _.
  rewrite downcast_other; auto.
Qed.

(** In any line, the tag of a token is NATN iff its text is a row of ASCII digits. *)
Lemma thm_C05_natn_any_line :
  forall l lg tok s tag,
    History l lg -> In tok (ll_tokens l) -> token tok = LText s tag -> (tag = NATN <-> all_digits s).
Proof.
  intros l lg tok s tag H. induction H as [tg sz input groups l HW H HG | M size st st' tg input groups l HW H HG | l lg t id r g l' H IH HN Hg H2 | l lg t id r l' H IH HN H2];
    intros Hin Et.
  - eapply thm_C05_natn; eauto.
  - destruct (mem_create_facts size tg input st st' l HW H) as (groups0 & groups' & H1 & EG & _ & _ & HN & _ & HT & _).
    assert (HN0 : Forall (fun g => g <> []) groups0).
    { assert (X : Forall (fun g => g <> []) (map (map fst) groups0)).
      { rewrite <- EG. apply Forall_map. eapply Forall_impl; [|exact HN]. now intros [|x g]. }
      rewrite Forall_map in X. eapply Forall_impl; [|exact X]. now intros [|x g]. }
    destruct (create_ok (mkTarget (usize_bits tg) false) size_zero input groups0 HW H1 HN0) as (l0 & E0 & T0 & _); [now left|].
    assert (ET : map token (ll_tokens l) = map token (ll_tokens l0))
      by (rewrite HT, T0, !layout_by_tokens, <- !concat_map_map; congruence).
    assert (Hin0 : In (token tok) (map token (ll_tokens l0))) by (rewrite <- ET; now apply in_map).
    apply in_map_iff in Hin0. destruct Hin0 as (tok0 & E1 & Hin0).
    eapply thm_C05_natn; eauto. congruence.
  - apply IH; auto. destruct (run_inv id l lg r l' (history_repr _ _ H) HN H2) as (_ & _ & _ & _ & HT & _). now rewrite <- HT.
  - unfold run in H2. rewrite HN in H2. inversion H2; subst. auto.
Qed.

(** C50 on lines whose text tags are those of creation: exactly the WORD tokens. *)
Lemma thm_C50_plain :
  forall id l lg dict noun,
    History l lg -> plain_tags l lg ->
    exists out, runs_to id l lg (pos_go dict noun) out
      /\ forall i tok text tag, nth_error (ll_tokens l) i = Some tok -> token tok = LText text tag ->
          filter_map (fun x => if range_eqb (fst x) (i, i) then Some (snd x) else None) out
          = match tag with
            | WORD => match dict (u_lower text) with Some tags => tags | None => [noun] end
            | _ => []
            end.
Proof.
  intros id l lg dict noun H HP. eexists. split; [apply thm_C50_tags; auto|].
  intros i tok text tag Hn Et. rewrite (on_tokens_at _ _ i text) by (apply text_tokens_In; eauto).
  unfold tagged. rewrite (HP i tok text tag Hn Et). destruct tag; simpl; auto. now rewrite app_nil_r.
Qed.

End ThmText.
