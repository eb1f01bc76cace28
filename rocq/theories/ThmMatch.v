(** Proofs of the properties of matchers (C15, C16, C18-C23). *)

From Verif Require Export ThmRun.

Section ThmMatch.
Context {UC : Unicode} {U : UserTypes}.

(** ** C15 *)

Lemma filter_map_two {A B C} (f : A -> option B) (g : B -> option C) l :
  filter_map g (filter_map f l) = filter_map (fun a => match f a with Some b => g b | None => None end) l.
Proof. induction l as [|a l IH]; simpl; auto. destruct (f a); simpl; rewrite IH; auto. Qed.

Lemma scan_starting t lg i :
  Permutation (scan t lg (sel_of (Fwd i)) (fun r v => Some (v, other_end (Fwd i) r))) (starting_at t i lg).
Proof. apply scan_perm. Qed.

Lemma scan_ending t lg i :
  Permutation (scan t lg (sel_of (Bwd i)) (fun r v => Some (v, other_end (Bwd i) r))) (ending_at t i lg).
Proof. apply scan_perm. Qed.

Lemma passing_map {A B} (p : A -> bool) (f : A * nat -> B) ms :
  map f (passing p ms) = filter_map (fun x => if p (fst x) then Some (f x) else None) ms.
Proof. unfold passing. induction ms as [|x ms IH]; simpl; auto. destruct (p (fst x)); simpl; congruence. Qed.

(** C15: attribute matching, forwards and backwards, is exact and never panics at
    a token of the line. *)
Lemma thm_C15_attr :
  forall l lg t i,
    History l lg -> i < length (ll_tokens l) ->
    (exists ms, x_attr t (Fwd i) l = Ok ms /\ Permutation ms (starting_at t i lg))
    /\ (exists ms, x_attr t (Bwd i) l = Ok ms /\ Permutation ms (ending_at t i lg)).
Proof.
  intros l lg t i H Hi. pose proof (history_repr _ _ H) as HR. unfold x_attr.
  rewrite !(dir_attr_run l lg) by auto. cbn [dir_idx]. rewrite (proj2 (Nat.ltb_lt _ _) Hi).
  split; (eexists; split; [reflexivity|]); [apply scan_starting|apply scan_ending].
Qed.

Lemma thm_C15_attr_eq :
  forall l lg t eqT v i,
    History l lg -> i < length (ll_tokens l) ->
    (exists ms, x_attr_eq t eqT v (Fwd i) l = Ok ms
       /\ Permutation ms (map (fun x => (tt, snd x)) (passing (fun w => eqT w v) (starting_at t i lg))))
    /\ (exists ms, x_attr_eq t eqT v (Bwd i) l = Ok ms
       /\ Permutation ms (map (fun x => (tt, snd x)) (passing (fun w => eqT w v) (ending_at t i lg)))).
Proof.
  intros l lg t eqT v i H Hi. pose proof (history_repr _ _ H) as HR. unfold x_attr_eq.
  rewrite !(dir_attr_eq_run l lg) by auto. cbn [dir_idx]. rewrite (proj2 (Nat.ltb_lt _ _) Hi).
  split; (eexists; split; [reflexivity|]); (etransitivity; [apply scan_perm|]);
    rewrite passing_map; unfold starting_at, ending_at; rewrite filter_map_two;
    apply Permutation_refl'; apply filter_map_ext; intros [r w] _; simpl;
    unfold starts_here, ends_here; destruct (Nat.eqb _ i); reflexivity.
Qed.

(** The order: matching reads off the rows of [query] that start (end) there. *)
Lemma thm_C15_reads_query :
  forall l lg t i q,
    History l lg -> i < length (ll_tokens l) -> query l t = Ok q ->
    x_attr t (Fwd i) l =
      Ok (flat_map (fun '(r, _, vs) => if Nat.eqb (fst r) i then map (fun v => (v, snd r)) vs else []) q)
    /\ x_attr t (Bwd i) l =
      Ok (flat_map (fun '(r, _, vs) => if Nat.eqb (snd r) i then map (fun v => (v, fst r)) vs else []) q).
Proof.
  intros l lg t i q H Hi HQ. pose proof (history_repr _ _ H) as HR. unfold x_attr.
  rewrite !(dir_attr_run l lg) by auto. cbn [dir_idx]. rewrite (proj2 (Nat.ltb_lt _ _) Hi).
  rewrite (query_run l lg t HR) in HQ. apply mapM_Forall2 in HQ. unfold scan.
  split; f_equal; induction HQ as [|r row rs q Hrow HQ IH]; simpl; auto;
    inv_bind Hrow; inversion Hrow; subst; unfold starts_here, ends_here in *; simpl in *;
    destruct (Nat.eqb _ i); simpl; rewrite ?filter_map_some; f_equal; auto.
Qed.

(** ** C16 *)

Lemma at_end_perm {A} e (ms ms' : list (A * nat)) :
  Permutation ms ms' -> Permutation (at_end e ms) (at_end e ms').
Proof.
  intros H. unfold at_end. apply Permutation_map.
  induction H; simpl; auto.
  - destruct (Nat.eqb (snd x) e); auto.
  - destruct (Nat.eqb (snd x) e), (Nat.eqb (snd y) e); auto. constructor.
  - etransitivity; eauto.
Qed.

Lemma at_end_filter_map {A B} e (f : A -> option (B * nat)) l :
  at_end e (filter_map f l) =
  filter_map (fun a => match f a with
                       | Some (b, k) => if Nat.eqb k e then Some b else None | None => None end) l.
Proof.
  unfold at_end. induction l as [|a l IH]; simpl; auto. destruct (f a) as [[b k]|]; simpl; auto.
  destruct (Nat.eqb k e); simpl; congruence.
Qed.

Lemma thm_C16_attr : forall l lg t, History l lg -> agrees (x_attr t) l.
Proof.
  intros l lg t H i j fs bs Hi Hj Hf Hb.
  destruct (thm_C15_attr l lg t i H Hi) as [(fs' & Ef & Pf) _].
  destruct (thm_C15_attr l lg t j H Hj) as [_ (bs' & Eb & Pb)].
  assert (fs' = fs) by congruence. assert (bs' = bs) by congruence. subst.
  rewrite (at_end_perm _ _ _ Pf), (at_end_perm _ _ _ Pb). unfold starting_at, ending_at.
  rewrite !at_end_filter_map. apply Permutation_refl', filter_map_ext. intros [[s e] v] _. simpl.
  destruct (Nat.eqb s i) eqn:E1, (Nat.eqb e j) eqn:E2; simpl; rewrite ?E1, ?E2; reflexivity.
Qed.

Lemma thm_C16_attr_eq : forall l lg t eqT v, History l lg -> agrees (x_attr_eq t eqT v) l.
Proof.
  intros l lg t eqT v H i j fs bs Hi Hj Hf Hb.
  destruct (thm_C15_attr_eq l lg t eqT v i H Hi) as [(fs' & Ef & Pf) _].
  destruct (thm_C15_attr_eq l lg t eqT v j H Hj) as [_ (bs' & Eb & Pb)].
  assert (fs' = fs) by congruence. assert (bs' = bs) by congruence. subst.
  rewrite (at_end_perm _ _ _ Pf), (at_end_perm _ _ _ Pb). unfold starting_at, ending_at.
  rewrite !passing_map, !filter_map_two, !at_end_filter_map.
  apply Permutation_refl', filter_map_ext. intros [[s e] w] _. simpl.
  destruct (Nat.eqb s i) eqn:E1, (Nat.eqb e j) eqn:E2; simpl; destruct (eqT w v); simpl; rewrite ?E1, ?E2; reflexivity.
Qed.

Lemma thm_C16_token_text : forall l, agrees x_token_text l.
Proof.
  intros l i j fs bs Hi Hj Hf Hb. unfold x_token_text, dir_text_token in *.
  destruct (nth_error_lt (ll_tokens l) i Hi) as (ti & Ei).
  destruct (nth_error_lt (ll_tokens l) j Hj) as (tj & Ej).
  rewrite Ei in Hf. rewrite Ej in Hb. simpl in *. inversion Hf; inversion Hb; subst. clear Hf Hb.
  destruct (Nat.eq_dec i j) as [->|Hne].
  - assert (ti = tj) by congruence. subst. destruct (token tj); auto.
  - destruct (token ti), (token tj); simpl; unfold at_end; simpl;
      rewrite ?(proj2 (Nat.eqb_neq i j)), ?(proj2 (Nat.eqb_neq j i)) by auto; auto.
Qed.

Lemma at_end_all2 {A B} e (al : list (A * nat)) (bl : list (B * nat)) :
  at_end e (flat_map (fun '(a, ai) =>
      filter_map (fun '(b, bi) => if Nat.eqb ai bi then Some ((a, b), ai) else None) bl) al)
  = list_prod (at_end e al) (at_end e bl).
Proof.
  induction al as [|[a ai] al IH]; simpl; auto.
  assert (AP : forall X (x y : list (X * nat)), at_end e (x ++ y) = at_end e x ++ at_end e y).
  { intros. unfold at_end. now rewrite filter_app, map_app. }
  rewrite AP, IH.
  assert (AC : at_end e ((a, ai) :: al) = if Nat.eqb ai e then a :: at_end e al else at_end e al).
  { unfold at_end. simpl. destruct (Nat.eqb ai e); reflexivity. }
  rewrite AC. destruct (Nat.eqb ai e) eqn:E; simpl.
  - f_equal. rewrite at_end_filter_map. apply Nat.eqb_eq in E; subst. unfold at_end.
    rewrite map_map. rewrite (filter_map_if (fun x : B * nat => Nat.eqb (snd x) e)).
    apply filter_map_ext. intros [b bi] _. simpl.
    rewrite (Nat.eqb_sym bi e). destruct (Nat.eqb e bi); simpl; auto. now rewrite Nat.eqb_refl.
  - rewrite at_end_filter_map, filter_map_none; auto. intros [b bi] _.
    destruct (Nat.eqb ai bi); auto. now rewrite E.
Qed.

Lemma list_prod_perm {A B} (a a' : list A) (b b' : list B) :
  Permutation a a' -> Permutation b b' -> Permutation (list_prod a b) (list_prod a' b').
Proof.
  intros Ha Hb. etransitivity.
  - instantiate (1 := list_prod a' b). clear Hb. induction Ha; simpl; auto.
    + now apply Permutation_app_head.
    + rewrite !app_assoc. apply Permutation_app_tail, Permutation_app_comm.
    + etransitivity; eauto.
  - clear Ha. induction a' as [|x a' IH]; simpl; auto. apply Permutation_app; auto. now apply Permutation_map.
Qed.

(** Conjunctions of agreeing matchers agree. *)
Lemma thm_C16_all :
  forall l A B (ma : matcher A) (mb : matcher B),
    agrees ma l -> agrees mb l -> agrees (x_all2 ma mb) l.
Proof.
  intros l A B ma mb Ha Hb i j fs bs Hi Hj Hf Hbw. unfold x_all2 in *.
  inv_bind Hf. inv_bind Hf. inv_bind Hbw. inv_bind Hbw. inversion Hf; inversion Hbw; subst.
  rewrite !at_end_all2. apply list_prod_perm; eauto.
Qed.

(** ** C18 *)

Lemma tokens_log_In ts : forall k i tok e, nth_error ts i = Some tok ->
  In e (token_entries (k + i) tok) -> In e (tokens_log k ts).
Proof.
  induction ts as [|t ts IH]; intros k [|i] tok e Hn He; simpl in *; try discriminate.
  - inversion Hn; subst. rewrite Nat.add_0_r in He. apply in_or_app. auto.
  - apply in_or_app. right. apply (IH (S k) i tok); auto. replace (S k + i) with (k + S i) by lia. exact He.
Qed.

(** Text tokens of a reachable line carry at least their tag. *)
Lemma text_token_tagged l lg i tok s tag :
  History l lg -> nth_error (ll_tokens l) i = Some tok -> token tok = LText s tag ->
  In ((i, i), mkany TTextTag tag) lg.
Proof.
  intros H. induction H as [tg sz input groups l HW H HG | M size st st' tg input groups l HW H HG | l lg t id r g l' H IH HN Hg H2 | l lg t id r l' H IH HN H2];
    intros Hn Et.
  - destruct (create_facts tg sz input l HW H) as (groups' & H1 & _ & _ & HT & _).
    assert (groups = groups') by (eapply groups_fun; eauto). subst groups'.
    unfold creation_log. apply in_or_app. left. apply (tokens_log_In _ 0 i (token tok)).
    + rewrite concat_map_map, <- (layout_by_tokens (wadd tg) 0 0%N), <- HT, nth_error_map, Hn. reflexivity.
    + rewrite Et. simpl. destruct s as [|c [|]]; simpl; auto.
  - destruct (mem_create_facts size tg input st st' l HW H) as (groups0 & groups' & H1 & EG & _ & _ & _ & _ & HT & _).
    assert (groups = groups0) by (eapply groups_fun; eauto). subst groups0. rewrite <- EG.
    unfold creation_log. apply in_or_app. left. apply (tokens_log_In _ 0 i (token tok)).
    + rewrite concat_map_map, <- (layout_by_tokens (wadd tg) 0 0%N), <- HT, nth_error_map, Hn. reflexivity.
    + rewrite Et. simpl. destruct s as [|c [|]]; simpl; auto.
  - apply in_or_app. left. apply IH; auto.
    destruct (run_inv id l lg r l' (history_repr _ _ H) HN H2) as (_ & _ & _ & _ & HT & _). now rewrite <- HT.
  - unfold run in H2. rewrite HN in H2. inversion H2; subst. auto.
Qed.

(** C18: which tokens carry no attribute at all. *)
Lemma thm_C18_unattributed :
  forall l lg i, History l lg -> i < length (ll_tokens l) ->
    (~ attributed i lg <->
     exists tok, nth_error (ll_tokens l) i = Some tok /\ token tok = LValue
       /\ forall e, In e lg -> fst e <> (i, i)).
Proof.
  intros l lg i H Hi. split.
  - intros HA. destruct (nth_error_lt _ _ Hi) as (tok & Hn). exists tok. split; auto. split.
    + destruct (token tok) as [s tag|] eqn:Et; auto. exfalso. apply HA.
      apply in_map_iff. exists ((i, i), mkany TTextTag tag). split; auto. eapply text_token_tagged; eauto.
    + intros e He E. apply HA. unfold attributed. rewrite <- E. now apply in_map.
  - intros (tok & _ & _ & HE) HA. apply in_map_iff in HA. destruct HA as (e & E & He). now apply (HE e He).
Qed.

(** C18: token_has_any forwards panics iff nothing at all is assigned to the token
    itself; otherwise it yields the listed values on this single token; backwards
    it never panics and yields the listed values on all ranges ending there. *)
Lemma thm_C18_token_has_any :
  forall l lg t eqT set i,
    History l lg -> i < length (ll_tokens l) ->
    (~ attributed i lg -> exists p, x_token_has_any t eqT set (Fwd i) l = Panic p)
    /\ (attributed i lg ->
        x_token_has_any t eqT set (Fwd i) l =
          Ok (map (fun v => (v, i))
                  (filter (fun v => existsb (fun s => eqT s v) set) (values_on t (i, i) lg))))
    /\ (exists ms, x_token_has_any t eqT set (Bwd i) l = Ok ms
          /\ Permutation ms (passing (fun v => existsb (fun s => eqT s v) set) (ending_at t i lg))).
Proof.
  intros l lg t eqT set i H Hi. pose proof (history_repr _ _ H) as HR. unfold x_token_has_any.
  rewrite (token_attr_one_of_fwd l lg), (token_attr_one_of_bwd l lg) by auto.
  rewrite (proj2 (Nat.ltb_lt _ _) Hi). split; [|split].
  - intros HA. destruct (attributed_dec i lg); [tauto|eauto].
  - intros HA. destruct (attributed_dec i lg); [|tauto]. f_equal. symmetry. apply filter_map_if.
  - eexists. split; [reflexivity|]. etransitivity; [apply scan_perm|].
    rewrite <- (map_id (passing _ _)), passing_map. unfold ending_at. rewrite filter_map_two.
    apply Permutation_refl', filter_map_ext. intros [r v] _. unfold ends_here, slice_contains.
    destruct (Nat.eqb (snd r) i); reflexivity.
Qed.

(** ** C19 *)

Lemma thm_C19_all2 :
  forall l A B (ma : matcher A) (mb : matcher B) d al bl,
    ma d l = Ok al -> mb d l = Ok bl ->
    exists ms, x_all2 ma mb d l = Ok ms
      /\ (forall a b e, In ((a, b), e) ms <-> In (a, e) al /\ In (b, e) bl)
      /\ (forall e, at_end e ms = list_prod (at_end e al) (at_end e bl)).
Proof.
  intros l A B ma mb d al bl Ha Hb. unfold x_all2. rewrite Ha, Hb. simpl. eexists; split; [reflexivity|]. split.
  - intros a b e. rewrite in_flat_map. split.
    + intros ([a' ai] & Hin & H). apply in_filter_map in H. destruct H as ([b' bi] & Hin' & H).
      destruct (Nat.eqb ai bi) eqn:E; [|discriminate]. apply Nat.eqb_eq in E. inversion H; subst. auto.
    + intros [H1 H2]. exists (a, e). split; auto. apply in_filter_map. exists (b, e). split; auto.
      now rewrite Nat.eqb_refl.
  - intros e. apply at_end_all2.
Qed.

Lemma all3_as_all2 {A B C} (al : list (A * nat)) (bl : list (B * nat)) (cl : list (C * nat)) :
  flat_map (fun '(a, ai) =>
    flat_map (fun '(b, bi) =>
      filter_map (fun '(c, ci) =>
        if Nat.eqb ai bi && Nat.eqb ai ci then Some ((a, b, c), ai) else None) cl) bl) al
  = flat_map (fun '(ab, i) =>
      filter_map (fun '(c, ci) => if Nat.eqb i ci then Some ((ab, c), i) else None) cl)
     (flat_map (fun '(a, ai) =>
        filter_map (fun '(b, bi) => if Nat.eqb ai bi then Some ((a, b), ai) else None) bl) al).
Proof.
  induction al as [|[a ai] al IH]; simpl; auto. rewrite flat_map_app, <- IH. f_equal.
  clear IH. induction bl as [|[b bi] bl IH]; simpl; auto. destruct (Nat.eqb ai bi); simpl.
  - now rewrite IH.
  - rewrite filter_map_none; auto. intros [c ci] _. reflexivity.
Qed.

Lemma thm_C19_all3 :
  forall l A B C (ma : matcher A) (mb : matcher B) (mc : matcher C) d al bl cl,
    ma d l = Ok al -> mb d l = Ok bl -> mc d l = Ok cl ->
    exists ms, x_all3 ma mb mc d l = Ok ms
      /\ (forall a b c e, In ((a, b, c), e) ms <-> In (a, e) al /\ In (b, e) bl /\ In (c, e) cl)
      /\ (forall e, at_end e ms = list_prod (list_prod (at_end e al) (at_end e bl)) (at_end e cl)).
Proof.
  intros l A B C ma mb mc d al bl cl Ha Hb Hc. unfold x_all3. rewrite Ha, Hb, Hc. simpl.
  eexists; split; [reflexivity|]. split.
  - intros a b c e. rewrite in_flat_map. split.
    + intros ([a' ai] & Hin & H). apply in_flat_map in H. destruct H as ([b' bi] & Hin' & H).
      apply in_filter_map in H. destruct H as ([c' ci] & Hin'' & H).
      destruct (Nat.eqb ai bi && Nat.eqb ai ci) eqn:E; [|discriminate].
      apply andb_true_iff in E. destruct E as [E1 E2]. apply Nat.eqb_eq in E1, E2. inversion H; subst. auto.
    + intros (H1 & H2 & H3). exists (a, e). split; auto. apply in_flat_map. exists (b, e). split; auto.
      apply in_filter_map. exists (c, e). split; auto. now rewrite Nat.eqb_refl.
  - intros e. rewrite all3_as_all2, !at_end_all2. reflexivity.
Qed.

(** A conjunction panics iff a component does. *)
Lemma thm_C19_panics :
  forall l A B (ma : matcher A) (mb : matcher B) d,
    ma d l <> OutOfFuel -> mb d l <> OutOfFuel ->
    ((exists p, x_all2 ma mb d l = Panic p) <-> (exists p, ma d l = Panic p) \/ (exists p, mb d l = Panic p)).
Proof.
  intros l A B ma mb d Ha Hb. unfold x_all2.
  destruct (mb d l) as [bl|p|]; destruct (ma d l) as [al|p'|]; simpl; try congruence;
    split; eauto; try (intros [(q & Hq)|(q & Hq)]; discriminate); intros (q & Hq); discriminate.
Qed.

(** ** C20 *)

Lemma thm_C20_any_of2 :
  forall l A B (ma : matcher A) (mb : matcher B) d al,
    ma d l = Ok al ->
    (al <> [] -> x_any_of2 ma mb d l = Ok (map (fun x => (A2_A (fst x), snd x)) al))
    /\ (al = [] -> forall bl, mb d l = Ok bl ->
          x_any_of2 ma mb d l = Ok (map (fun x => (A2_B (fst x), snd x)) bl))
    /\ (al = [] -> forall p, mb d l = Panic p -> x_any_of2 ma mb d l = Panic p).
Proof.
  intros l A B ma mb d al Ha. unfold x_any_of2. rewrite Ha. simpl. split; [|split].
  - intros HN. destruct al as [|x al]; [easy|]. f_equal. apply map_ext. intros [a i]. reflexivity.
  - intros -> bl Hb. rewrite Hb. simpl. f_equal. apply map_ext. intros [a i]. reflexivity.
  - intros -> p Hb. now rewrite Hb.
Qed.

Lemma thm_C20_any_of3 :
  forall l A B C (ma : matcher A) (mb : matcher B) (mc : matcher C) d al,
    ma d l = Ok al ->
    (al <> [] -> x_any_of3 ma mb mc d l = Ok (map (fun x => (A3_A (fst x), snd x)) al))
    /\ (al = [] -> forall bl, mb d l = Ok bl ->
          (bl <> [] -> x_any_of3 ma mb mc d l = Ok (map (fun x => (A3_B (fst x), snd x)) bl))
          /\ (bl = [] -> forall cl, mc d l = Ok cl ->
                x_any_of3 ma mb mc d l = Ok (map (fun x => (A3_C (fst x), snd x)) cl))).
Proof.
  intros l A B C ma mb mc d al Ha. unfold x_any_of3. rewrite Ha. simpl. split.
  - intros HN. destruct al as [|x al]; [easy|]. f_equal. apply map_ext. intros [a i]. reflexivity.
  - intros -> bl Hb. rewrite Hb. simpl. split.
    + intros HN. destruct bl as [|x bl]; [easy|]. f_equal. apply map_ext. intros [a i]. reflexivity.
    + intros -> cl Hc. rewrite Hc. simpl. f_equal. apply map_ext. intros [a i]. reflexivity.
Qed.

(** Nothing is found iff no component matches. *)
Lemma thm_C20_none :
  forall l A B (ma : matcher A) (mb : matcher B) d,
    x_any_of2 ma mb d l = Ok [] <-> ma d l = Ok [] /\ mb d l = Ok [].
Proof.
  intros l A B ma mb d. unfold x_any_of2. destruct (ma d l) as [[|x al]|p|]; simpl.
  - destruct (mb d l) as [[|y bl]|p|]; simpl; split; intros H; try discriminate; auto;
      destruct H as [_ H]; discriminate.
  - split; [discriminate|]. intros [H _]. discriminate.
  - split; [discriminate|]. intros [H _]. discriminate.
  - split; [discriminate|]. intros [H _]. discriminate.
Qed.

(** ** C21 *)

Lemma dir_after_spec d j l d' :
  dir_after d j l = Some d' <-> next_point (length (ll_tokens l)) d d' j.
Proof.
  destruct d as [i|i]; unfold dir_after.
  - destruct (S j <? length (ll_tokens l)) eqn:E.
    + apply Nat.ltb_lt in E. split.
      * intros H. inversion H; subst. simpl. lia.
      * destruct d' as [k|k]; simpl; [|easy]. intros [-> _]. do 2 f_equal. lia.
    + apply Nat.ltb_ge in E. split; [discriminate|]. destruct d' as [k|k]; simpl; [|easy]. lia.
  - destruct (0 <? j) eqn:E.
    + apply Nat.ltb_lt in E. split.
      * intros H. inversion H; subst. simpl. lia.
      * destruct d' as [k|k]; simpl; [easy|]. intros ->. do 2 f_equal. lia.
    + apply Nat.ltb_ge in E. split; [discriminate|]. destruct d' as [k|k]; simpl; [easy|]. lia.
Qed.

Lemma next_point_in n d d' j : next_point n d d' j -> (match d with Bwd i => j < n | _ => True end) -> dir_idx d' < n.
Proof. destruct d, d'; simpl; lia. Qed.

(** C21: [seq((A,B))] yields [(a,b)] ending at [e] iff [a] matches here and [b]
    matches at the point right after [a]'s end, ending at [e]. *)
Lemma thm_C21_seq2 :
  forall l A B (ma : matcher A) (mb : matcher B) d ms,
    x_seq2 ma mb d l = Ok ms ->
    exists al, ma d l = Ok al /\
    forall a b e, In ((a, b), e) ms <->
      exists j d' bl, In (a, j) al /\ next_point (length (ll_tokens l)) d d' j
        /\ mb d' l = Ok bl /\ In (b, e) bl.
Proof.
  intros l A B ma mb d ms H. unfold x_seq2 in H. inv_bind H. rename a into al. exists al. split; auto.
  intros a b e. split.
  - intros Hin. destruct (flat_mapM_In _ _ _ _ H Hin) as ([a' j] & bl' & H1 & H2 & H3).
    inv_bind H2. inversion H2; subst. apply in_map_iff in H3. destruct H3 as ([b' k] & E3 & H3).
    inversion E3; subst. unfold go_after in E0. destruct (dir_after d j l) as [d'|] eqn:Ed.
    + exists j, d', a0. split; auto. split; [|auto]. now apply dir_after_spec.
    + inversion E0; subst. easy.
  - intros (j & d' & bl & H1 & H2 & H3 & H4). apply dir_after_spec in H2.
    eapply flat_mapM_In_rev; [exact H|exact H1| |].
    + unfold go_after. rewrite H2, H3. reflexivity.
    + apply in_map_iff. exists (b, e). auto.
Qed.

Lemma thm_C21_seq3 :
  forall l A B C (ma : matcher A) (mb : matcher B) (mc : matcher C) d ms,
    x_seq3 ma mb mc d l = Ok ms ->
    exists al, ma d l = Ok al /\
    forall a b c e, In ((a, b, c), e) ms <->
      exists j d1 bl k d2 cl, In (a, j) al /\ next_point (length (ll_tokens l)) d d1 j
        /\ mb d1 l = Ok bl /\ In (b, k) bl /\ next_point (length (ll_tokens l)) d1 d2 k
        /\ mc d2 l = Ok cl /\ In (c, e) cl.
Proof.
  intros l A B C ma mb mc d ms H. unfold x_seq3 in H. inv_bind H. rename a into al. exists al. split; auto.
  assert (SD : forall d1 j k, dir_after d j l = Some d1 -> dir_after d1 k l = dir_after d k l).
  { intros d1 j k. unfold dir_after. destruct d.
    - destruct (S j <? length (ll_tokens l)); intros F; inversion F; reflexivity.
    - destruct (0 <? j); intros F; inversion F; reflexivity. }
  intros a b c e. split.
  - intros Hin. destruct (flat_mapM_In _ _ _ _ H Hin) as ([a' j] & bl' & H1 & H2 & H3).
    inv_bind H2. destruct (flat_mapM_In _ _ _ _ H2 H3) as ([b' k] & cl' & H4 & H5 & H6).
    inv_bind H5. inversion H5; subst. apply in_map_iff in H6. destruct H6 as ([c' k'] & E6 & H6).
    inversion E6; subst. unfold go_after in E0, E1. destruct (dir_after d j l) as [d1|] eqn:Ed.
    2:{ inversion E0; subst; easy. }
    destruct (dir_after d k l) as [d2|] eqn:Ed2; [|inversion E1; subst; easy].
    exists j, d1, a0, k, d2, a1. split; auto. split; [now apply dir_after_spec|].
    split; auto. split; auto. split; auto. apply dir_after_spec. rewrite (SD d1 j k); auto.
  - intros (j & d1 & bl & k & d2 & cl & H1 & H2 & H3 & H4 & H5 & H6 & H7).
    apply dir_after_spec in H2. apply dir_after_spec in H5. rewrite (SD d1 j k H2) in H5.
    assert (Hin : exists r, (bl0 <- go_after mb d j l;;
       flat_mapM (fun '(b, j) => cl <- go_after mc d j l;; Ok (map (fun '(c, k) => (a, b, c, k)) cl)) bl0) = Ok r).
    { exact (proj1 (flat_mapM_ok_iff _ al) (ex_intro _ ms H) (a, j) H1). }
    destruct Hin as (r & Hr). eapply flat_mapM_In_rev; [exact H|exact H1|exact Hr|].
    unfold go_after in Hr at 1. rewrite H2, H3 in Hr. simpl in Hr.
    eapply flat_mapM_In_rev; [exact Hr|exact H4| |].
    + unfold go_after. rewrite H5, H6. reflexivity.
    + apply in_map_iff. exists (c, e). auto.
Qed.

(** Exactly how often, and no component is asked outside of the line: the result
    only depends on what [mb] answers at points of the line. *)
Lemma thm_C21_inside_only :
  forall l A B (ma : matcher A) (mb : matcher B) d al (bm : direction -> list (B * nat)),
    ma d l = Ok al ->
    (forall a j, In (a, j) al -> j < length (ll_tokens l)) ->
    (forall d', dir_idx d' < length (ll_tokens l) -> mb d' l = Ok (bm d')) ->
    x_seq2 ma mb d l = Ok
      (flat_map (fun '(a, j) =>
         map (fun '(b, e) => ((a, b), e))
           match d with
           | Fwd _ => if Nat.eqb (S j) (length (ll_tokens l)) then [] else bm (Fwd (S j))
           | Bwd _ => match j with O => [] | S k => bm (Bwd k) end
           end) al).
Proof.
  intros l A B ma mb d al bm Ha Hj Hb. unfold x_seq2. rewrite Ha. cbn [bind]. apply flat_mapM_ok.
  intros [a j] Hin. specialize (Hj a j Hin). unfold go_after, dir_after. destruct d as [i|i].
  - destruct (Nat.eqb (S j) (length (ll_tokens l))) eqn:E.
    + apply Nat.eqb_eq in E. rewrite E, Nat.ltb_irrefl. reflexivity.
    + apply Nat.eqb_neq in E. rewrite (proj2 (Nat.ltb_lt (S j) _)) by lia. rewrite Hb by (simpl; lia). reflexivity.
  - destruct j as [|k]; simpl; auto. rewrite Nat.sub_0_r, Hb by (simpl; lia). reflexivity.
Qed.

(** ** C22, C23 *)

Lemma scan_In {B} t lg p (f : LRange -> den t -> option B) b :
  In b (scan t lg p f) <-> exists r v, In (r, mkany t v) lg /\ p r = true /\ f r v = Some b.
Proof.
  split.
  - intros H. apply (Permutation_in _ (scan_perm t lg p f)) in H. apply in_filter_map in H.
    destruct H as ([r v] & H1 & H2). exists r, v. apply assigned_In in H1. destruct (p r); [auto|discriminate].
  - intros (r & v & H1 & H2 & H3). apply (Permutation_in _ (Permutation_sym (scan_perm t lg p f))).
    apply in_filter_map. exists (r, v). split; [now apply assigned_In|]. now rewrite H2.
Qed.

Lemma in_line_entry n lg e : in_line n lg -> In e lg -> fst (fst e) < n /\ snd (fst e) < n.
Proof. unfold in_line. rewrite Forall_forall. auto. Qed.

(** What the elementary lookups return. *)
Definition found_at (lg : list entry) (d : direction) (j : nat) : Prop :=
  exists r a, In (r, a) lg /\ match d with Fwd i => r = (i, j) | Bwd i => r = (j, i) end.

Lemma scan_found {B} t lg d (f : LRange -> den t -> option (B * nat)) b j :
  (forall r v x, f r v = Some x -> snd x = other_end d r) ->
  In (b, j) (scan t lg (sel_of d) f) -> found_at lg d j.
Proof.
  intros Hf H. apply scan_In in H. destruct H as ([s e] & v & H1 & H2 & H3).
  apply Hf in H3. simpl in H3. exists (s, e), (mkany t v). split; auto.
  destruct d; simpl in *; unfold starts_here, ends_here in H2; simpl in H2; apply Nat.eqb_eq in H2; congruence.
Qed.

Section Bounds.
Variables (l : LLLine) (lg : list entry).
Hypothesis HR : Repr l lg.
Let n := length (ll_tokens l).

Lemma attr_found t d ms a j : x_attr t d l = Ok ms -> In (a, j) ms -> found_at lg d j.
Proof.
  unfold x_attr. rewrite (dir_attr_run l lg) by auto.
  destruct (dir_idx d <? length (ll_tokens l)); [|discriminate]. intros H. inversion H; subst.
  apply scan_found. intros r v x Hx. inversion Hx; reflexivity.
Qed.

Lemma attr_eq_found t eqT v d ms a j : x_attr_eq t eqT v d l = Ok ms -> In (a, j) ms -> found_at lg d j.
Proof.
  unfold x_attr_eq. rewrite (dir_attr_eq_run l lg) by auto.
  destruct (dir_idx d <? length (ll_tokens l)); [|discriminate]. intros H. inversion H; subst.
  apply scan_found. intros r w x Hx. destruct (eqT w v); inversion Hx; reflexivity.
Qed.

Lemma has_any_found t eqT set d ms a j :
  x_token_has_any t eqT set d l = Ok ms -> In (a, j) ms -> found_at lg d j.
Proof.
  unfold x_token_has_any. destruct d as [i|i].
  - rewrite (token_attr_one_of_fwd l lg) by auto. destruct (attributed_dec i lg); [|discriminate].
    intros H Hin. inversion H; subst. apply in_filter_map in Hin. destruct Hin as (v & Hv & E).
    destruct (slice_contains eqT set v); [|discriminate]. inversion E; subst.
    apply values_on_In in Hv. exists (j, j), (mkany t a). auto.
  - rewrite (token_attr_one_of_bwd l lg) by auto. destruct (i <? length (ll_tokens l)); [|discriminate].
    intros H Hin. inversion H; subst.
    apply (scan_found t lg (Bwd i) (fun r v => if slice_contains eqT set v then Some (v, fst r) else None) a j).
    + intros r w x Hx. destruct (slice_contains eqT set w); inversion Hx; reflexivity.
    + exact Hin.
Qed.

Lemma token_text_found d ms a j : x_token_text d l = Ok ms -> In (a, j) ms -> j = dir_idx d.
Proof.
  unfold x_token_text, dir_text_token. destruct d as [i|i]; simpl.
  - destruct (nth_error (ll_tokens l) i) as [tok|]; simpl; [|discriminate].
    destruct (token tok); simpl; intros H Hin; inversion H; subst; [|easy].
    destruct Hin as [Hin|[]]. now inversion Hin.
  - destruct (nth_error (ll_tokens l) i) as [tok|]; simpl.
    + destruct (token tok); simpl; intros H Hin; inversion H; subst; [|easy].
      destruct Hin as [Hin|[]]. now inversion Hin.
    + intros H Hin; inversion H; subst; easy.
Qed.

(** A predicate on ends that holds of elementary matches and composes holds of
    all library matches. *)
Variable Q : direction -> nat -> Prop.
Hypothesis Qfound : forall d j, dir_idx d < n -> found_at lg d j -> Q d j.
Hypothesis Qtext : forall d, dir_idx d < n -> Q d (dir_idx d).
Hypothesis Qin : forall d j d', dir_idx d < n -> Q d j -> next_point n d d' j -> dir_idx d' < n.
Hypothesis Qtrans : forall d j d' k, dir_idx d < n -> Q d j -> next_point n d d' j -> Q d' k -> Q d k.

Lemma go_after_next {B} (mb : matcher B) d j bl b e :
  go_after mb d j l = Ok bl -> In (b, e) bl -> exists d', next_point n d d' j /\ mb d' l = Ok bl.
Proof.
  unfold go_after. destruct (dir_after d j l) as [d'|] eqn:E.
  - intros H _. exists d'. split; auto. now apply dir_after_spec.
  - intros H Hin. inversion H; subst; easy.
Qed.

Lemma next_same d1 d2 : (match d1, d2 with Fwd _, Fwd _ => True | Bwd _, Bwd _ => True | _, _ => False end) ->
  forall d' k, next_point n d1 d' k <-> next_point n d2 d' k.
Proof. destruct d1, d2; simpl; try easy; intros _ [] k; simpl; tauto. Qed.

Lemma next_dir d d' j : next_point n d d' j ->
  match d, d' with Fwd _, Fwd _ => True | Bwd _, Bwd _ => True | _, _ => False end.
Proof. destruct d, d'; simpl; auto. Qed.

Lemma lib_found P has A (m : matcher A) :
  lib_matcher P has A m ->
  forall d ms a j, dir_idx d < n -> m d l = Ok ms -> In (a, j) ms -> Q d j.
Proof.
  intros HM. induction HM; intros d ms x e Hd HE Hin.
  - apply Qfound; auto. eapply attr_found; eauto.
  - apply Qfound; auto. eapply attr_eq_found; eauto.
  - apply Qfound; auto. eapply has_any_found; eauto.
  - rewrite (token_text_found _ _ _ _ HE Hin). auto.
  - unfold x_all2 in HE. inv_bind HE. inv_bind HE. inversion HE; subst.
    apply in_flat_map in Hin. destruct Hin as ([a1 i1] & H1 & H2). apply in_filter_map in H2.
    destruct H2 as ([b1 k1] & H2 & H3). destruct (Nat.eqb i1 k1); inversion H3; subst. eauto.
  - unfold x_all3 in HE. inv_bind HE. inv_bind HE. inv_bind HE. inversion HE; subst.
    apply in_flat_map in Hin. destruct Hin as ([a2 i2] & H1 & H2). apply in_flat_map in H2.
    destruct H2 as ([b2 k2] & H2 & H3). apply in_filter_map in H3. destruct H3 as ([c2 j2] & H3 & H4).
    destruct (Nat.eqb i2 k2 && Nat.eqb i2 j2); inversion H4; subst. eauto.
  - unfold x_any_of2 in HE. inv_bind HE. destruct a as [|y al].
    + inv_bind HE. inversion HE; subst. apply in_map_iff in Hin. destruct Hin as ([b1 k1] & H1 & H2).
      inversion H1; subst. eauto.
    + apply Ok_inj in HE; subst ms. apply in_map_iff in Hin. destruct Hin as ([b1 k1] & H1 & H2).
      inversion H1; subst. eauto.
  - unfold x_any_of3 in HE. inv_bind HE. destruct a as [|y al].
    + inv_bind HE. destruct a as [|y bl].
      * inv_bind HE. inversion HE; subst. apply in_map_iff in Hin. destruct Hin as ([b1 k1] & H1 & H2).
        inversion H1; subst. eauto.
      * apply Ok_inj in HE; subst ms. apply in_map_iff in Hin. destruct Hin as ([b1 k1] & H1 & H2).
        inversion H1; subst. eauto.
    + apply Ok_inj in HE; subst ms. apply in_map_iff in Hin. destruct Hin as ([b1 k1] & H1 & H2).
      inversion H1; subst. eauto.
  - unfold x_seq2 in HE. inv_bind HE. destruct (flat_mapM_In _ _ _ _ HE Hin) as ([a1 j1] & bl & H1 & H2 & H3).
    inv_bind H2. inversion H2; subst. apply in_map_iff in H3. destruct H3 as ([b1 k1] & E3 & H3).
    inversion E3; subst. destruct (go_after_next _ _ _ _ _ _ E0 H3) as (d' & Hn & Hm).
    assert (Q d j1) by eauto. assert (dir_idx d' < n) by eauto. eauto.
  - unfold x_seq3 in HE. inv_bind HE. destruct (flat_mapM_In _ _ _ _ HE Hin) as ([a1 j1] & bl & H1 & H2 & H3).
    inv_bind H2. destruct (flat_mapM_In _ _ _ _ H2 H3) as ([b1 k1] & cl & H4 & H5 & H6).
    inv_bind H5. inversion H5; subst. apply in_map_iff in H6. destruct H6 as ([c1 m1] & E6 & H6).
    inversion E6; subst. destruct (go_after_next _ _ _ _ _ _ E0 H4) as (d' & Hn & Hm).
    destruct (go_after_next _ _ _ _ _ _ E1 H6) as (d'' & Hn' & Hm').
    assert (Q d j1) by eauto. assert (dir_idx d' < n) by eauto. assert (Q d' k1) by eauto.
    assert (Q d k1) by eauto. assert (dir_idx d'' < n) by eauto. eauto.
Qed.

(** Safety by the same induction. *)
Lemma lib_safe_dir P has A (m : matcher A) :
  lib_matcher P has A m ->
  forall d, dir_idx d < n ->
    (has = true -> match d with Fwd _ => forall i, i < n -> attributed i lg | Bwd _ => True end) ->
    exists ms, m d l = Ok ms.
Proof.
  assert (GA : forall B (mb : matcher B) d j, (forall d', dir_idx d' < n ->
      match d, d' with Fwd _, Fwd _ => True | Bwd _, Bwd _ => True | _, _ => False end -> exists ms, mb d' l = Ok ms) ->
      dir_idx d < n -> Q d j -> exists bl, go_after mb d j l = Ok bl).
  { intros B mb d j Hb Hd HQ. unfold go_after. destruct (dir_after d j l) as [d'|] eqn:E; eauto.
    apply dir_after_spec in E. apply Hb; [eauto|]. eapply next_dir; eauto. }
  assert (HD : forall h1 d d', (h1 = true -> match d with Fwd _ => forall i, i < n -> attributed i lg | Bwd _ => True end) ->
     match d, d' with Fwd _, Fwd _ => True | Bwd _, Bwd _ => True | _, _ => False end ->
     (h1 = true -> match d' with Fwd _ => forall i, i < n -> attributed i lg | Bwd _ => True end)).
  { intros h1 [i|i] [k|k] H; simpl; auto; easy. }
  intros HM. induction HM as [ | | | | h1 h2 A B ma mb HM1 IH1 HM2 IH2 | h1 h2 h3 A B C ma mb mc HM1 IH1 HM2 IH2 HM3 IH3
     | h1 h2 A B ma mb HM1 IH1 HM2 IH2 | h1 h2 h3 A B C ma mb mc HM1 IH1 HM2 IH2 HM3 IH3
     | h1 h2 A B ma mb HM1 IH1 HM2 IH2 | h1 h2 h3 A B C ma mb mc HM1 IH1 HM2 IH2 HM3 IH3 ]; intros d Hd HA.
  - unfold x_attr. rewrite (dir_attr_run l lg) by auto. rewrite (proj2 (Nat.ltb_lt _ (length (ll_tokens l))) Hd). eauto.
  - unfold x_attr_eq. rewrite (dir_attr_eq_run l lg) by auto. rewrite (proj2 (Nat.ltb_lt _ (length (ll_tokens l))) Hd). eauto.
  - unfold x_token_has_any. specialize (HA eq_refl). destruct d as [i|i].
    + rewrite (token_attr_one_of_fwd l lg) by auto. destruct (attributed_dec i lg) as [|N]; eauto.
      exfalso. apply N, HA. exact Hd.
    + rewrite (token_attr_one_of_bwd l lg) by auto. simpl in Hd. rewrite (proj2 (Nat.ltb_lt _ (length (ll_tokens l))) Hd). eauto.
  - unfold x_token_text, dir_text_token. destruct (nth_error_lt (ll_tokens l) (dir_idx d) Hd) as (tok & E).
    destruct d as [i|i]; simpl in E; rewrite E; simpl; eauto.
  - destruct (IH1 d) as (al & Ea); [auto|intros E; apply HA; now rewrite E|].
    destruct (IH2 d) as (bl & Eb); [auto|intros E; apply HA; now rewrite E, orb_true_r|].
    unfold x_all2. rewrite Ea, Eb. simpl. eauto.
  - destruct (IH1 d) as (al & Ea); [auto|intros E; apply HA; now rewrite E|].
    destruct (IH2 d) as (bl & Eb); [auto|intros E; apply HA; now rewrite E, orb_true_r|].
    destruct (IH3 d) as (cl & Ec); [auto|intros E; apply HA; now rewrite E, orb_true_r|].
    unfold x_all3. rewrite Ea, Eb, Ec. simpl. eauto.
  - destruct (IH1 d) as (al & Ea); [auto|intros E; apply HA; now rewrite E|].
    destruct (IH2 d) as (bl & Eb); [auto|intros E; apply HA; now rewrite E, orb_true_r|].
    unfold x_any_of2. rewrite Ea. simpl. destruct al; [|eauto]. rewrite Eb. simpl. eauto.
  - destruct (IH1 d) as (al & Ea); [auto|intros E; apply HA; now rewrite E|].
    destruct (IH2 d) as (bl & Eb); [auto|intros E; apply HA; now rewrite E, orb_true_r|].
    destruct (IH3 d) as (cl & Ec); [auto|intros E; apply HA; now rewrite E, orb_true_r|].
    unfold x_any_of3. rewrite Ea. simpl. destruct al; [|eauto]. rewrite Eb. simpl. destruct bl; [|eauto].
    rewrite Ec. simpl. eauto.
  - destruct (IH1 d) as (al & Ea); [auto|intros E; apply HA; now rewrite E|].
    unfold x_seq2. rewrite Ea. simpl. apply flat_mapM_ok_iff. intros [a j] Hin.
    assert (Hj : Q d j) by exact (lib_found _ _ _ ma HM1 d al a j Hd Ea Hin).
    destruct (GA _ mb d j) as (bl & Eb); auto.
    { intros d' Hd' Hs. apply IH2; auto. apply (HD h2 d d'); auto. intros E. apply HA. now rewrite E, orb_true_r. }
    rewrite Eb. simpl. eauto.
  - destruct (IH1 d) as (al & Ea); [auto|intros E; apply HA; now rewrite E|].
    unfold x_seq3. rewrite Ea. simpl. apply flat_mapM_ok_iff. intros [a j] Hin.
    assert (Hj : Q d j) by exact (lib_found _ _ _ ma HM1 d al a j Hd Ea Hin).
    destruct (GA _ mb d j) as (bl & Eb); auto.
    { intros d' Hd' Hs. apply IH2; auto. apply (HD h2 d d'); auto. intros E. apply HA. now rewrite E, orb_true_r. }
    rewrite Eb. simpl. apply flat_mapM_ok_iff. intros [b k] Hin'.
    destruct (go_after_next _ _ _ _ _ _ Eb Hin') as (d' & Hn & Hm).
    assert (dir_idx d' < n) by eauto.
    assert (Q d' k) by (apply (lib_found _ _ _ mb HM2 d' bl b k); auto).
    assert (Hk : Q d k) by eauto.
    destruct (GA _ mc d k) as (cl & Ec); auto.
    { intros d2 Hd2 Hs. apply IH3; auto. apply (HD h3 d d2); auto. intros E. apply HA. now rewrite E, orb_true_r. }
    rewrite Ec. simpl. eauto.
Qed.
End Bounds.

Lemma found_in l lg d j : Repr l lg -> found_at lg d j -> j < length (ll_tokens l).
Proof.
  intros HR (r & a & H1 & H2). destruct (in_line_entry _ _ _ (rp_in l lg HR) H1) as [H3 H4]. simpl in *.
  destruct d; subst r; simpl in *; auto.
Qed.

Lemma lib_ends_in l lg P has A (m : matcher A) :
  Repr l lg -> lib_matcher P has A m ->
  forall d ms a j, dir_idx d < length (ll_tokens l) -> m d l = Ok ms -> In (a, j) ms ->
    j < length (ll_tokens l).
Proof.
  intros HR HM d ms a j Hd HE Hin.
  apply (lib_found l lg HR (fun d j => j < length (ll_tokens l))) with (P := P) (has := has) (A := A) (m := m) (d := d) (ms := ms) (a := a); auto.
  - intros d0 j0 _ HF. eapply found_in; eauto.
  - intros d0 j0 d' H1 H2 H3. eapply next_point_in; eauto. destruct d0; auto.
Qed.

(** C22: on a line whose attributes are on proper ranges every match of every
    matcher expression, tried at a token, ends at a token of the line, at or
    after (before, going backwards) the starting token. *)
Lemma thm_C22_inside :
  forall l lg P has A (m : matcher A),
    History l lg -> proper lg -> lib_matcher P has A m -> bounded m l.
Proof.
  intros l lg P has A m H HP HM d ms a j Hd HE Hin. pose proof (history_repr _ _ H) as HR.
  apply (lib_found l lg HR (fun d j => inside (length (ll_tokens l)) d j)) with (P := P) (has := has) (A := A) (m := m) (ms := ms) (a := a); auto.
  - intros d0 j0 Hd0 HF. pose proof (found_in l lg d0 j0 HR HF) as Hj. destruct HF as (r & x & H1 & H2).
    unfold proper in HP. rewrite Forall_forall in HP. specialize (HP _ H1). simpl in HP.
    destruct d0; subst r; simpl in *; lia.
  - intros [i|i]; simpl; lia.
  - intros [i|i] j0 [k|k]; simpl; lia.
  - intros [i|i] j0 [k|k] k0; simpl; lia.
Qed.

(** ... and without any assumption on the ranges it still ends at a token. *)
Lemma thm_C22_ends_in_line :
  forall l lg P has A (m : matcher A) d ms a j,
    History l lg -> lib_matcher P has A m -> dir_idx d < length (ll_tokens l) ->
    m d l = Ok ms -> In (a, j) ms -> j < length (ll_tokens l).
Proof.
  intros l lg P has A m d ms a j H HM Hd HE Hin.
  exact (lib_ends_in l lg P has A m (history_repr _ _ H) HM d ms a j Hd HE Hin).
Qed.

Lemma lib_safe l lg P has A (m : matcher A) d :
  Repr l lg -> lib_matcher P has A m -> dir_idx d < length (ll_tokens l) ->
  (has = true -> match d with Fwd _ => forall i, i < length (ll_tokens l) -> attributed i lg | Bwd _ => True end) ->
  exists ms, m d l = Ok ms.
Proof.
  intros HR HM Hd HA. apply (lib_safe_dir l lg HR (fun d j => j < length (ll_tokens l))) with (P := P) (has := has); auto.
  - intros d0 j0 _ HF. eapply found_in; eauto.
  - intros d0 j0 d' H1 H2 H3. eapply next_point_in; eauto. destruct d0; auto.
Qed.

(** C23: which matchers can panic at a token of the line. *)
Lemma thm_C23_without_has_any :
  forall l lg P A (m : matcher A), History l lg -> lib_matcher P false A m -> safe m l.
Proof. intros l lg P A m H HM d Hd. apply (lib_safe l lg P _ A m _ (history_repr _ _ H) HM); [assumption|discriminate]. Qed.

Lemma thm_C23_backwards :
  forall l lg P has A (m : matcher A) i, History l lg -> lib_matcher P has A m ->
    i < length (ll_tokens l) -> exists ms, m (Bwd i) l = Ok ms.
Proof. intros l lg P has A m i H HM Hi. apply (lib_safe l lg P _ A m _ (history_repr _ _ H) HM); [exact Hi|simpl; auto]. Qed.

Lemma thm_C23_attributed :
  forall l lg P has A (m : matcher A), History l lg -> lib_matcher P has A m ->
    (forall i, i < length (ll_tokens l) -> attributed i lg) -> safe m l.
Proof.
  intros l lg P has A m H HM HA d Hd. apply (lib_safe l lg P _ A m _ (history_repr _ _ H) HM); [assumption|].
  intros _. destruct d; auto.
Qed.

(** ... in particular on lines without value tokens. *)
Lemma thm_C23_text_only :
  forall l lg P has A (m : matcher A), History l lg -> lib_matcher P has A m ->
    (forall tok, In tok (ll_tokens l) -> token tok <> LValue) -> safe m l.
Proof.
  intros l lg P has A m H HM HV. eapply thm_C23_attributed; eauto. intros i Hi.
  destruct (attributed_dec i lg) as [|N]; auto.
  apply (thm_C18_unattributed l lg i H Hi) in N. destruct N as (tok & Hn & Et & _).
  exfalso. apply (HV tok); auto. eapply nth_error_In; eauto.
Qed.

End ThmMatch.
