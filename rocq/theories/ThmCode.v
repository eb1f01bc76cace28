(** What matchers and resolvers written by users can see of a line (C72). *)

From Verif Require Export ThmUser ThmOrder.

Section ThmCode.
Context {UC : Unicode} {U : UserTypes}.

Section Two.
Variables (P : ty -> Prop) (h : bool) (l l' : LLLine) (lg lg' : list entry).
Hypothesis H : History l lg.
Hypothesis H' : History l' lg'.
Hypothesis HC : map token (ll_tokens l) = map token (ll_tokens l').
Hypothesis HA : forall t, P t -> assigned t lg = assigned t lg'.
Hypothesis HT : h = true -> forall i, attributed i lg <-> attributed i lg'.

Lemma matcher_same A (go : direction -> program A) : (forall d, asks P h (go d)) ->
  forall d, matcher_by go d l = matcher_by go d l'.
Proof.
  intros HG d. apply (execute_same P h); auto.
  - intros has B m HH HM. apply (lib_matcher_contents _ _ _ _ l lg l' lg' HM); auto using history_repr.
  - intros t Ht. apply (query_contents l lg l' lg'); auto using history_repr.
  - intros tg incs HI. apply (show_contents tg l lg l' lg'); auto using history_repr.
Qed.

Lemma code_same t (c : LRange -> code t) id id' : (forall r, code_asks P h (c r)) ->
  resolver_by c (whole id l) = resolver_by c (whole id' l').
Proof.
  intros HG. unfold resolver_by. pose proof (contents_len _ _ HC) as EL.
  replace (range_of (whole id' l')) with (range_of (whole id l)) by (unfold range_of, whole; cbn [start_idx end_idx]; now rewrite EL).
  symmetry. apply (carry_out_same (mkRc id l) (mkRc id' l') EL P h); auto.
  intros A go Hgo d. exact (matcher_same A go Hgo d).
Qed.
End Two.

(** C72: a matcher or resolver gives the same answer on two lines with the same token contents
    and the same attributes of the types it asks for. *)
Lemma thm_C72_sees :
  forall (P : ty -> Prop) h l lg l' lg',
    History l lg -> History l' lg' ->
    map token (ll_tokens l) = map token (ll_tokens l') ->
    (forall t, P t -> assigned t lg = assigned t lg') ->
    (h = true -> forall i, attributed i lg <-> attributed i lg') ->
    (forall A (go : direction -> program A), (forall d, asks P h (go d)) ->
       forall d, matcher_by go d l = matcher_by go d l')
    /\ forall t (c : LRange -> code t) id id', (forall r, code_asks P h (c r)) ->
         resolver_by c (whole id l) = resolver_by c (whole id' l').
Proof.
  intros P h l lg l' lg' H H' HC HA HT. split; intros; [eapply matcher_same|eapply code_same]; eauto.
Qed.

(** ... so a run that assigns a type it does not ask for changes nothing for it. *)
Lemma thm_C72_unaffected :
  forall (P : ty -> Prop) h l lg t (r : Resolver t) id l',
    History l lg -> run id l r = Ok l' -> ~ P t ->
    (h = true -> forall i, i < length (ll_tokens l) -> attributed i lg) ->
    (forall A (go : direction -> program A), (forall d, asks P h (go d)) ->
       forall d, matcher_by go d l' = matcher_by go d l)
    /\ forall t' (c : LRange -> code t') id1 id2, (forall r', code_asks P h (c r')) ->
         resolver_by c (whole id1 l') = resolver_by c (whole id2 l).
Proof.
  intros P h l lg t r id l' H HR HP HT.
  destruct (go_same r id l lg l' H HR) as (out & (H' & ET) & _).
  apply (thm_C72_sees P h l' (lg ++ entries out) l lg); auto.
  - now rewrite ET.
  - intros t' Ht'. rewrite LemStore.assigned_app. unfold entries. rewrite (assigned_other t' t) by congruence. apply app_nil_r.
  - intros Hh. apply (attributed_same l' _ l _); auto.
    + unfold contents. now rewrite ET.
    + intros i. rewrite ET. intros Hi. apply attributed_app. auto.
Qed.

(** Every matcher of the library could have been written by a user, asking for the types it names. *)
Lemma thm_C72_library :
  forall P has A (m : matcher A), lib_matcher P has A m ->
    exists go : direction -> program A,
      (forall d l, m d l = matcher_by go d l) /\ (forall d, asks P has (go d))
      /\ forall d, honest (fun _ => False) (eq d) (go d).
Proof.
  intros P has A m HM. destruct (library_program P has A m HM) as (go & H1 & H2 & H3). exists go. auto.
Qed.

(** ** Resolvers written by users finish selections that can be reached *)

Section Code.
Variables (rc : RcLine) (aft : bool).
Let M := user_matcher (rc_line rc).

Lemma honest_user A (go : direction -> program A) :
  (forall d, honest (fun j => j < length (ll_tokens (rc_line rc))) (eq d) (go d)) -> M A (matcher_by go).
Proof. intros H. exists go. split; [reflexivity|exact H]. Qed.

Lemma reached_line s : reached M aft rc s -> forall lg, History (rc_line rc) lg -> s = at_range rc (range_of s).
Proof.
  intros HR lg H. destruct (thm_C71_ends rc lg aft s H HR) as (E & _). destruct s as [r i j]. cbn in E. now subst r.
Qed.

Variable lg : list entry.
Hypothesis H : History (rc_line rc) lg.

Lemma range_of_In xs r : (forall s, In s xs -> reached M aft rc s) -> In r (map range_of xs) ->
  reached M aft rc (at_range rc r).
Proof.
  intros HP Hin. apply in_map_iff in Hin. destruct Hin as (s & <- & Hin). specialize (HP s Hin).
  now rewrite <- (reached_line s HP lg H).
Qed.

Lemma seen_In {A} (xs : list (LLSelection * A)) r : (forall s a, In (s, a) xs -> reached M aft rc s) ->
  In r (map fst (map seen xs)) -> reached M aft rc (at_range rc r).
Proof.
  intros HP Hin. rewrite map_map in Hin. apply in_map_iff in Hin. destruct Hin as ([s a] & <- & Hin). specialize (HP s a Hin).
  cbn [seen fst]. now rewrite <- (reached_line s HP lg H).
Qed.

Lemma opt_seen {A} (o : option (LLSelection * A)) : opt_list (option_map seen o) = map seen (opt_list o).
Proof. destruct o; reflexivity. Qed.
Lemma opt_ranges o : opt_list (option_map range_of o) = map range_of (opt_list o).
Proof. destruct o; reflexivity. Qed.
Lemma opt_In {A} (o : option A) x : In x (opt_list o) -> o = Some x.
Proof. destruct o as [y|]; cbn; [intros [->|[]]; reflexivity|intros []]. Qed.

Lemma perform_reached (S : LRange -> Prop) X (c : call X) x r : call_on (length (ll_tokens (rc_line rc))) aft S X c ->
  (forall r, S r -> reached M aft rc (at_range rc r)) ->
  perform rc c = Ok x -> In r (answered c x) -> reached M aft rc (at_range rc r).
Proof.
  intros HC HS HP Hin. destruct HC; cbn [perform answered] in *; apply rmap_ok_inv in HP; destruct HP as (y & Ey & ->).
  - eapply range_of_In; [|exact Hin]. intros s' Hs. eapply R_split_by; eauto using honest_user.
  - eapply seen_In; [|exact Hin]. intros s' a Hs. eapply R_find_by; eauto using honest_user.
  - rewrite opt_seen in Hin. eapply seen_In; [|exact Hin]. intros s' a Hs. apply opt_In in Hs. subst y. eapply R_find_first_by; eauto using honest_user.
  - eapply seen_In; [|exact Hin]. intros s' a Hs. eapply R_find_both; eauto using honest_user.
  - eapply seen_In; [|exact Hin]. intros s' a Hs. eapply R_match_forwards; eauto using honest_user.
  - rewrite opt_seen in Hin. eapply seen_In; [|exact Hin]. intros s' a Hs. apply opt_In in Hs. subst y. eapply R_match_first_forwards; eauto using honest_user.
  - eapply seen_In; [|exact Hin]. intros s' a Hs. eapply R_match_backwards; eauto using honest_user.
  - rewrite opt_seen in Hin. eapply seen_In; [|exact Hin]. intros s' a Hs. apply opt_In in Hs. subst y. eapply R_match_first_backwards; eauto using honest_user.
  - rewrite opt_ranges in Hin. eapply range_of_In; [|exact Hin]. intros s' Hs. apply opt_In in Hs. subst y. eapply R_after; eauto.
  - destruct y as [p q]. cbn [fst snd] in Hin. rewrite !opt_ranges in Hin. apply in_app_or in Hin. destruct Hin as [Hin|Hin];
      (eapply range_of_In; [|exact Hin]); intros s' Hs; apply opt_In in Hs; subst.
    + eapply R_split_with_left; [| |exact Ey]; auto.
    + eapply R_split_with_right; [| |exact Ey]; auto.
  - rewrite opt_ranges in Hin. eapply range_of_In; [|exact Hin]. intros s' Hs. apply opt_In in Hs. subst y. eapply R_trim; eauto using honest_user.
  - rewrite opt_ranges in Hin. eapply range_of_In; [|exact Hin]. intros s' Hs. apply opt_In in Hs. subst y. eapply R_trim_start; eauto using honest_user.
  - rewrite opt_ranges in Hin. eapply range_of_In; [|exact Hin]. intros s' Hs. apply opt_In in Hs. subst y. eapply R_trim_end; eauto using honest_user.
Qed.

Lemma code_reached t (c : code t) S : honest_code (length (ll_tokens (rc_line rc))) aft S c ->
  (forall r, S r -> reached M aft rc (at_range rc r)) ->
  forall g x, carry_out rc c = Ok g -> In x (go_assignments g) ->
    exists s v, reached M aft rc s /\ x = finish_with_attr s v.
Proof.
  intros HC. induction HC as [S out keeps HO|S X c k Hc _ IH|S p]; intros HS g x HE Hx; cbn [carry_out] in HE.
  - injection HE as <-. cbn [go_assignments] in Hx. apply in_map_iff in Hx. destruct Hx as ([r v] & <- & Hin). exists (at_range rc r), v. split; [eauto|reflexivity].
  - inv_bind HE. eapply IH; eauto. intros r [Hr|Hr]; auto. eapply perform_reached; eauto.
  - discriminate.
Qed.
End Code.

(** C71: a resolver that calls no [after] never makes [run] panic unless it panics itself, or
    keeps a selection. *)
Lemma thm_C71_code :
  forall t l lg id (c : LRange -> code t),
    History l lg -> ll_tokens l <> [] ->
    (forall r, honest_code (length (ll_tokens l)) false (eq r) (c r)) ->
    ((exists l', run id l (resolver_by c) = Ok l')
       <-> exists g, resolver_by c (whole id l) = Ok g /\ go_retained g = false)
    /\ forall g, resolver_by c (whole id l) = Ok g -> go_retained g = false -> finishes (user_matcher l) id l g.
Proof.
  intros t l lg id c H HN HC.
  assert (HF : forall g, resolver_by c (whole id l) = Ok g -> go_retained g = false -> finishes (user_matcher l) id l g).
  { intros g Hg HR. split; auto. intros x Hx.
    apply (code_reached (mkRc id l) false lg H t (c (range_of (whole id l))) _ (HC _)) with (g := g); auto.
    intros r <-. change (at_range (mkRc id l) (range_of (whole id l))) with (whole id l). apply R_whole. apply thm_C71_whole. exact HN. }
  split; auto. split.
  - intros HR. apply (thm_C14_run_ok_iff t id l lg (resolver_by c) H HN) in HR. destruct HR as (g & Hg & HR & _). eauto.
  - intros (g & Hg & HR). destruct (thm_C71_run t l lg id (resolver_by c) g H HN Hg (HF g Hg HR)) as (l' & E & _). eauto.
Qed.

End ThmCode.
