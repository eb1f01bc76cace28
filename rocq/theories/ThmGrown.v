(** Lines keep answering (C80). *)

From Verif Require Export ThmEnd ThmUser ThmDisplay SpecGrown.

Section ThmGrown.
Context {UC : Unicode} {U : UserTypes}.

Lemma whole_derived id l aft : ll_tokens l <> [] -> derived aft (mkRc id l) (whole id l).
Proof.
  intros HN. apply D_whole. now apply (thm_C71_whole id l).
Qed.

Section Go.
Context (id : N) (l : LLLine).
Let good (s : LLSelection) : Prop := derived false (mkRc id l) s.
Let fine {t} (xs : list (LLCursorAssignment t)) : Prop :=
  forall x, In x xs -> exists s v, good s /\ x = finish_with_attr s v.

Lemma no_retain_inv {t} (r : res (list (LLCursorAssignment t))) g : no_retain r = Ok g -> r = Ok (go_assignments g) /\ go_retained g = false.
Proof. unfold no_retain. destruct r; cbn; intros H; try discriminate. injection H as <-. auto. Qed.

Lemma number_matcher : lib_matcher any_ty false _ x_number.
Proof. apply (LM_all2 any_ty false false); constructor. exact I. Qed.
Lemma whitespace_matcher : lib_matcher any_ty false _ x_whitespace.
Proof. constructor. exact I. Qed.

Lemma text_match_fine {t} (m : TextMatch t) : ll_tokens l <> [] -> forall g, text_match_go m (whole id l) = Ok g -> fine (go_assignments g).
Proof.
  intros HN g Hg. apply no_retain_inv in Hg. destruct Hg as [Hg _]. inv_bind Hg. injection Hg as Hg. intros x Hx. rewrite <- Hg in Hx.
  apply in_flat_map in Hx. destruct Hx as ([s text] & Hs & Hx).
  destruct (map_get str_eqb (lookup m) _) as [vs|]; [|easy]. apply in_map_iff in Hx. destruct Hx as (v & <- & _).
  exists s, v. split; [|reflexivity]. eapply (D_find_by false _ (whole id l) false); [now apply whole_derived| |eassumption|eassumption].
  constructor.
Qed.

Lemma keyword_fine r : ll_tokens l <> [] -> forall g, clause_keyword_go r (whole id l) = Ok g -> fine (go_assignments g).
Proof.
  intros HN g Hg. apply no_retain_inv in Hg. destruct Hg as [Hg _]. inv_bind Hg. injection Hg as Hg. intros x Hx. rewrite <- Hg in Hx.
  apply in_flat_map in Hx. destruct Hx as ([s text] & Hs & Hx).
  destruct (keyword_of r text) as [k|]; [|easy]. destruct Hx as [<-|[]].
  exists s, k. split; [|reflexivity]. eapply (D_find_by false _ (whole id l) false); [now apply whole_derived| |eassumption|eassumption].
  constructor.
Qed.

Lemma pos_fine dict noun : ll_tokens l <> [] -> forall g, pos_go dict noun (whole id l) = Ok g -> fine (go_assignments g).
Proof.
  intros HN g Hg. apply no_retain_inv in Hg. destruct Hg as [Hg _]. inv_bind Hg. injection Hg as Hg. intros x Hx. rewrite <- Hg in Hx.
  apply in_flat_map in Hx. destruct Hx as ([s [u text]] & Hs & Hx).
  apply in_map_iff in Hx. destruct Hx as (v & <- & _).
  exists s, v. split; [|reflexivity]. eapply (D_find_by false _ (whole id l) false); [now apply whole_derived| |eassumption|eassumption].
  apply (LM_all2 any_ty false false); constructor. exact I.
Qed.

Lemma clause_loop_fine : forall clauses b xs, (forall s, In s clauses -> good s) -> clause_loop clauses b = Ok xs -> fine xs.
Proof.
  induction clauses as [|c clauses IH]; intros b xs HG H; cbn [clause_loop] in H.
  - injection H as <-. intros x [].
  - inv_bind H. destruct a as [trimmed|].
    + inv_bind H. rename E into Et.
      match type of H with (let '(_, _) := ?x in _) = _ => destruct x as [cl fd] end.
      inv_bind H. injection H as <-. intros x [<-|Hx].
      * exists trimmed, cl. split; [|reflexivity]. eapply (D_trim false _ c false); [apply HG; now left|apply whitespace_matcher|exact Et].
      * eapply (IH fd _); [intros s Hs; apply HG; now right|eassumption|exact Hx].
    + eapply IH; [|exact H]. intros s Hs. apply HG. now right.
Qed.

Lemma clause_fine : ll_tokens l <> [] -> forall g, clause_go (whole id l) = Ok g -> fine (go_assignments g).
Proof.
  intros HN g Hg. apply no_retain_inv in Hg. destruct Hg as [Hg _]. inv_bind Hg. rename E into ES.
  assert (HG : forall s, In s a -> good s).
  { intros s Hs. eapply (D_split_by false _ (whole id l) false); [now apply whole_derived| |exact ES|exact Hs].
    apply (LM_any2 any_ty false false); constructor; exact I. }
  destruct a as [|c0 [|c1 cs]].
  - now apply (clause_loop_fine [] false).
  - inv_bind Hg. destruct a as [trimmed|].
    + inv_bind Hg. injection Hg as Hg. rewrite <- Hg. intros x [<-|[]]. eexists trimmed, _. split; [|reflexivity].
      eapply (D_trim false _ c0 false); [apply HG; now left|apply whitespace_matcher|eassumption].
    + injection Hg as Hg. rewrite <- Hg. intros x [].
  - now apply (clause_loop_fine (c0 :: c1 :: cs) false).
Qed.

Section Amount.
Context (parse : str -> option Decimal) (r : AmountResolver).

Lemma delim_loop_good fuel : forall s lv n s' lv' n', good s -> (forall x, lv = Some x -> good x) ->
  delim_loop r fuel s lv n = Ok (s', lv', n') -> good s' /\ forall x, lv' = Some x -> good x.
Proof.
  induction fuel as [|fuel IH]; intros s lv n s' lv' n' HS HL H; cbn [delim_loop] in H; [discriminate|].
  inv_bind H. destruct a as [[ds u]|].
  - inv_bind H. assert (HD : good ds).
    { eapply (D_match_first_forwards false _ s true); [exact HS| |eassumption]. now constructor. }
    destruct a as [[fs [u' text]]|].
    + refine (IH _ _ _ _ _ _ _ _ H); [|discriminate]. eapply (D_match_first_forwards false _ ds false); [exact HD|apply number_matcher|eassumption].
    + injection H as <- <- <-. split; [exact HD|]. intros x E'. injection E' as <-. exact HS.
  - injection H as <- <- <-. auto.
Qed.

Lemma decimal_part_good st s' lv' n' : good (fst (fst st)) -> (forall x, snd (fst st) = Some x -> good x) ->
  decimal_part r st = Ok (s', lv', n') -> good s' /\ forall x, lv' = Some x -> good x.
Proof.
  destruct st as [[s lv] n]. cbn [fst snd]. intros HS HL H. unfold decimal_part in H. destruct lv as [x|].
  - injection H as <- <- <-. auto.
  - inv_bind H. destruct a as [[ws u]|].
    + assert (HD : good ws).
      { eapply (D_match_first_forwards false _ s true); [exact HS| |eassumption]. now constructor. }
      inv_bind H. destruct a as [[fs [u' text]]|]; injection H as <- <- <-.
      * split; [|discriminate]. eapply (D_match_first_forwards false _ ws false); [exact HD|apply number_matcher|eassumption].
      * split; [exact HD|]. intros x E'. injection E' as <-. exact HS.
    + inv_bind H. destruct a as [[fs [u' text]]|]; injection H as <- <- <-.
      * split; [|discriminate]. eapply (D_match_first_forwards false _ s false); [exact HS|apply number_matcher|eassumption].
      * split; [exact HS|discriminate].
Qed.

Lemma amount_loop_good fuel : forall s attrs xs, good s -> fine attrs -> amount_loop parse r fuel s attrs = Ok xs -> fine xs.
Proof.
  induction fuel as [|fuel IH]; intros s attrs xs HS HA H; cbn [amount_loop] in H; [discriminate|].
  inv_bind H. destruct a as [[s0 [u text]]|]; [|injection H as <-; exact HA].
  assert (H0 : good s0) by (eapply (D_find_first_by false _ s false); [exact HS|apply number_matcher|eassumption]).
  inv_bind H. destruct a as [[s1 lv1] n1].
  match goal with E : delim_loop _ _ _ _ _ = Ok _ |- _ => destruct (delim_loop_good fuel s0 None text s1 lv1 n1 H0 ltac:(discriminate) E) as [H1 L1] end.
  inv_bind H. destruct a as [[s2 lv2] n2].
  match goal with E : decimal_part _ _ = Ok _ |- _ => destruct (decimal_part_good (s1, lv1, n1) s2 lv2 n2 H1 L1 E) as [H2 L2] end.
  inv_bind H. inv_bind H. destruct a0 as [lo ro].
  set (chosen := match lv2 with Some x => x | None => s2 end) in *.
  assert (HC : good chosen) by (unfold chosen; destruct lv2; auto).
  assert (HA' : fine (attrs ++ [finish_with_attr (t := TAmount) chosen a])).
  { intros x Hx. apply in_app_iff in Hx. destruct Hx as [Hx|[<-|[]]]; [auto|]. exists chosen, a. auto. }
  destruct ro as [right_sel|]; [|injection H as <-; exact HA'].
  eapply IH; [|exact HA'|exact H]. eapply (D_split_with_right false _ s s2); [exact HS|exact H2|eassumption].
Qed.

Lemma amount_fine : ll_tokens l <> [] -> forall g, amount_go parse r (whole id l) = Ok g -> fine (go_assignments g).
Proof.
  intros HN g Hg. apply no_retain_inv in Hg. destruct Hg as [Hg _].
  eapply amount_loop_good; [now apply whole_derived| |exact Hg]. intros x [].
Qed.
End Amount.
End Go.

(** C80: a run of a library resolver that returns only finishes selections made from the one it is given. *)
Lemma thm_C80_library :
  forall id l s l' lg, History l lg -> ll_tokens l <> [] -> run_step id l s = Ok l' -> behaves id l s.
Proof.
  intros id l s l' lg H HN HR. pose proof (history_repr _ _ H) as R.
  assert (HX : forall t (r : Resolver t) (HRet : forall g, r (whole id l) = Ok g -> go_retained g = false),
     (forall g, r (whole id l) = Ok g -> forall x, In x (go_assignments g) ->
        exists s v, derived false (mkRc id l) s /\ x = finish_with_attr s v) ->
     run id l r = Ok l' -> well_behaved id l r).
  { intros t r HRet HF HR'. destruct (run_inv id l lg r l' R HN HR') as (g & Hg & _). exists g. split; [exact Hg|]. split; auto. intros x Hx. now apply (HF g). }
  destruct s as [t m|r| |dict noun|parse r]; cbn [run_step behaves] in *; (apply HX; [|clear HR|exact HR]).
  all: try (intros g Hg; now apply no_retain_inv in Hg).
  - now apply text_match_fine.
  - now apply keyword_fine.
  - now apply clause_fine.
  - now apply pos_fine.
  - now apply amount_fine.
Qed.

Lemma grown_history l : grown l -> exists lg, History l lg /\ proper lg.
Proof.
  assert (HX : forall l lg id t (r : Resolver t) l', History l lg -> proper lg -> (ll_tokens l <> [] -> well_behaved id l r) ->
     run id l r = Ok l' -> exists lg', History l' lg' /\ proper lg').
  { intros l0 lg id t r l' H HP HW HR. destruct (thm_C24_run t l0 lg id r H HP HW) as (l1 & lg' & E & H1 & P1).
    assert (l1 = l') by congruence. subst. eauto. }
  induction 1 as [tg sz input l HW HC|l id s l' HG (lg & H & HP) HR|l t id r l' HG (lg & H & HP) HW HR].
  - eapply thm_C24_created; eauto.
  - assert (HB : ll_tokens l <> [] -> behaves id l s) by (intros HN; eapply thm_C80_library; eauto).
    destruct s; cbn [run_step behaves] in *; eapply HX; eauto.
  - eapply HX; eauto.
Qed.

(** C80: what can be asked of such a line is answered, and it can be run again. *)
Lemma thm_C80_answers :
  forall l, grown l ->
    answers l
    /\ (forall id aft s, derived aft (mkRc id l) s -> sel_line s = mkRc id l /\ (sel_ok s \/ (aft = true /\ sel_past_end s)))
    /\ (forall t id (r : Resolver t), (ll_tokens l <> [] -> well_behaved id l r) ->
          exists l', run id l r = Ok l' /\ ll_tokens l' = ll_tokens l /\ grown l' /\ answers l').
Proof.
  assert (HA : forall l lg, History l lg -> proper lg -> answers l).
  { intros l lg H HP. pose proof (history_repr _ _ H) as R. split; [|split].
    - intros t.
      assert (HO : forall rg, In rg (ranges_of t lg) -> fst rg <= snd rg < length (ll_tokens l)).
      { intros rg Hin. apply ranges_of_In in Hin. destruct Hin as (v & Hv).
        destruct (in_line_entry _ _ _ (rp_in l lg R) Hv) as [_ B]. unfold proper in HP. rewrite Forall_forall in HP.
        specialize (HP _ Hv). cbn [fst snd] in *. lia. }
      pose proof (thm_C10_query_exact l lg t H) as EQ.
      exists (query_spec (ll_tokens l) t lg).
      assert (EQ' : query l t = Ok (query_spec (ll_tokens l) t lg)).
      { apply EQ. apply Forall_forall. intros rg Hin. specialize (HO rg Hin). unfold range_ordered. lia. }
      split; [exact EQ'|]. destruct (thm_C10_rows l lg t _ H EQ') as (ND & _ & HV). split; [exact ND|].
      intros s e text vs Hin. pose proof (proj2 (HV _ _ _ Hin)) as Hv. unfold query_spec in Hin. apply in_map_iff in Hin.
      destruct Hin as ([s' e'] & E & Hin). cbn [fst snd] in E. injection E as -> -> <- <-. apply HO in Hin. auto.
    - intros tg incs. eexists. now apply (thm_C35_display tg l lg).
    - intros A m HM. destruct (ll_tokens l) as [|x xs] eqn:ET; [exists []; now apply thm_C33_empty|].
      assert (HN : ll_tokens l <> []) by (rewrite ET; discriminate).
      assert (HF : exists found, find_by (whole 0 l) m = Ok found).
      { apply thm_C25_ok_iff. intros i Hi. apply (thm_C23_without_has_any l lg any_ty A m H HM).
        unfold covers, whole in Hi. cbn [start_idx end_idx] in Hi. cbn. rewrite ET in *. cbn [length] in *. lia. }
      destruct HF as (ms & HF).
      destruct (thm_C33_find l 0%N A m ms HN (thm_C22_inside l lg any_ty false A m H HP HM) HF) as (fs & E & _). eauto. }
  intros l HG. destruct (grown_history l HG) as (lg & H & HP). split; [eauto|]. split.
  - intros id [] s HD.
    + destruct (thm_C24_with_after (mkRc id l) lg s H HP HD) as [E [O|O]]; auto.
    + destruct (thm_C24_in_range (mkRc id l) lg s H HP HD) as [E O]; auto.
  - intros t id r HW. destruct (thm_C24_run t l lg id r H HP HW) as (l' & lg' & E & H' & P'). exists l'.
    split; [exact E|]. destruct (run_other id l lg r l' H E) as (_ & ET & _). split; [exact ET|]. split; [|eauto].
    eapply Gr_resolver; eauto.
Qed.

End ThmGrown.
