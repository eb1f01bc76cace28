(** Proofs about the size of results (C97). *)

From Verif Require Export SpecBound ThmEnd ThmAscii.

Local Open Scope list_scope.

(** ** Lists *)

Lemma concat_length_ge {A B} (f : A -> list B) xs : (forall x, In x xs -> f x <> []) -> length xs <= length (concat (map f xs)).
Proof.
  induction xs as [|x xs IH]; intros H; [auto|]. cbn [map concat length]. rewrite app_length.
  assert (f x <> []) by (apply H; now left). destruct (f x); [easy|]. specialize (IH (fun y Hy => H y (or_intror Hy))). cbn. lia.
Qed.

(** Different numbers below [n] number at most [n]. *)
Lemma indexes_length n xs : NoDup xs -> (forall x, In x xs -> x < n) -> length xs <= n.
Proof. intros N H. rewrite <- (seq_length n 0). apply NoDup_incl_length; [exact N|]. intros x Hx. apply in_seq. specialize (H x Hx). lia. Qed.

Lemma indexes_sum (w : nat -> nat) : forall xs ys, NoDup xs -> incl xs ys -> list_sum (map w xs) <= list_sum (map w ys).
Proof.
  induction xs as [|x xs IH]; intros ys N HI; [cbn; lia|]. inversion N as [|? ? Nx N']; subst.
  assert (Hx : In x ys) by (apply HI; now left). apply in_split in Hx. destruct Hx as (y1 & y2 & ->).
  specialize (IH (y1 ++ y2) N'). rewrite !map_app, !list_sum_app in *. cbn [map list_sum fold_right] in *.
  assert (incl xs (y1 ++ y2)).
  { intros z Hz. assert (z <> x) by congruence. specialize (HI z (or_intror Hz)). apply in_app_iff in HI. apply in_app_iff. destruct HI as [?|[?|?]]; [now left|congruence|now right]. }
  specialize (IH H). unfold list_sum in *. cbn [fold_right]. lia.
Qed.

(** Ranges with different beginnings. *)
Lemma starts_length n (rs : list LRange) : NoDup rs -> (forall r, In r rs -> fst r < n) -> (forall r r', In r rs -> In r' rs -> fst r = fst r' -> r = r') -> length rs <= n.
Proof.
  intros N H1 H2. assert (EL : length (map fst rs) = length rs) by apply map_length. rewrite <- EL. clear EL. apply indexes_length.
  - clear H1. induction N as [|r rs Hr N IH]; [constructor|]. cbn [map]. constructor.
    + intros C. apply in_map_iff in C. destruct C as (r' & E & Hr'). apply Hr. rewrite (H2 r r'); [exact Hr'|now left|now right|now symmetry].
    + apply IH. intros a b Ha Hb. apply H2; now right.
  - intros x Hx. apply in_map_iff in Hx. destruct Hx as (r & <- & Hr). auto.
Qed.

Lemma sorted_starts (rs : list LRange) : StronglySorted (fun x y => snd x < fst y) rs -> (forall r, In r rs -> fst r <= snd r) -> forall r r', In r rs -> In r' rs -> fst r = fst r' -> r = r'.
Proof.
  induction 1 as [|x rs HS IH HF]; intros HO r r' Hr Hr' E; [destruct Hr|]. rewrite Forall_forall in HF.
  pose proof (HO x (or_introl eq_refl)). destruct Hr as [<-|Hr], Hr' as [<-|Hr']; [reflexivity| | |].
  - specialize (HF _ Hr'). lia.
  - specialize (HF _ Hr). lia.
  - apply IH; auto. intros y Hy. apply HO. now right.
Qed.

Lemma sorted_map {A B} (f : A -> B) (P : B -> B -> Prop) xs : StronglySorted (fun x y => P (f x) (f y)) xs -> StronglySorted P (map f xs).
Proof. induction 1 as [|x xs _ IH HF]; constructor; [exact IH|]. apply Forall_map. exact HF. Qed.

(** Ranges in order are at most as long as the line, and so are their texts. *)
Lemma sorted_sum (w : nat -> nat) n (rs : list LRange) : StronglySorted (fun x y => snd x < fst y) rs -> (forall r, In r rs -> fst r <= snd r < n) ->
  list_sum (map (fun r => list_sum (map w (seq (fst r) (S (snd r) - fst r)))) rs) <= list_sum (map w (seq 0 n)).
Proof.
  intros HS HO.
  replace (list_sum (map (fun r => list_sum (map w (seq (fst r) (S (snd r) - fst r)))) rs)) with (list_sum (map w (flat_map (fun r => seq (fst r) (S (snd r) - fst r)) rs))).
  2: { clear. induction rs as [|r rs IH]; [reflexivity|]. cbn [flat_map map]. rewrite map_app, list_sum_app, IH. reflexivity. }
  apply indexes_sum.
  - induction HS as [|x rs _ IH HF]; [constructor|]. cbn [flat_map]. rewrite Forall_forall in HF. 
    assert (D : forall i, In i (seq (fst x) (S (snd x) - fst x)) -> ~ In i (flat_map (fun r => seq (fst r) (S (snd r) - fst r)) rs)).
    { intros i Hi C. apply in_flat_map in C. destruct C as (y & Hy & C). specialize (HF y Hy). apply in_seq in Hi, C. lia. }
    specialize (IH (fun r Hr => HO r (or_intror Hr))). revert D. generalize (seq_NoDup (S (snd x) - fst x) (fst x)). generalize (seq (fst x) (S (snd x) - fst x)).
    intros ys N D. induction N as [|y ys Hy N IHN]; [exact IH|]. cbn [app]. constructor; [|apply IHN; intros i Hi; apply D; now right].
    rewrite in_app_iff. intros [C|C]; [contradiction|]. apply (D y); [now left|exact C].
  - intros i Hi. apply in_flat_map in Hi. destruct Hi as (r & Hr & Hi). specialize (HO r Hr). apply in_seq in Hi. apply in_seq. lia.
Qed.

(** Ranges with a gap between any two. *)
Lemma gaps_length n : forall (rs : list LRange) k, StronglySorted (fun x y => snd x + 1 < fst y) rs -> (forall r, In r rs -> k <= fst r <= snd r /\ snd r < n) -> rs <> [] -> k + 2 * length rs <= n + 1.
Proof.
  unfold LRange. intros rs k HS. revert k. induction HS as [|x rs HS IH HF]; intros k HO N; [easy|]. pose proof (HO x (or_introl eq_refl)) as [H1 H2].
  destruct rs as [|y rs']; [cbn; lia|]. specialize (IH (fst x + 2)). cbn [length] in *. enough (fst x + 2 + 2 * S (length rs') <= n + 1) by lia. apply IH; [|discriminate].
  intros r Hr. rewrite Forall_forall in HF. specialize (HF r Hr). cbn beta in HF. destruct (HO r (or_intror Hr)) as [H3 H4]. unfold LRange in *. lia.
Qed.

Section Bound.
Context {UC : Unicode} {U : UserTypes}.

(** ** Tokens *)

Lemma group_length (SL : SegmenterLaws) sz it g : input_ltokens sz it = Ok g -> length g <= chars_in it.
Proof.
  destruct it as [text ats|size ats]; cbn [input_ltokens chars_in]; intros H; [|injection H as <-; cbn; lia].
  destruct (thm_C05_tags sz text g H) as (pss & HP & ET). rewrite <- (map_length fst g), ET, map_length.
  pose proof (segments_pieces _ _ HP) as EC. rewrite (seg_concat SL) in EC. rewrite <- EC. apply (concat_length_ge fst). intros p Hp. eapply pieces_nonempty; eauto.
Qed.

(** C97: at least one token for every input, and at most one for every character or value input. *)
Lemma thm_C97_tokens :
  forall (SL : SegmenterLaws) tg sz input l,
    Forall wf_input input -> create_line_from_input_tokens tg input sz = Ok l ->
    length input <= length (ll_tokens l) <= list_sum (map chars_in input).
Proof.
  intros SL tg sz input l HW HC. destruct (create_facts tg sz input l HW HC) as (groups & HG & HN & _ & ET & _). rewrite ET, layout_by_length. clear - SL HG HN.
  induction HG as [|it g input groups Hg _ IH]; [cbn; lia|]. inversion HN as [|? ? Ng HN']; subst. specialize (IH HN'). cbn [concat map length]. rewrite app_length.
  pose proof (group_length SL sz it g Hg). destruct g; [easy|]. unfold list_sum in *. cbn [fold_right length] in *. lia.
Qed.

(** ** Queries *)

Lemma query_ranges l lg t q : History l lg -> query l t = Ok q -> map (fun row => fst (fst row)) q = ranges_of t lg.
Proof.
  intros H HQ. destruct (Forall_dec range_ordered (fun r => le_dec (fst r) (S (snd r))) (ranges_of t lg)) as [F|F].
  - rewrite (thm_C10_query_exact l lg t H F) in HQ. injection HQ as <-. unfold query_spec. rewrite map_map. cbn [fst]. apply map_id.
  - rewrite (thm_C10_query_panics l lg t H F) in HQ. discriminate.
Qed.

(** C97: however the values were assigned, a query has at most as many rows as there are pairs of tokens. *)
Lemma thm_C97_query :
  forall l lg t q, History l lg -> query l t = Ok q -> length q <= length (ll_tokens l) * length (ll_tokens l).
Proof.
  intros l lg t q H HQ. rewrite <- (map_length (fun row => fst (fst row)) q), (query_ranges l lg t q H HQ).
  set (n := length (ll_tokens l)). replace (n * n) with (length (list_prod (seq 0 n) (seq 0 n))) by now rewrite prod_length, seq_length.
  apply NoDup_incl_length; [apply firsts_NoDup|]. intros [a b] Hr. destruct (repr_range_in l lg t _ (history_repr _ _ H) Hr) as [H1 H2]. cbn in H1, H2. fold n in H1, H2.
  apply in_prod; apply in_seq; lia.
Qed.

(** ** Steps *)

Lemma firsts_app_length xs ys : length (firsts (xs ++ ys)) <= length (firsts xs) + length (firsts ys).
Proof.
  rewrite <- app_length. apply NoDup_incl_length; [apply firsts_NoDup|]. intros r Hr. rewrite firsts_In in Hr. apply in_app_iff in Hr. apply in_app_iff. rewrite !firsts_In. exact Hr.
Qed.

Lemma ordered_out {t} (lg : list entry) (out : list (LRange * den t)) : ordered lg -> (forall r v, In (r, v) out -> fst r <= snd r) ->
  ordered (lg ++ map (fun '(rg, v) => (rg, mkany t v)) out).
Proof.
  intros HO HL. apply Forall_app. split; [exact HO|]. apply Forall_map. apply Forall_forall. intros [r v] Hin. cbn. specialize (HL r v Hin). lia.
Qed.

Definition bounded_step (l : LLLine) (lg : list entry) (s : step) (l' : LLLine) : Prop :=
  exists lg', History l' lg' /\ ordered lg' /\ single lg' TKeyword /\ single lg' TTextTag /\ ll_tokens l' = ll_tokens l
    /\ forall t, length (ranges_of t lg') <= length (ranges_of t lg) + (if ty_eq_dec (writes (Lib s)) t then length (ll_tokens l) else 0).

Lemma step_bounded id s l lg l' : History l lg -> ordered lg -> single lg TKeyword -> single lg TTextTag -> run_step id l s = Ok l' -> bounded_step l lg s l'.
Proof.
  intros H HO HK HT HR.
  assert (HG : forall t (r : Resolver t) out, run id l r = Ok l' -> runs_to id l lg r out -> t = writes (Lib s) ->
    (forall rg v, In (rg, v) out -> fst rg <= snd rg < length (ll_tokens l)) ->
    (forall rg rg', In rg (map fst out) -> In rg' (map fst out) -> fst rg = fst rg' -> rg = rg') ->
    (t = TKeyword \/ t = TTextTag -> forall rg v, In (rg, v) out -> fst rg = snd rg) -> bounded_step l lg s l').
  { intros t r out E (l2 & E2 & ET & H2) -> HI HD HS. assert (l2 = l') by congruence. subst l2. eexists. split; [exact H2|].
    split; [apply ordered_out; [exact HO|]; intros rg v Hin; specialize (HI rg v Hin); lia|].
    split; [apply single_app; [|exact HK]; intros Et; apply HS; auto|]. split; [apply single_app; [|exact HT]; intros Et; apply HS; auto|]. split; [exact ET|].
    intros t. unfold ranges_of. rewrite assigned_app, map_app. eapply Nat.le_trans; [apply firsts_app_length|]. apply Nat.add_le_mono_l.
    destruct (ty_eq_dec (writes (Lib s)) t) as [<-|N].
    - rewrite assigned_same. apply starts_length; [apply firsts_NoDup| |].
      + intros rg Hr. rewrite firsts_In in Hr. apply in_map_iff in Hr. destruct Hr as ([rg' v] & <- & Hin). cbn. specialize (HI _ _ Hin). lia.
      + intros a b Ha Hb. rewrite firsts_In in Ha, Hb. now apply HD.
    - rewrite assigned_other by auto. cbn. lia. }
  assert (ON : forall A (f : nat -> str -> list A), (forall rg v, In (rg, v) (on_tokens f (ll_tokens l)) -> fst rg = snd rg /\ fst rg < length (ll_tokens l))).
  { intros A f [a b] v Hin. split; [now apply on_tokens_single in Hin|]. apply on_tokens_In in Hin. destruct Hin as (_ & tok & text & tag & Hn & _). cbn. apply nth_error_Some. congruence. }
  assert (SG : forall A (out : list (LRange * A)), (forall rg v, In (rg, v) out -> fst rg = snd rg) -> forall rg rg', In rg (map fst out) -> In rg' (map fst out) -> fst rg = fst rg' -> rg = rg').
  { intros A out HS rg rg' Ha Hb E. apply in_map_iff in Ha, Hb. destruct Ha as ([r1 v] & <- & Ha). destruct Hb as ([r2 v'] & <- & Hb). apply HS in Ha, Hb. destruct r1, r2. cbn [fst snd] in *. congruence. }
  destruct s as [t m|r| |dict noun|parse r]; cbn [run_step] in HR.
  - eapply HG; [exact HR|apply (text_match_run id l lg m H)|reflexivity| | |].
    + intros rg v Hin. destruct (ON _ _ _ _ Hin). lia.
    + apply SG. intros rg v Hin. now destruct (ON _ _ _ _ Hin).
    + intros _ rg v Hin. now destruct (ON _ _ _ _ Hin).
  - destruct (thm_C45_keywords id l lg r H) as (out & HX & HE & _).
    assert (K : forall rg v, In (rg, v) out -> fst rg = snd rg /\ fst rg < length (ll_tokens l)).
    { intros [a b] v Hin. apply HE in Hin. destruct Hin as (-> & tok & text & tag & Hn & _). split; [reflexivity|]. cbn. apply nth_error_Some. congruence. }
    eapply HG; [exact HR|exact HX|reflexivity| | |].
    + intros rg v Hin. destruct (K _ _ Hin). lia.
    + apply SG. intros rg v Hin. now destruct (K _ _ Hin).
    + intros _ rg v Hin. now destruct (K _ _ Hin).
  - destruct (thm_C47_clauses id l lg H HK HT) as (out & HX & HE & HC).
    assert (K : StronglySorted (fun x y => snd x < fst y) (map fst out) /\ (forall r, In r (map fst out) -> fst r <= snd r < length (ll_tokens l))).
    { destruct (ll_tokens l) as [|tk tks] eqn:EL; [rewrite (HE eq_refl); split; [constructor|easy]|]. rewrite <- EL in *. assert (NE : ll_tokens l <> []) by (rewrite EL; discriminate).
      destruct (HC NE) as (runs & ts & HCl). destruct (thm_C47_disjoint lg _ runs ts out HCl) as [HS HB]. split; [now apply (sorted_map fst (fun x y => snd x < fst y))|].
      intros [a b] Hr. apply in_map_iff in Hr. destruct Hr as ([rg c] & Er & Hin). cbn in Er. subst rg. destruct (HB a b c Hin) as (B1 & B2 & _). destruct (B2 b ltac:(lia)) as [(C1 & C2) _].
      pose proof (whole_ok id l NE) as (_ & W). unfold line_len, whole, line_of in W. cbn in *. lia. }
    destruct K as [K1 K2]. eapply HG; [exact HR|exact HX|reflexivity| | |].
    + intros rg v Hin. apply K2. apply in_map_iff. now exists (rg, v).
    + apply sorted_starts; [exact K1|]. intros r Hr. specialize (K2 r Hr). lia.
    + intros [C|C]; discriminate.
  - eapply HG; [exact HR|apply (thm_C50_tags id l lg dict noun H)|reflexivity| | |].
    + intros rg v Hin. destruct (ON _ _ _ _ Hin). lia.
    + apply SG. intros rg v Hin. now destruct (ON _ _ _ _ Hin).
    + intros _ rg v Hin. now destruct (ON _ _ _ _ Hin).
  - destruct (thm_C39_ordered parse r id l lg l' H HR) as (out & _ & HX & HS & HB).
    eapply HG; [exact HR|exact HX|reflexivity| | |].
    + intros [a b] v Hin. cbn. now apply (HB a b v).
    + apply sorted_starts; [now apply (sorted_map fst (fun x y => snd x < fst y))|]. intros rg Hr. apply in_map_iff in Hr. destruct Hr as ([[a b] v] & <- & Hin). cbn. destruct (HB _ _ _ Hin). lia.
    + intros [C|C]; discriminate.
Qed.

(** ** New lines *)

Lemma created_log tg sz input l : Forall wf_input input -> create_line_from_input_tokens tg input sz = Ok l ->
  exists lg, History l lg /\ ordered lg /\ (forall t, none_of t input -> single lg t)
    /\ forall t, length (ranges_of t lg) <= (if ty_eq_dec t TTextTag then length (ll_tokens l) else if ty_eq_dec t TChar then length (ll_tokens l) else 0) + length input.
Proof.
  intros HW HC. destruct (create_facts tg sz input l HW HC) as (groups & HG & HN & _ & ET & _).
  exists (creation_log (map (map fst) groups) input). split; [exact (H_create tg sz input groups l HW HC HG)|].
  split; [apply creation_log_ordered; apply Forall_map; eapply Forall_impl; [|exact HN]; intros g Ng E; apply map_eq_nil in E; contradiction|].
  assert (TL : forall ts k e, In e (tokens_log k ts) -> fst (fst e) = snd (fst e) /\ k <= fst (fst e) < k + length ts /\ forall t v, snd e = mkany t v -> t = TTextTag \/ t = TChar).
  { induction ts as [|tok ts IH]; intros k e He; [destruct He|]. cbn [tokens_log length] in *. apply in_app_iff in He. destruct He as [He|He].
    - assert (K : fst e = (k, k) /\ ((exists c, snd e = mkany TChar c) \/ exists tag, snd e = mkany TTextTag tag)).
      { destruct tok as [s tag|]; [|destruct He]. cbn [token_entries] in He. destruct s as [|c [|c' s]]; cbn in He; intuition; subst; cbn; eauto. }
      destruct K as [-> K]. cbn. split; [reflexivity|]. split; [lia|]. intros t v E. destruct K as [(c & Ec)|(tag & Ec)]; rewrite Ec in E; apply (f_equal (@projT1 ty den)) in E; cbn in E; auto.
    - destruct (IH (S k) e He) as (A & B & C). split; [exact A|]. split; [lia|exact C]. }
  split.
  - intros t HNo rg v Hin. unfold creation_log in Hin. rewrite assigned_app in Hin. apply in_app_iff in Hin. destruct Hin as [Hin|Hin].
    + apply assigned_In in Hin. now destruct (TL _ _ _ Hin).
    + exfalso. apply assigned_In in Hin.
      assert (IL : forall gs inp k e, In e (input_log k gs inp) -> exists it a, In it inp /\ In a (input_attrs it) /\ snd e = aa_value a).
      { induction gs as [|g gs IH]; intros [|it inp] k e He; try destruct He. cbn [input_log] in He. apply in_app_iff in He. destruct He as [He|He].
        - apply in_map_iff in He. destruct He as (a & <- & Ha). exists it, a. cbn. auto.
        - destruct (IH _ _ _ He) as (it' & a & A & B & C). exists it', a. cbn. auto. }
      destruct (IL _ _ _ _ Hin) as (it & a & A & B & C). specialize (HNo it a A B). cbn [snd] in C. rewrite <- C, downcast_same in HNo. discriminate.
  - intros t. unfold ranges_of, creation_log. rewrite assigned_app, map_app. eapply Nat.le_trans; [apply firsts_app_length|]. apply Nat.add_le_mono.
    + assert (L : length (concat (map (map fst) groups)) = length (ll_tokens l)) by (rewrite ET, layout_by_length, <- concat_map, map_length; reflexivity).
      assert (K : forall r, In r (map fst (assigned t (tokens_log 0 (concat (map (map fst) groups))))) -> fst r = snd r /\ fst r < length (ll_tokens l) /\ (t = TTextTag \/ t = TChar)).
      { intros r Hr. apply in_map_iff in Hr. destruct Hr as ([rg v] & <- & Hin). apply assigned_In in Hin. destruct (TL _ _ _ Hin) as (A & B & C). cbn in *. split; [exact A|]. split; [lia|]. eapply C. reflexivity. }
      assert (B : length (firsts (map fst (assigned t (tokens_log 0 (concat (map (map fst) groups)))))) <= length (ll_tokens l)).
      { apply starts_length; [apply firsts_NoDup| |].
        - intros r Hr. rewrite firsts_In in Hr. now destruct (K r Hr) as (_ & ? & _).
        - intros [a b] [a' b'] Ha Hb E. rewrite firsts_In in Ha, Hb. destruct (K _ Ha) as (K1 & _). destruct (K _ Hb) as (K2 & _). cbn in *. congruence. }
      destruct (ty_eq_dec t TTextTag); [exact B|]. destruct (ty_eq_dec t TChar); [exact B|].
      destruct (assigned t (tokens_log 0 (concat (map (map fst) groups)))) as [|x xs]; [cbn; lia|]. destruct (K (fst x)) as (_ & _ & [C|C]); [now left|contradiction|contradiction].
    + assert (KI : forall gs inp k, length (firsts (map fst (assigned t (input_log k gs inp)))) <= length inp).
      { induction gs as [|g gs IH]; intros [|it inp] k; cbn [input_log]; try (cbn; lia). rewrite assigned_app, map_app. eapply Nat.le_trans; [apply firsts_app_length|].
        specialize (IH inp (k + length g)). cbn [length].
        assert (length (firsts (map fst (assigned t (map (fun a => ((k, k + length g - 1), aa_value a)) (input_attrs it))))) <= 1); [|lia].
        set (r0 := (k, k + length g - 1)). change 1 with (length [r0]). apply NoDup_incl_length; [apply firsts_NoDup|].
        intros r Hr. rewrite firsts_In in Hr. apply in_map_iff in Hr. destruct Hr as ([rg v] & <- & Hin). apply assigned_In in Hin. apply in_map_iff in Hin. destruct Hin as (a & E & _). injection E as <- _. now left. }
      apply KI.
Qed.

(** C97: a new line answers with at most one row per token for tags and characters, and one per input otherwise. *)
Lemma thm_C97_created :
  forall tg sz input l t,
    Forall wf_input input -> create_line_from_input_tokens tg input sz = Ok l ->
    exists q, query l t = Ok q
      /\ (t <> TTextTag -> t <> TChar -> length q <= length input) /\ length q <= length (ll_tokens l) + length input.
Proof.
  intros tg sz input l t HW HC. destruct (created_log tg sz input l HW HC) as (lg & H & HO & _ & HB).
  exists (query_spec (ll_tokens l) t lg). split; [apply thm_C10_query_exact; auto using ordered_ranges|]. unfold query_spec. rewrite map_length. specialize (HB t).
  destruct (ty_eq_dec t TTextTag); [split; [contradiction|exact HB]|]. destruct (ty_eq_dec t TChar); [split; [contradiction|exact HB]|]. cbn [Nat.add] in HB. split; [intros _ _; exact HB|eapply Nat.le_trans; [exact HB|apply Nat.le_add_l]].
Qed.

(** C97: every step of a pipeline adds at most as many rows as there are tokens. *)
Lemma thm_C97_pipelines :
  forall tg sz input l steps l' t,
    Forall wf_input input -> none_of TKeyword input -> none_of TTextTag input ->
    create_line_from_input_tokens tg input sz = Ok l -> after_steps l steps l' ->
    exists q q', query l t = Ok q /\ query l' t = Ok q'
      /\ length q' <= length q + times_written t steps * length (ll_tokens l).
Proof.
  intros tg sz input l steps l' t HW NK NT HC HS.
  destruct (created_log tg sz input l HW HC) as (lg & H & HO & HK & _). pose proof (HK _ NK) as K1. pose proof (HK _ NT) as K2.
  clear HC HW NK NT HK. exists (query_spec (ll_tokens l) t lg).
  assert (QL : forall m lg1, History m lg1 -> ordered lg1 -> query m t = Ok (query_spec (ll_tokens m) t lg1)) by (intros; apply thm_C10_query_exact; auto using ordered_ranges).
  revert lg H K1 K2 HO. induction HS as [m|id s ss m m' m'' HR HS IH]; intros lg H K1 K2 HO.
  - exists (query_spec (ll_tokens m) t lg). split; [now apply QL|]. split; [now apply QL|]. lia.
  - destruct (step_bounded id s m lg m' H HO K1 K2 HR) as (lg' & H' & HO' & K1' & K2' & ET & HB).
    destruct (IH lg' H' K1' K2' HO') as (q' & Q1 & Q2 & L). exists q'. split; [now apply QL|]. split; [exact Q2|].
    unfold times_written in *. cbn [map count_occ snd]. specialize (HB t).
    assert (A1 : length (query_spec (ll_tokens m) t lg) = length (ranges_of t lg)) by apply map_length.
    assert (A2 : length (query_spec (ll_tokens m') t lg') = length (ranges_of t lg')) by apply map_length.
    rewrite A2 in L. rewrite A1. rewrite ET in L. revert L HB. generalize (length (ranges_of t lg)) (length (ranges_of t lg')). intros.
    destruct (ty_eq_dec (writes (Lib s)) t); lia.
Qed.

(** ** Amounts and clauses *)

Lemma text_between_length toks s e : length (text_between toks s e) = list_sum (map (fun i => match nth_error toks i with Some tok => length (ltext (token tok)) | None => 0 end) (seq s (S e - s))).
Proof.
  unfold text_between. induction (seq s (S e - s)) as [|i is IH]; [reflexivity|]. cbn [flat_map map]. rewrite app_length, IH.
  destruct (nth_error toks i); [|reflexivity]. rewrite token_str_ltext. reflexivity.
Qed.
Lemma nth_sum (w : LLToken -> nat) toks : list_sum (map (fun i => match nth_error toks i with Some tok => w tok | None => 0 end) (seq 0 (length toks))) = list_sum (map w toks).
Proof.
  induction toks as [|tok toks IH]; [reflexivity|]. cbn [length seq map]. rewrite <- seq_shift, map_map. cbn [nth_error]. unfold list_sum in *. cbn [fold_right]. now rewrite IH.
Qed.

Lemma rows_chars {V} l (rows : list (LRange * str * list V)) : in_order rows ->
  (forall a b text vs, In ((a, b), text, vs) rows -> a <= b < length (ll_tokens l) /\ text = text_between (ll_tokens l) a b) -> reported_chars rows <= line_chars l.
Proof.
  intros HS HB. unfold reported_chars, line_chars. rewrite <- (nth_sum (fun tok => length (ltext (token tok)))).
  eapply Nat.le_trans; [|apply (sorted_sum _ (length (ll_tokens l)) (map (fun x => fst (fst x)) rows)); [now apply (sorted_map (fun x : LRange * str * list V => fst (fst x)) (fun x y => snd x < fst y))|]].
  - rewrite map_map. apply Nat.eq_le_incl. f_equal. apply map_ext_in. intros [[[a b] text] vs] Hx. destruct (HB _ _ _ _ Hx) as [_ ->]. cbn [fst snd]. apply text_between_length.
  - intros r Hr. apply in_map_iff in Hr. destruct Hr as ([[[a b] text] vs] & <- & Hx). cbn. now destruct (HB _ _ _ _ Hx).
Qed.

Lemma count_indexes (p : LLToken -> bool) (xs : list nat) toks : NoDup xs -> (forall i, In i xs -> exists tok, nth_error toks i = Some tok /\ p tok = true) -> length xs <= length (filter p toks).
Proof.
  intros N H. assert (E : length (filter p toks) = list_sum (map (fun i => match nth_error toks i with Some tok => if p tok then 1 else 0 | None => 0 end) (seq 0 (length toks)))).
  { rewrite (nth_sum (fun tok => if p tok then 1 else 0)). clear. induction toks as [|tok toks IH]; [reflexivity|]. cbn [filter map]. unfold list_sum in *. cbn [fold_right]. destruct (p tok); cbn; lia. }
  rewrite E. clear E. eapply Nat.le_trans; [|apply (indexes_sum _ xs _ N)].
  - clear N. induction xs as [|i xs IH]; [cbn; lia|]. destruct (H i (or_introl eq_refl)) as (tok & Hn & Hp). specialize (IH (fun j Hj => H j (or_intror Hj))).
    cbn [map length]. rewrite Hn, Hp. unfold list_sum in *. cbn [fold_right]. lia.
  - intros i Hi. destruct (H i Hi) as (tok & Hn & _). apply in_seq. split; [lia|]. cbn. apply nth_error_Some. congruence.
Qed.

Lemma sorted_nodup (xs : list LRange) : StronglySorted (fun x y => snd x < fst y) xs -> (forall x, In x xs -> fst x <= snd x) -> NoDup (map fst xs).
Proof.
  induction 1 as [|x xs HS IH HF]; intros HB; [constructor|]. cbn [map]. constructor; [|apply IH; intros y Hy; apply HB; now right].
  intros C. apply in_map_iff in C. destruct C as (y & E & Hy). rewrite Forall_forall in HF. specialize (HF y Hy). specialize (HB x (or_introl eq_refl)). unfold LRange in *. lia.
Qed.

(** C97: at most one amount for every number, with no more characters than the line. *)
Lemma thm_C97_amounts :
  forall tg sz input l parse r id l',
    Forall wf_input input -> none_of TTextTag input -> none_of TChar input -> none_of TAmount input ->
    create_line_from_input_tokens tg input sz = Ok l -> no_digit_signs r ->
    run id l (amount_go parse r) = Ok l' ->
    exists rows, query l' TAmount = Ok rows /\ length rows <= number_count (ll_tokens l) /\ reported_chars rows <= line_chars l.
Proof.
  intros tg sz input l parse r id l' HW NT NC NA HC HD HR.
  destruct (thm_C39_created tg sz input l parse r id l' HW NT NC NA HC HD HR) as (rows & Q & HS & HB). exists rows. split; [exact Q|].
  assert (HB' : forall x, In x (map (fun x => fst (fst x)) rows) -> fst x <= snd x /\ number_at (ll_tokens l) (fst x)).
  { intros x Hx. apply in_map_iff in Hx. destruct Hx as ([[[a b] text] vs] & <- & Hx). destruct (HB _ _ _ _ Hx) as (B1 & B2 & _). cbn. split; [lia|exact B2]. }
  split.
  - replace (length rows) with (length (map fst (map (fun x => fst (fst x)) rows))) by now rewrite !map_length.
    apply count_indexes.
    + apply sorted_nodup; [exact (sorted_map (fun x : LRange * str * list Decimal => fst (fst x)) (fun x y => snd x < fst y) rows HS)|].
      intros x Hx. now destruct (HB' x Hx).
    + intros i Hi. apply in_map_iff in Hi. destruct Hi as (x & <- & Hx). destruct (HB' x Hx) as (_ & tok & text & Hn & Et). exists tok. split; [exact Hn|]. now rewrite Et.
  - apply rows_chars; [exact HS|]. intros a b text vs Hx. destruct (HB _ _ _ _ Hx) as (B1 & _ & _ & B2 & _). auto.
Qed.

(** C97: at most one clause for every two tokens, with no more characters than the line. *)
Lemma thm_C97_clauses :
  forall tg sz input l r id id',
    Forall wf_input input -> none_of TKeyword input -> none_of TTextTag input -> none_of TClause input ->
    create_line_from_input_tokens tg input sz = Ok l ->
    exists rows, clauses_reported id id' r l rows /\ 2 * length rows <= length (ll_tokens l) + 1 /\ reported_chars rows <= line_chars l.
Proof.
  intros tg sz input l r id id' HW NK NT NC HC.
  destruct (thm_C52_created_single tg sz input l HW NK NT HC) as (lg & H & K1 & K2).
  destruct (step_ok id (RunClauseKeyword r) l lg I H K1 K2) as (l1 & lg1 & R1 & _ & H1 & K3 & K4).
  destruct (step_ok id' RunClause l1 lg1 I H1 K3 K4) as (l2 & lg2 & R2 & _). cbn [run_step] in R1, R2.
  destruct (thm_C47_created tg sz input l r id id' l1 l2 HW NK NT NC HC R1 R2) as (rows & Q & HS & HB). exists rows.
  split; [now exists l1, l2|].
  assert (UN : forall lo hi lo' hi' k, stretch (ll_tokens l) r lo hi -> stretch (ll_tokens l) r lo' hi' -> lo <= k <= hi -> lo' <= k <= hi' -> lo = lo').
  { assert (K : forall lo hi lo' hi' k, stretch (ll_tokens l) r lo hi -> stretch (ll_tokens l) r lo' hi' -> lo <= k <= hi -> lo' <= k <= hi' -> ~ lo < lo').
    { intros lo hi lo' hi' k (_ & F & _) (_ & _ & [E|E] & _) A B C; [lia|]. apply (F (lo' - 1)); [lia|exact E]. }
    intros lo hi lo' hi' k A B C D. destruct (Nat.lt_trichotomy lo lo') as [L|[L|L]]; [exfalso; eapply (K lo hi lo' hi' k); eauto|exact L|exfalso; eapply (K lo' hi' lo hi k); eauto]. }
  assert (BD : forall x, In x rows -> fst (fst (fst x)) <= snd (fst (fst x)) < length (ll_tokens l)).
  { intros [[[a b] text] vs] Hx. destruct (HB _ _ _ _ Hx) as (B1 & _ & _ & lo & hi & ((S1 & S2) & _) & L1 & L2 & _). cbn. lia. }
  split.
  - destruct rows as [|x0 rows0] eqn:ER; [cbn; lia|]. rewrite <- ER in *. enough (G : 0 + 2 * length (map (fun x => fst (fst x)) rows) <= length (ll_tokens l) + 1) by (rewrite map_length in G; exact G).
    apply (gaps_length (length (ll_tokens l)) (map (fun x => fst (fst x)) rows) 0).
    + apply (sorted_map (fun x : LRange * str * list Clause => fst (fst x)) (fun x y => snd x + 1 < fst y)).
      clear Q R2. revert HB BD. unfold in_order in HS. clear ER. induction HS as [|x rows HS IH HF]; intros HB BD; [constructor|].
      constructor; [apply IH; [intros; apply HB; now right|intros; apply BD; now right]|]. rewrite Forall_forall in *. intros y Hy. specialize (HF y Hy).
      destruct x as [[[a b] text] vs], y as [[[a' b'] text'] vs']. cbn [fst snd] in *.
      destruct (HB a b text vs (or_introl eq_refl)) as (A1 & _ & _ & lo & hi & ST & L1 & L2 & A2 & A3 & A4 & A5).
      destruct (HB a' b' text' vs' (or_intror Hy)) as (B1 & _ & _ & lo' & hi' & ST' & L1' & L2' & B2 & B3 & B4 & B5).
      destruct (Nat.eq_dec a' (b + 1)) as [E|E]; [exfalso|lia].
      assert (TD : tag_at (ll_tokens l) lo SPACE \/ ~ tag_at (ll_tokens l) lo SPACE) by apply tag_at_dec.
      destruct (Nat.eq_dec b hi) as [Eh|Eh].
      * subst b. destruct ST as (S1 & _ & _ & [S2|S2]); [destruct ST' as ((_ & S3) & _); lia|]. destruct ST' as (_ & F & _). apply (F (hi + 1)); [lia|exact S2].
      * assert (Ehi : hi = b + 1) by (destruct (tag_at_dec (ll_tokens l) hi SPACE) as [T|T]; [specialize (A4 T); lia|specialize (A5 T); lia]).
        assert (EL : lo = lo') by (apply (UN lo hi lo' hi' a' ST ST'); lia). subst lo'. destruct TD as [T|T]; [specialize (A2 T); specialize (B2 T); lia|specialize (A3 T); specialize (B3 T); lia].
    + intros y Hy. apply in_map_iff in Hy. destruct Hy as (x & <- & Hx). specialize (BD x Hx). lia.
    + rewrite ER. discriminate.
  - apply rows_chars; [exact HS|]. intros a b text vs Hx. split; [exact (BD _ Hx)|]. now destruct (HB _ _ _ _ Hx) as (_ & ? & _).
Qed.

End Bound.
