(** C64: currency amounts, from the input to the rows of query. *)

From Verif Require Export SpecCurrency ThmEnd ThmLayer ThmLaws.
From Coq Require Import Permutation Lia.

Section ThmCurrency.
Context {UC : Unicode} {U : UserTypes}.

Lemma reports_pairs {V} (rows : list (LRange * str * list V)) r v : reports rows r v <-> In (r, v) (pairs rows).
Proof.
  unfold reports, pairs. rewrite in_flat_map. split.
  - intros (text & vs & Hin & Hv). exists (r, text, vs). split; [exact Hin|]. cbn. now apply in_map.
  - intros ([[r' text] vs] & Hin & Hx). cbn in Hx. apply in_map_iff in Hx. destruct Hx as (v' & E & Hv). inversion E; subst. eauto.
Qed.

Lemma reports_assigned l lg t q r v : History l lg -> query l t = Ok q -> (reports q r v <-> In (r, v) (assigned t lg)).
Proof.
  intros H HQ. rewrite reports_pairs. pose proof (query_pairs l lg t q (history_repr _ _ H) HQ) as P.
  split; apply Permutation_in; [exact P|now symmetry].
Qed.

Lemma symbols_at {V} (usd euro : V) toks i e v :
  In ((i, e), v) (on_tokens (fun _ text => if str_eqb text [36%N] then [usd] else if str_eqb text [8364%N] then [euro] else []) toks)
  <-> e = i /\ symbol_at usd euro toks i v.
Proof.
  unfold on_tokens, symbol_at, text_at. rewrite in_flat_map. split.
  - intros ([j text] & Hin & Hx). apply text_tokens_In in Hin. destruct Hin as (tok & tag & Hn & Et).
    apply in_map_iff in Hx. destruct Hx as (v' & E & Hv). inversion E; subst. split; [reflexivity|].
    destruct (str_eqb text [36%N]) eqn:E1; [|destruct (str_eqb text [8364%N]) eqn:E2; [|destruct Hv]].
    + apply str_eqb_spec in E1. subst text. destruct Hv as [->|[]]. left. split; [now exists tok, tag|reflexivity].
    + apply str_eqb_spec in E2. subst text. destruct Hv as [->|[]]. right. split; [now exists tok, tag|reflexivity].
  - intros (-> & [((tok & tag & Hn & Et) & ->)|((tok & tag & Hn & Et) & ->)]).
    + exists (i, dollar). split; [apply text_tokens_In; eauto|]. cbn. now left.
    + exists (i, euro_sign). split; [apply text_tokens_In; eauto|]. cbn. now left.
Qed.

Lemma NoDup_app_disj {A} (xs ys : list A) : NoDup (xs ++ ys) -> forall x, In x xs -> In x ys -> False.
Proof.
  induction xs as [|a xs IH]; cbn [app]; intros ND x Hx Hy; [destruct Hx|]. inversion ND as [|? ? N1 N2]; subst.
  destruct Hx as [->|Hx]; [|eauto]. apply N1, in_or_app. now right.
Qed.

Lemma rows_of_query l lg t q s e text vs : History l lg -> query l t = Ok q -> In ((s, e), text, vs) q ->
  (exists v, In ((s, e), v) (assigned t lg)) /\ s < length (ll_tokens l) /\ e < length (ll_tokens l).
Proof.
  intros H HQ Hin. pose proof (history_repr _ _ H) as R. rewrite (query_rows l lg t R) in HQ. apply mapM_Forall2 in HQ.
  assert (HR : In (s, e) (ranges_of t lg)).
  { clear -HQ Hin. induction HQ as [|r row rs q Hr HQ IH]; [destruct Hin|]. destruct Hin as [->|Hin]; [|right; auto].
    unfold row_at in Hr. inv_bind Hr. inversion Hr; subst. now left. }
  pose proof (repr_range_in l lg t _ R HR). apply ranges_of_In in HR. destruct HR as (v & Hv).
  split; [exists v; now apply assigned_In|]. assumption.
Qed.

(** C64: what the three resolvers of src/tests/currency_amount.rs report on a new line. *)
Lemma thm_C64_currency :
  forall tS tC (usd euro : den tS) (f : den tS * Decimal -> den tC) tg sz input l parse r id1 id2 id3 l1 l2,
    Forall wf_input input -> Forall is_text input -> NoDup [TChar; TTextTag; TAmount; tS; tC] ->
    (forall t, In t [TChar; TTextTag; TAmount; tS; tC] -> none_of t input) ->
    create_line_from_input_tokens tg input sz = Ok l ->
    run id1 l (currency_symbol_resolver tS usd euro) = Ok l1 ->
    run id2 l1 (amount_go parse r) = Ok l2 ->
    exists l3 la arows crows,
      run id3 l2 (currency_amount_resolver tS TAmount tC f) = Ok l3
      /\ ll_tokens l3 = ll_tokens l
      /\ query l3 tS = Ok (rows_by (ll_tokens l) (fun text _ =>
            if str_eqb text dollar then [usd] else if str_eqb text euro_sign then [euro] else []))
      /\ run id2 l (amount_go parse r) = Ok la /\ query la TAmount = Ok arows /\ query l3 TAmount = Ok arows
      /\ query l3 tC = Ok crows
      /\ (forall s e text cs, In ((s, e), text, cs) crows -> s <= e < length (ll_tokens l) /\ text = text_between (ll_tokens l) s e)
      /\ forall s e c, reports crows (s, e) c <-> exists v a, c = f (v, a) /\ priced usd euro (ll_tokens l) arows (s, e) v a.
Proof.
  intros tS tC usd euro f tg sz input l parse r id1 id2 id3 l1 l2 HW HI ND HN HC R1 R2.
  pose proof (created_text_only tg sz input l HW HI HC) as HX.
  destruct (created_fresh tg sz input l HW HC) as (lg & H & HP & HF).
  assert (PC : plain TChar l lg) by (apply HP, HN; now left).
  assert (DT : forall a b, In a [TChar; TTextTag; TAmount] -> In b [tS; tC] -> a <> b).
  { intros a b Ha Hb E. subst b. apply (NoDup_app_disj [TChar; TTextTag; TAmount] [tS; tC] ND a Ha Hb). }
  assert (DC : tC <> tS) by (intros E; inversion ND as [|? ? _ N1]; inversion N1 as [|? ? _ N2]; inversion N2 as [|? ? _ N3]; inversion N3 as [|? ? N4 _]; subst; apply N4; now left).
  destruct (thm_C57_symbols tS usd euro id1 l lg H HX PC) as (l1' & E1 & T1 & H1). assert (l1' = l1) by congruence. subst l1'.
  set (syms := on_tokens _ (ll_tokens l)) in H1. set (lg1 := lg ++ map _ syms) in H1.
  destruct (step_same (Lib (RunAmount parse r)) id2 l1 lg1 l2 H1 R2) as (out & (H2 & T2) & K).
  destruct (K id2 l lg H) as (la & RA & HA & TA).
  { now apply contents_tokens. }
  { intros t Ht. unfold lg1. rewrite LemStore.assigned_app, (assigned_other t tS), app_nil_r; [reflexivity|].
    cbn [reads] in Ht. apply DT; [cbn; destruct Ht as [<-|[<-|[]]]; auto|now left]. }
  { intros _. apply (attributed_same l1 lg1 l lg H1 H); [now apply contents_tokens| |].
    - intros i Hi. unfold lg1. apply attributed_app. eapply text_attributed; eauto. congruence.
    - intros i Hi. eapply text_attributed; eauto. }
  change (run_any id2 l (Lib (RunAmount parse r))) with (run id2 l (amount_go parse r)) in RA.
  destruct (thm_C39_ordered parse r id2 l lg la H RA) as (out' & _ & (la' & EA' & TA' & HA') & HS & HB).
  assert (la' = la) by congruence. subst la'.
  assert (HO : forall rg v, In (rg, v) out' -> fst rg <= snd rg).
  { intros [s e] v Hin. apply HB in Hin. simpl. lia. }
  assert (FA : assigned TAmount lg = []) by (apply HF; [discriminate|discriminate|apply HN; cbn; auto]).
  pose proof (fresh_query (t := TAmount) la lg out' HA' FA (sorted_NoDup _ HS HO) HO) as QA.
  match type of QA with _ = Ok ?x => set (arows := x) in QA end.
  destruct (thm_C57_currency tS TAmount tC f id3 l2 (lg1 ++ entries out) H2) as (outC & (l3 & R3 & T3 & H3) & HOC).
  set (lg3 := (lg1 ++ entries out) ++ _) in H3.
  assert (FS : assigned tS lg = []).
  { apply HF; [apply not_eq_sym, DT; cbn; auto|apply not_eq_sym, DT; cbn; auto|apply HN; cbn; auto 6]. }
  assert (FC : assigned tC lg = []).
  { apply HF; [apply not_eq_sym, DT; cbn; auto|apply not_eq_sym, DT; cbn; auto|apply HN; cbn; auto 6]. }
  assert (NSA : tS <> TAmount) by (apply not_eq_sym, DT; cbn; auto).
  assert (NCA : tC <> TAmount) by (apply not_eq_sym, DT; cbn; auto).
  assert (AS2 : assigned tS (lg1 ++ entries out) = syms).
  { unfold lg1, entries. cbn [writes]. rewrite !LemStore.assigned_app, FS, assigned_same, (assigned_other tS TAmount), app_nil_r by auto. reflexivity. }
  assert (AA1 : assigned TAmount lg1 = []).
  { unfold lg1. rewrite LemStore.assigned_app, FA, (assigned_other TAmount tS) by auto. reflexivity. }
  assert (AC3 : assigned tC lg3 = outC).
  { unfold lg3, lg1, entries. cbn [writes]. rewrite !LemStore.assigned_app, FC, assigned_same, (assigned_other tC TAmount), (assigned_other tC tS) by auto. reflexivity. }
  assert (AS3 : assigned tS lg3 = syms).
  { unfold lg3. rewrite LemStore.assigned_app, AS2, (assigned_other tS tC), app_nil_r by auto. reflexivity. }
  assert (AA3 : assigned TAmount lg3 = assigned TAmount (lg1 ++ entries out)).
  { unfold lg3. rewrite LemStore.assigned_app, (assigned_other TAmount tC), app_nil_r by auto. reflexivity. }
  assert (TL : ll_tokens l3 = ll_tokens l) by congruence.
  assert (QA3 : query l3 TAmount = Ok arows).
  { rewrite <- QA. apply (query_ext l3 lg3 la (lg ++ entries out)); [now apply history_repr|now apply history_repr|congruence|].
    rewrite AA3, !LemStore.assigned_app, AA1, FA. reflexivity. }
  assert (RA3 : forall rg v, In (rg, v) (assigned TAmount (lg1 ++ entries out)) <-> reports arows rg v).
  { intros rg v. rewrite <- AA3. symmetry. now apply (reports_assigned l3 lg3). }
  assert (OA : forall s e v, reports arows (s, e) v -> s <= e < length (ll_tokens l)).
  { intros s e v (text & vs & Hin & _). unfold arows in Hin. apply in_map_iff in Hin. destruct Hin as ([rg v'] & E & Hin). injection E as -> _ _.
    apply (HB _ _ _ Hin). }
  assert (OC : forall s e c, In ((s, e), c) outC <-> exists v a, c = f (v, a) /\ priced usd euro (ll_tokens l) arows (s, e) v a).
  { intros s e c. rewrite HOC, AS2. unfold priced. cbn [fst snd]. split.
    - intros ([i j] & v & [b d] & a & Hs & Ha & -> & HD). unfold syms in Hs. apply symbols_at in Hs. destruct Hs as (-> & Hs). apply RA3 in Ha.
      exists v, a. split; [reflexivity|]. cbn [fst snd] in HD. destruct HD as [(-> & E)|(-> & E)]; injection E as -> ->; [left|right]; eauto.
    - intros (v & a & -> & [(Hs & Ha)|(e' & -> & Ha & Hs)]).
      + exists (s, s), v, (S s, e), a. split; [apply symbols_at; auto|]. split; [now apply RA3|]. split; [reflexivity|]. left. auto.
      + exists (S e', S e'), v, (s, e'), a. split; [apply symbols_at; auto|]. split; [now apply RA3|]. split; [reflexivity|]. right. auto. }
  assert (PB : forall s e c, In ((s, e), c) outC -> s <= e).
  { intros s e c Hin. apply OC in Hin. destruct Hin as (v & a & _ & [(_ & Ha)|(e' & E & Ha & _)]); cbn [fst snd] in *; apply OA in Ha; lia. }
  assert (QC : query l3 tC = Ok (query_spec (ll_tokens l3) tC lg3)).
  { apply thm_C10_query_exact; [exact H3|]. apply Forall_forall. intros [s e] Hin. unfold ranges_of in Hin. rewrite AC3 in Hin.
    apply (proj1 (firsts_In _ _)) in Hin. apply in_map_iff in Hin. destruct Hin as ([rg c] & E & Hin). cbn [fst] in E. subst rg.
    apply PB in Hin. unfold range_ordered. cbn. lia. }
  exists l3, la, arows, (query_spec (ll_tokens l3) tC lg3).
  split; [exact R3|]. split; [exact TL|]. split; [|split; [exact RA|split; [exact QA|split; [exact QA3|split; [exact QC|split]]]]].
  - transitivity (query l1 tS).
    + apply (query_ext l3 lg3 l1 lg1); [now apply history_repr|now apply history_repr|congruence|].
      rewrite AS3. unfold lg1. rewrite LemStore.assigned_app, FS, assigned_same. reflexivity.
    + rewrite <- T1. apply (fresh_tokens (t := tS) l1 lg _ (fun text _ => if str_eqb text dollar then [usd] else if str_eqb text euro_sign then [euro] else []) ltac:(rewrite T1; exact H1) FS). reflexivity.
  - intros s e text cs Hin. destruct (rows_of_query l3 lg3 tC _ s e text cs H3 QC Hin) as ((c & Hc) & B1 & B2).
    rewrite AC3 in Hc. apply PB in Hc. rewrite TL in B2. split; [lia|]. unfold query_spec in Hin. apply in_map_iff in Hin.
    destruct Hin as (rg & E & _). injection E as -> <- _. cbn. now rewrite TL.
  - intros s e c. rewrite (reports_assigned l3 lg3 tC _ (s, e) c H3 QC), AC3. apply OC.
Qed.

(** C64: a symbol that is not a delimiter or decimal sign, next to a number, makes a currency amount. *)
Lemma thm_C64_next_to_number :
  forall tS tC (usd euro : den tS) (f : den tS * Decimal -> den tC) tg sz input l parse r id1 id2 id3 l1 l2 l3,
    Forall wf_input input -> Forall is_text input -> NoDup [TChar; TTextTag; TAmount; tS; tC] ->
    (forall t, In t [TChar; TTextTag; TAmount; tS; tC] -> none_of t input) ->
    create_line_from_input_tokens tg input sz = Ok l -> no_digit_signs r ->
    ~ In 36%N (signs r) -> ~ In 8364%N (signs r) ->
    run id1 l (currency_symbol_resolver tS usd euro) = Ok l1 ->
    run id2 l1 (amount_go parse r) = Ok l2 ->
    run id3 l2 (currency_amount_resolver tS TAmount tC f) = Ok l3 ->
    exists arows crows, query l3 TAmount = Ok arows /\ query l3 tC = Ok crows
      /\ (forall i v, symbol_at usd euro (ll_tokens l) i v -> number_at (ll_tokens l) (S i) ->
           exists e a, reports arows (S i, e) a /\ reports crows (i, e) (f (v, a)))
      /\ (forall i v, number_at (ll_tokens l) i -> symbol_at usd euro (ll_tokens l) (S i) v ->
           exists s a, reports arows (s, i) a /\ reports crows (s, S i) (f (v, a))).
Proof.
  intros tS tC usd euro f tg sz input l parse r id1 id2 id3 l1 l2 l3 HW HI ND HN HC HD N1 N2 R1 R2 R3.
  destruct (thm_C64_currency tS tC usd euro f tg sz input l parse r id1 id2 id3 l1 l2 HW HI ND HN HC R1 R2)
    as (l3' & la & arows & crows & E3 & _ & _ & RA & QA & QA3 & QC & _ & HR).
  assert (l3' = l3) by congruence. subst l3'. exists arows, crows. split; [exact QA3|]. split; [exact QC|].
  assert (M1 : none_of TTextTag input) by (apply HN; cbn; auto). assert (M2 : none_of TChar input) by (apply HN; cbn; auto).
  assert (M3 : none_of TAmount input) by (apply HN; cbn; auto).
  destruct (thm_C40_created tg sz input l parse r id2 la HW M1 M2 M3 HC HD RA) as (ar & QA' & CV). assert (ar = arows) by congruence. subst ar. clear QA'.
  destruct (thm_C41_created tg sz input l parse r id2 la HW M1 M2 M3 HC HD RA) as (ar & QA' & SP). assert (ar = arows) by congruence. subst ar. clear QA'.
  assert (SY : forall i v, symbol_at usd euro (ll_tokens l) i v -> ~ (number_at (ll_tokens l) i \/ char_at (ll_tokens l) (signs r) i)).
  { assert (SX : forall i c, text_at (ll_tokens l) i [c] -> (c = 36 \/ c = 8364)%N -> ~ (number_at (ll_tokens l) i \/ char_at (ll_tokens l) (signs r) i)).
    { intros i c Ht Hc [Hn|(c' & Ht' & Hc')].
      - destruct Hn as (tok & text & En & Et). destruct Ht as (tok' & tag & En' & Et'). assert (tok' = tok) by congruence. subst tok'.
        destruct (proj1 (thm_C05_natn tg sz input l tok [c] NATN HW HC (nth_error_In _ _ En) ltac:(congruence)) eq_refl) as (_ & FD).
        inversion FD as [|? ? D1 _]; subst. destruct Hc; subst; discriminate D1.
      - pose proof (text_at_fun _ _ _ _ Ht Ht') as E. inversion E; subst c'. destruct Hc; subst; auto. }
    intros i v [(Ht & _)|(Ht & _)]; eapply SX; eauto. }
  split.
  - intros i v Hs Hn. destruct (CV (S i) Hn) as ([[[b e] text] ds] & Hx & Hr & _). cbn [fst snd] in Hr.
    destruct (SP b e text ds Hx) as (HT & d & _ & -> & _).
    assert (b = S i) as ->.
    { destruct (Nat.eq_dec b (S i)) as [|D]; [assumption|exfalso]. apply (SY i v Hs), HT. lia. }
    assert (HRP : reports arows (S i, e) d) by (exists text, [d]; split; [assumption|now left]).
    exists e, d. split; [exact HRP|]. apply HR. exists v, d. split; [reflexivity|]. left. auto.
  - intros i v Hn Hs. destruct (CV i Hn) as ([[[b e] text] ds] & Hx & Hr & _). cbn [fst snd] in Hr.
    destruct (SP b e text ds Hx) as (HT & d & _ & -> & _).
    assert (e = i) as ->.
    { destruct (Nat.eq_dec e i) as [|D]; [assumption|exfalso]. apply (SY (S i) v Hs), HT. lia. }
    assert (HRP : reports arows (b, i) d) by (exists text, [d]; split; [assumption|now left]).
    exists b, d. split; [exact HRP|]. apply HR. exists v, d. split; [reflexivity|]. right. exists i. auto.
Qed.
End ThmCurrency.
