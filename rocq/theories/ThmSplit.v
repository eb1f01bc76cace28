(** C27 in general: what split_by returns when matches overlap in any way. *)

From Verif Require Export SpecSlice ThmSel.
From Coq Require Import Sorted.

Section ThmSplit.
Context {UC : Unicode} {U : UserTypes}.

Lemma last_reaches_cons {A} (x : LLSelection * A) found k :
  last_reaches (x :: found) k <->
  (covers (fst x) k /\ forall y, In y found -> k < ms_start y) \/ last_reaches found k.
Proof.
  split.
  - intros ([|z b] & y & af & E & H1 & H2); cbn [app] in E; injection E as -> ->; [left; auto|].
    right. exists b, y, af. auto.
  - intros [(H1 & H2)|(b & y & af & -> & H1 & H2)]; [exists [], x, found; auto|]. exists (x :: b), y, af. auto.
Qed.

Definition blocked {A} (from : nat) (found : list (LLSelection * A)) (k : nat) : Prop :=
  (k < from /\ forall y, In y found -> k < ms_start y) \/ last_reaches found k.

Lemma reaches_start {A} (found : list (LLSelection * A)) k : (forall x, In x found -> ms_start x <= ms_end x) ->
  (forall x, In x found -> k <= ms_start x) -> (exists x, In x found /\ ms_start x = k) -> last_reaches found k.
Proof.
  induction found as [|x found IH]; intros H1 H2 (y & Hy & E); [easy|]. apply last_reaches_cons.
  assert (D : (exists z, In z found /\ ms_start z = k) \/ ~ exists z, In z found /\ ms_start z = k).
  { clear. induction found as [|z found IH]; [right; intros (? & [] & _)|]. destruct (Nat.eq_dec (ms_start z) k) as [E|E].
    - left. exists z. split; [now left|exact E].
    - destruct IH as [(w & Hw & Ew)|N]; [left; exists w; split; [now right|exact Ew]|]. right. intros (w & [<-|Hw] & Ew); eauto. }
  destruct D as [D|D].
  - right. apply IH; [intros z Hz; apply H1; now right|intros z Hz; apply H2; now right|exact D].
  - left. destruct Hy as [<-|Hy]; [|exfalso; eauto]. split.
    + specialize (H1 x (or_introl eq_refl)). unfold covers, ms_start, ms_end in *. lia.
    + intros z Hz. specialize (H2 z (or_intror Hz)). destruct (Nat.eq_dec (ms_start z) k); [exfalso; eauto|lia].
Qed.

Lemma gaps_blocked {A} s (found : list (LLSelection * A)) : forall from,
  start_idx s <= end_idx s -> StronglySorted le (map ms_start found) ->
  (forall x, In x found -> ms_start x <= ms_end x /\ covers s (ms_start x)) -> start_idx s <= from ->
  (forall p, In p (gaps s from found) ->
     sel_line p = sel_line s /\ start_idx p <= end_idx p /\ start_idx s <= start_idx p /\ end_idx p <= end_idx s
     /\ (start_idx p = start_idx s \/ blocked from found (start_idx p - 1))
     /\ (end_idx p = end_idx s \/ blocked from found (end_idx p + 1))
     /\ forall k, covers p k -> ~ blocked from found k)
  /\ (forall k, covers s k -> ~ blocked from found k -> exists p, In p (gaps s from found) /\ covers p k)
  /\ StronglySorted (fun p q => end_idx p < start_idx q) (gaps s from found).
Proof.
  induction found as [|x found IH]; intros from Hs HSs Hx Hf; cbn [gaps].
  - assert (HB : forall k, blocked from (@nil (LLSelection * A)) k <-> k < from).
    { intros k. split; [|intros H; left; split; [exact H|easy]]. intros [(H & _)|([|] & ? & ? & E & _)]; [exact H|discriminate E|discriminate E]. }
    destruct (selection_from s from (end_idx s)) as [p|] eqn:E; cbn [opt_list].
    + apply selection_from_spec in E. destruct E as (E1 & E2 & E3 & E4). split; [|split].
      * intros q [<-|[]]. split; [auto|]. split; [auto|]. split; [lia|]. split; [lia|]. split; [|split; [lia|]].
        -- destruct (Nat.eq_dec (start_idx p) (start_idx s)); [now left|]. right. apply HB. lia.
        -- intros k Hk. rewrite HB. unfold covers in Hk. lia.
      * intros k Hk HP. rewrite HB in HP. exists p. split; [now left|]. unfold covers in *. lia.
      * repeat constructor.
    + apply selection_from_none in E. split; [easy|]. split; [|constructor].
      intros k Hk HP. rewrite HB in HP. unfold covers in Hk. lia.
  - destruct (Hx x (or_introl eq_refl)) as [Hx1 Hx2]. cbn [map] in HSs. inversion HSs as [|? ? HSs' HFs]; subst.
    assert (HF : forall y, In y found -> ms_start x <= ms_start y).
    { intros y Hy. rewrite Forall_forall in HFs. apply HFs. now apply in_map. }
    clear HFs. unfold covers in Hx2.
    specialize (IH (S (ms_end x)) Hs HSs' (fun y Hy => Hx y (or_intror Hy)) ltac:(lia)). destruct IH as (IH1 & IH2 & IH3).
    (* from the start of [x] on, both say the same *)
    assert (HE : forall k, ms_start x <= k -> (blocked from (x :: found) k <-> blocked (S (ms_end x)) found k)).
    { intros k Hk. unfold blocked. rewrite last_reaches_cons. split.
      - intros [(_ & H)|[(H1 & H2)|H]]; [specialize (H x (or_introl eq_refl)); lia| |now right].
        left. split; [|exact H2]. unfold covers, ms_end in *. lia.
      - intros [(H1 & H2)|H]; [|now right; right]. right. left. split; [|exact H2]. unfold covers, ms_end, ms_start in *. lia. }
    assert (HL : forall k, k < ms_start x -> (blocked from (x :: found) k <-> k < from)).
    { intros k Hk. split.
      - intros [(H & _)|(b & y & af & E & H & _)]; [exact H|]. exfalso.
        assert (Hy : In y (x :: found)) by (rewrite E; apply in_or_app; right; now left).
        assert (ms_start x <= ms_start y) by (destruct Hy as [<-|Hy]; auto). unfold covers, ms_start in *. lia.
      - intros H. left. split; [exact H|]. intros y [<-|Hy]; [exact Hk|]. specialize (HF y Hy). lia. }
    assert (HB : forall k, k <= ms_start x -> blocked (S (ms_end x)) found k).
    { intros k Hk. destruct (Nat.eq_dec k (ms_start x)) as [->|N].
      - unfold blocked. destruct (in_dec Nat.eq_dec (ms_start x) (map ms_start found)) as [I|I].
        + right. apply reaches_start; [intros y Hy; apply (Hx y (or_intror Hy))|exact HF|]. apply in_map_iff in I. destruct I as (y & E & Hy). eauto.
        + left. split; [lia|]. intros y Hy. specialize (HF y Hy). destruct (Nat.eq_dec (ms_start x) (ms_start y)) as [E|]; [|lia].
          exfalso. apply I. rewrite E. now apply in_map.
      - left. split; [lia|]. intros y Hy. specialize (HF y Hy). lia. }
    assert (HP : forall p, In p (gaps s (S (ms_end x)) found) -> ms_start x < start_idx p).
    { intros p Hp. destruct (IH1 p Hp) as (_ & H2 & _ & _ & _ & _ & H7). destruct (le_lt_dec (start_idx p) (ms_start x)) as [C|]; [|assumption].
      exfalso. apply (H7 (start_idx p)); [unfold covers; lia|]. now apply HB. }
    assert (HT : forall p, In p (gaps s (S (ms_end x)) found) ->
      sel_line p = sel_line s /\ start_idx p <= end_idx p /\ start_idx s <= start_idx p /\ end_idx p <= end_idx s
      /\ (start_idx p = start_idx s \/ blocked from (x :: found) (start_idx p - 1))
      /\ (end_idx p = end_idx s \/ blocked from (x :: found) (end_idx p + 1))
      /\ forall k, covers p k -> ~ blocked from (x :: found) k).
    { intros p Hp. pose proof (HP p Hp). destruct (IH1 p Hp) as (H1 & H2 & H3 & H4 & H5 & H6 & H7).
      split; [exact H1|]. split; [exact H2|]. split; [exact H3|]. split; [exact H4|]. split; [|split].
      - destruct H5 as [H5|H5]; [now left|]. right. apply HE; [lia|exact H5].
      - destruct H6 as [H6|H6]; [now left|]. right. apply HE; [lia|exact H6].
      - intros k Hk. rewrite HE; [auto|]. unfold covers in Hk. lia. }
    destruct (selection_before s from (ms_start x)) as [p|] eqn:E; cbn [opt_list app].
    + apply selection_before_spec in E. destruct E as (E0 & E). apply selection_from_spec in E.
      destruct E as (E1 & E2 & E3 & E4). split; [|split].
      * intros q [<-|Hq]; [|auto]. split; [auto|]. split; [auto|]. split; [lia|]. split; [lia|]. split; [|split].
        -- destruct (Nat.eq_dec (start_idx p) (start_idx s)); [now left|]. right. apply HL; lia.
        -- right. replace (end_idx p + 1) with (ms_start x) by lia. apply HE; [lia|]. apply HB. lia.
        -- intros k Hk. unfold covers in Hk. rewrite HL by lia. lia.
      * intros k Hk HPk. destruct (le_lt_dec (ms_start x) k) as [Hl|Hl].
        -- rewrite HE in HPk by exact Hl. destruct (IH2 k Hk HPk) as (q & Hq1 & Hq2). exists q. split; [now right|exact Hq2].
        -- rewrite HL in HPk by exact Hl. exists p. split; [now left|]. unfold covers in *. lia.
      * constructor; [exact IH3|]. apply Forall_forall. intros q Hq. specialize (HP q Hq). lia.
    + split; [exact HT|]. split; [|exact IH3].
      intros k Hk HPk. destruct (le_lt_dec (ms_start x) k) as [Hl|Hl].
      * rewrite HE in HPk by exact Hl. apply IH2; auto.
      * rewrite HL in HPk by exact Hl. exfalso.
        unfold selection_before, checked_sub in E. destruct (ms_start x) as [|b] eqn:Eb; [lia|].
        simpl in E. apply selection_from_none in E. unfold covers in Hk. lia.
Qed.

(** C27, without any assumption about the matches. *)
Lemma thm_C27_exact :
  forall A s (m : matcher A) found,
    sel_ok s -> bounded m (line_of s) -> find_by s m = Ok found ->
    exists ps, split_by s m = Ok ps /\ maximal_runs s (last_reaches found) ps.
Proof.
  intros A s m found Hs HB H. rewrite (split_by_gaps s m found H).
  destruct (thm_C25_find_by A s m found H) as (HI & HSt & _).
  assert (HX : forall x, In x found -> ms_start x <= ms_end x /\ covers s (ms_start x)).
  { intros [s' a] Hin. pose proof (thm_C26_found_inside_partial A s m found s' a Hs HB H Hin) as (H1 & H2 & _).
    apply HI in Hin. destruct Hin as (_ & Hc & _). unfold ms_start, ms_end. simpl. split; auto. apply H1. }
  assert (HL : start_idx s <= end_idx s) by apply Hs.
  destruct (gaps_blocked s found (start_idx s) HL HSt HX (le_n _)) as (G1 & G2 & G3).
  assert (HN : forall k, start_idx s <= k -> (blocked (start_idx s) found k <-> last_reaches found k)).
  { intros k Hk. split; [intros [(C & _)|C]; [lia|exact C]|now right]. }
  eexists. split; [reflexivity|]. destruct found as [|x found].
  - assert (HE : forall k, ~ last_reaches (@nil (LLSelection * A)) k) by (intros k ([|] & ? & ? & E & _); discriminate E).
    constructor.
    + intros p [<-|[]]. auto.
    + intros. apply HE.
    + intros p [<-|[]]. auto.
    + intros p [<-|[]]. auto.
    + intros k Hk _. exists s. simpl. auto.
    + repeat constructor.
  - constructor.
    + intros p Hp. destruct (G1 p Hp) as (H1 & H2 & H3 & H4 & _). auto.
    + intros p k Hp Hk. destruct (G1 p Hp) as (_ & _ & H3 & _ & _ & _ & H7). rewrite <- HN; [now apply H7|]. unfold covers in Hk. lia.
    + intros p Hp. destruct (G1 p Hp) as (_ & H2 & H3 & H4 & H5 & _).
      destruct (Nat.eq_dec (start_idx p) (start_idx s)) as [|N]; [now left|]. right.
      destruct H5 as [H5|H5]; [easy|]. apply HN; [lia|exact H5].
    + intros p Hp. destruct (G1 p Hp) as (_ & H2 & H3 & H4 & _ & H6 & _).
      destruct H6 as [H6|H6]; [now left|]. right. apply HN; [lia|exact H6].
    + intros k Hk C. apply G2; [exact Hk|]. rewrite HN; [exact C|]. unfold covers in Hk. lia.
    + exact G3.
Qed.

(** No token outside of the matches is lost, whatever the matches. *)
Lemma thm_C27_untouched :
  forall A s (m : matcher A) found ps k,
    sel_ok s -> bounded m (line_of s) -> find_by s m = Ok found -> split_by s m = Ok ps ->
    covers s k -> ~ touched found k ->
    exists p, In p ps /\ covers p k /\ forall p', In p' ps -> covers p' k -> p' = p.
Proof.
  intros A s m found ps k Hs HB HF HS Hk HT. destruct (thm_C27_exact A s m found Hs HB HF) as (ps' & E & R).
  assert (ps' = ps) by congruence. subst ps'. destruct (runs_complete _ _ _ R k Hk) as (p & Hp & Hc).
  { intros (b & [s' a] & af & -> & H1 & _). apply HT. exists s', a. split; [apply in_or_app; right; now left|exact H1]. }
  exists p. split; [exact Hp|]. split; [exact Hc|]. intros p' Hp' Hc'.
  pose proof (runs_ordered _ _ _ R) as HO. clear -HO Hp Hp' Hc Hc'. unfold covers in *. induction HO as [|q ps HO IH HF]; [easy|].
  rewrite Forall_forall in HF. destruct Hp as [<-|Hp], Hp' as [<-|Hp']; auto.
  - specialize (HF p' Hp'). lia.
  - specialize (HF p Hp). lia.
Qed.

End ThmSplit.
