(** Printed characters, texts and tokens (C83). *)

From Coq Require Import Strings.String.
From Verif Require Export ThmDebug SpecPrint.

Local Open Scope string_scope.
Local Open Scope list_scope.

(** Hexadecimal numbers. *)
Lemma hex_digit_value n : (n < 16)%N -> hex_value (hex_digit n) = Some n.
Proof.
  intros H. unfold hex_digit, hex_value. unfold char in *. destruct (N.ltb_spec n 10).
  - destruct (N.leb_spec 48 (48 + n)); [|lia]. destruct (N.leb_spec (48 + n) 57); [|lia]. cbn [andb].
    f_equal. lia.
  - destruct (N.leb_spec 48 (87 + n)); [|lia]. destruct (N.leb_spec (87 + n) 57); [lia|]. cbn [andb].
    destruct (N.leb_spec 97 (87 + n)); [|lia]. destruct (N.leb_spec (87 + n) 102); [|lia]. cbn [andb]. f_equal. lia.
Qed.

Lemma hex_upto_spec fuel : forall n, (n < 16 ^ N.of_nat fuel)%N -> fuel <> 0 -> HexNumber (hex_upto fuel n) n.
Proof.
  induction fuel as [|fuel IH]; intros n Hn Hf; [congruence|]. cbn [hex_upto].
  destruct (N.ltb_spec n 16) as [Hlt|Hge]; [apply Hex_one, hex_digit_value; auto|].
  rewrite Nat2N.inj_succ, N.pow_succ_r' in Hn.
  assert (Hq : (n / 16 < 16 ^ N.of_nat fuel)%N) by (apply N.div_lt_upper_bound; lia).
  assert (Hf' : fuel <> 0) by (intros ->; cbn in Hn; lia).
  pose proof (N.div_mod n 16 ltac:(lia)) as Hd. pose proof (N.mod_lt n 16 ltac:(lia)) as Hm.
  rewrite Hd at 3. apply Hex_more; auto. apply hex_digit_value; auto.
Qed.

Lemma hex_size n : (n < 16 ^ N.of_nat (S (N.size_nat n)))%N.
Proof.
  pose proof (size_bound n) as H.
  assert (H2 : (10 ^ N.of_nat (S (N.size_nat n)) <= 16 ^ N.of_nat (S (N.size_nat n)))%N) by (apply N.pow_le_mono_l; lia).
  lia.
Qed.

Lemma hex_chars ds n : HexNumber ds n -> Forall (fun c => c <> 125%N /\ hex_value c <> None) ds /\ ds <> [].
Proof.
  assert (K : forall c v, hex_value c = Some v -> c <> 125%N /\ hex_value c <> None).
  { intros c v H. split; [intros ->; discriminate|congruence]. }
  induction 1 as [c v H|ds n c v H IH Hv].
  - split; [|discriminate]. constructor; eauto.
  - split; [|intros E; apply app_eq_nil in E; destruct E; discriminate].
    apply Forall_app. split; [apply IH|]. constructor; eauto.
Qed.

Lemma hex_unique ds n : HexNumber ds n -> forall m, HexNumber ds m -> n = m.
Proof.
  assert (E1 : forall (a b : str) (c d : char), a ++ [c] = b ++ [d] -> a = b /\ c = d) by (intros; now apply app_inj_tail).
  assert (E0 : forall (a : str) (c d : char), a ++ [c] = [d] -> a = [] /\ c = d).
  { intros a c d H. apply (E1 a [] c d). exact H. }
  induction 1 as [c v H|ds n c v H IH Hv]; intros m Hm; inversion Hm as [c' v' H' E|ds' n' c' v' H' Hv' E]; subst.
  - congruence.
  - apply E0 in E. destruct E as [-> ->]. apply hex_chars in H'. destruct H' as [_ []]. reflexivity.
  - symmetry in E. apply E0 in E. destruct E as [-> ->]. apply hex_chars in H. destruct H as [_ []]. reflexivity.
  - apply E1 in E. destruct E as [-> ->]. rewrite (IH _ H'). congruence.
Qed.

(** Literals are read in one way only. *)
Lemma denotes_head q body c : Denotes q body c -> exists d u, body = d :: u /\ (q <> 92%N -> d <> q).
Proof.
  intros H. destruct H as [c H1 H2 H3 H4 H5|e c H|ds c H].
  - exists c, []. auto.
  - exists 92%N, [e]. split; auto.
  - eexists _, _. split; [reflexivity|]. intros K E. now apply K.
Qed.

Lemma cut_hex (a : str) : forall b u v,
  Forall (fun c => c <> 125%N /\ hex_value c <> None) a -> Forall (fun c => c <> 125%N /\ hex_value c <> None) b ->
  a ++ 125%N :: u = b ++ 125%N :: v -> a = b /\ u = v.
Proof.
  induction a as [|x a IH]; intros [|y b] u v Ha Hb H; cbn [app] in H.
  - injection H as H. auto.
  - injection H as <- _. inversion_clear Hb. tauto.
  - injection H as -> _. inversion_clear Ha. tauto.
  - injection H as <- H. inversion_clear Ha. inversion_clear Hb. destruct (IH b u v) as [-> ->]; auto.
Qed.

Lemma short_not_u e c : In (e, c) short_escapes -> e <> 117%N.
Proof. intros H ->. cbn in H. intuition congruence. Qed.

Lemma short_unique e c d : In (e, c) short_escapes -> In (e, d) short_escapes -> c = d.
Proof.
  cbn. intros H K.
  repeat match goal with H : _ \/ _ |- _ => destruct H as [H|H] | H : False |- _ => destruct H end; congruence.
Qed.

Lemma denotes_cut q b1 b2 c1 c2 r1 r2 :
  Denotes q b1 c1 -> Denotes q b2 c2 -> b1 ++ r1 = b2 ++ r2 -> c1 = c2 /\ r1 = r2.
Proof.
  intros H1 H2. destruct H1 as [c1 A1 A2 A3 A4 A5|e1 c1 A|ds1 c1 A]; destruct H2 as [c2 B1 B2 B3 B4 B5|e2 c2 B|ds2 c2 B]; cbn; intros E;
    try (exfalso; injection E as E1 E2; congruence).
  - injection E as -> ->. auto.
  - injection E as -> ->. split; auto. eapply short_unique; eauto.
  - injection E as -> _. now apply short_not_u in A.
  - injection E as <- _. now apply short_not_u in B.
  - injection E as E. rewrite <- !app_assoc in E. cbn [app] in E.
    apply cut_hex in E; try (eapply hex_chars; eassumption). destruct E as [-> ->]. split; auto. eapply hex_unique; eauto.
Qed.

Lemma thm_C83_literal_once :
  forall quote t1 t2 cs1 cs2 r1 r2, quote <> 92%N ->
    Literal quote t1 cs1 -> Literal quote t2 cs2 -> t1 ++ r1 = t2 ++ r2 -> cs1 = cs2 /\ r1 = r2.
Proof.
  intros q t1 t2 cs1 cs2 r1 r2 Hq (bs1 & F1 & ->) (bs2 & F2 & ->) H.
  cbn [app] in H. injection H as H. rewrite <- !app_assoc in H. cbn [app] in H.
  revert bs2 cs2 F2 H. induction F1 as [|b1 c1 bs1 cs1 D1 F1 IH]; intros bs2 cs2 F2 H.
  - destruct F2 as [|b2 c2 bs2 cs2 D2 F2].
    + cbn in H. injection H as ->. auto.
    + exfalso. destruct (denotes_head _ _ _ D2) as (d & u & -> & Hd). cbn in H. injection H as H _. now apply Hd.
  - destruct F2 as [|b2 c2 bs2 cs2 D2 F2].
    + exfalso. destruct (denotes_head _ _ _ D1) as (d & u & -> & Hd). cbn in H. injection H as H _. now apply Hd.
    + cbn [concat] in H. rewrite <- !app_assoc in H. destruct (denotes_cut _ _ _ _ _ _ _ D1 D2 H) as [-> H'].
      destruct (IH _ _ F2 H') as [-> ->]. auto.
Qed.

(** What is printed is such a literal. *)
Lemma escape_denotes tb quote single double c :
  (quote = 39%N /\ single = true \/ quote = 34%N /\ double = true) ->
  Denotes quote (escape_debug tb single double c) c.
Proof.
  intros HQ. unfold escape_debug.
  assert (HU : Denotes quote (escape_unicode c) c).
  { apply (Den_unicode quote). apply hex_upto_spec; [apply hex_size|discriminate]. }
  repeat match goal with
  | |- context [(c =? ?k)%N] => let E := fresh "E" in destruct (N.eqb_spec c k) as [E|E]; [subst c|]
  end; cbn [andb];
  repeat match goal with
  | |- context [if ?b then _ else _] => destruct b eqn:?
  end; cbn [andb] in *;
  try (exfalso; cbn in *; discriminate);
  try (apply Den_short; cbn; tauto); try exact HU; try (apply Den_itself; try discriminate; try congruence; destruct HQ as [[HQ1 HQ2]|[HQ1 HQ2]]; congruence).
Qed.

Lemma thm_C83_literals :
  (forall tb c, Literal 39%N (dbg_char tb c) [c]) /\ (forall tb s, Literal 34%N (dbg_str tb s) s).
Proof.
  split.
  - intros tb c. exists [escape_debug tb true false c]. split; [|cbn; now rewrite app_nil_r].
    constructor; auto. apply escape_denotes. auto.
  - intros tb s. exists (map (escape_debug tb false true) s). split; [|unfold dbg_str; now rewrite flat_map_concat_map].
    induction s; constructor; auto. apply escape_denotes. auto.
Qed.

(** Which characters are printed as they are, and the form of the others. *)
Lemma hex_value_zero n : (n < 16)%N -> hex_digit n = 48%N -> n = 0%N.
Proof. intros H E. pose proof (hex_digit_value n H) as K. rewrite E in K. cbn in K. congruence. Qed.

Lemma hex_upto_zero fuel : forall n rest, (n < 16 ^ N.of_nat fuel)%N -> hex_upto fuel n = 48%N :: rest -> rest = [].
Proof.
  induction fuel as [|fuel IH]; intros n rest Hn H; cbn [hex_upto] in H; [discriminate|].
  destruct (N.ltb_spec n 16) as [Hlt|Hge]; [now injection H as _ <-|].
  rewrite Nat2N.inj_succ, N.pow_succ_r' in Hn.
  assert (Hq : (n / 16 < 16 ^ N.of_nat fuel)%N) by (apply N.div_lt_upper_bound; lia).
  assert (Hf' : fuel <> 0) by (intros ->; cbn in Hn; lia).
  pose proof (hex_upto_spec fuel _ Hq Hf') as HN.
  assert (H1 : (1 <= n / 16)%N) by (apply N.div_le_lower_bound; lia).
  destruct (hex_upto fuel (n / 16)) as [|c ds] eqn:E1; [apply hex_chars in HN; tauto|].
  cbn [app] in H. injection H as -> H. specialize (IH _ _ Hq E1). subst ds.
  pose proof (hex_unique _ _ HN 0%N (Hex_one 48%N 0%N eq_refl)) as E. lia.
Qed.

Lemma escape_printed tb quote single double c :
  (quote = 39%N /\ single = true /\ double = false \/ quote = 34%N /\ single = false /\ double = true) ->
  printed_as tb quote c (escape_debug tb single double c).
Proof.
  intros HQ. unfold printed_as. set (short := In c [9; 10; 13; 92]%N \/ _). set (shown := printable tb c = true /\ _).
  assert (HU : exists ds, escape_unicode c = literal "\u{" ++ ds ++ literal "}"
                /\ HexNumber ds c /\ forall rest, ds = 48%N :: rest -> rest = []).
  { exists (hex_upto (S (N.size_nat c)) c). split; [reflexivity|]. split.
    - apply hex_upto_spec; [apply hex_size|discriminate].
    - intros rest. apply hex_upto_zero, hex_size. }
  assert (H0 : forall e, In (e, c) short_escapes -> exists e', In (e', c) short_escapes /\ [92%N; e] = [92%N; e']) by (intros e He; exists e; auto).
  assert (DS : short \/ ~ short).
  { unfold short. destruct (in_dec N.eq_dec c [9; 10; 13; 92]%N); [auto|]. destruct (N.eq_dec c quote); [auto|].
    destruct (N.eq_dec c 0), (short_nul tb); auto; right; intuition congruence. }
  assert (DW : shown \/ ~ shown) by (unfold shown; destruct (printable tb c), (grapheme_extended tb c); intuition congruence).
  destruct DS as [DS|DS]; [|destruct DW as [DW|DW]].
  - left. split; auto. unfold escape_debug.
    destruct DS as [DS|[DS|[-> ->]]]; [| |apply H0; cbn; tauto].
    + cbn in DS. destruct DS as [<-|[<-|[<-|[<-|[]]]]]; apply H0; cbn; tauto.
    + destruct HQ as [(E & -> & ->)|(E & -> & ->)]; rewrite E in DS; subst c; apply H0; cbn; tauto.
  - right; left. split; auto. split; auto. destruct DW as [H1 H2]. unfold escape_debug. rewrite H1, H2.
    repeat match goal with
    | |- context [(c =? ?k)%N] => let E := fresh "E" in destruct (N.eqb_spec c k) as [E|E]
    end; cbn [andb];
    repeat match goal with
    | |- context [if ?b then _ else _] => destruct b eqn:?
    end; try reflexivity; exfalso; apply DS; unfold short;
    destruct HQ as [(E' & E'' & E''')|(E' & E'' & E''')]; try congruence; subst; cbn; tauto.
  - right; right. split; auto. split; auto.
    assert (HE : escape_debug tb single double c = escape_unicode c); [|rewrite HE; exact HU].
    unfold escape_debug.
    repeat match goal with
    | |- context [(c =? ?k)%N] => let E := fresh "E" in destruct (N.eqb_spec c k) as [E|E]
    end; cbn [andb];
    repeat match goal with
    | |- context [if ?b then _ else _] => destruct b eqn:?
    end; try reflexivity; exfalso;
    first [congruence|apply DW; split; reflexivity
          |apply DS; unfold short; destruct HQ as [(E' & E'' & E''')|(E' & E'' & E''')]; try congruence; subst; cbn; tauto].
Qed.

Lemma thm_C83_escapes :
  forall tb,
    (forall c, exists body, printed_as tb 39%N c body /\ dbg_char tb c = [39%N] ++ body ++ [39%N])
    /\ (forall s, exists bodies, Forall2 (printed_as tb 34%N) s bodies /\ dbg_str tb s = [34%N] ++ concat bodies ++ [34%N]).
Proof.
  intros tb. split.
  - intros c. exists (escape_debug tb true false c). split; [|reflexivity]. apply escape_printed. auto.
  - intros s. exists (map (escape_debug tb false true) s). split; [|unfold dbg_str; now rewrite flat_map_concat_map].
    induction s; constructor; auto. apply escape_printed. auto.
Qed.

(** Characters, texts and tokens can be told apart, also in a row. *)
Lemma dbg_str_cut tb : self_delimiting (dbg_str tb).
Proof.
  intros x y r1 r2 H. pose proof (proj2 thm_C83_literals tb) as L.
  exact (thm_C83_literal_once 34%N _ _ _ _ _ _ ltac:(discriminate) (L x) (L y) H).
Qed.

Lemma dbg_char_cut tb : self_delimiting (dbg_char tb).
Proof.
  intros x y r1 r2 H. pose proof (proj1 thm_C83_literals tb) as L.
  destruct (thm_C83_literal_once 39%N _ _ _ _ _ _ ltac:(discriminate) (L x) (L y) H) as [E ->].
  injection E as ->. auto.
Qed.

Lemma dbg_tag_cut : forall a b r1 r2, dbg_text_tag a ++ lit ")" ++ r1 = dbg_text_tag b ++ lit ")" ++ r2 -> a = b /\ r1 = r2.
Proof. intros a b r1 r2. destruct a, b; cbn; intros H; try discriminate; injection H as ->; auto. Qed.

Lemma dbg_ltoken_cut tb : self_delimiting (dbg_ltoken tb).
Proof.
  intros [s1 t1|] [s2 t2|] r1 r2 H; unfold dbg_ltoken in H; try (cbn in H; discriminate).
  - rewrite <- !app_assoc in H. apply app_inv_head in H. apply dbg_str_cut in H. destruct H as [-> H].
    apply app_inv_head in H. apply dbg_tag_cut in H. destruct H as [-> ->]. auto.
  - apply app_inv_head in H. auto.
Qed.

Lemma dbg_lltoken_cut tb : self_delimiting (dbg_lltoken tb).
Proof.
  intros [i1 s1 e1 t1] [i2 s2 e2 t2] r1 r2 H. unfold dbg_lltoken in H. cbn [token_idx pos_starts_at pos_ends_at token] in H.
  rewrite <- !app_assoc in H. apply app_inv_head in H.
  apply cut_number in H; try nodigit. destruct H as [E1 H]. apply app_inv_head in H.
  apply cut_number in H; try nodigit. destruct H as [-> H]. apply app_inv_head in H.
  apply cut_number in H; try nodigit. destruct H as [-> H]. apply app_inv_head in H.
  apply dbg_ltoken_cut in H. destruct H as [-> H]. apply app_inv_head in H. apply Nat2N.inj in E1. subst. auto.
Qed.

Lemma dbg_slice_cut A (da : A -> str) :
  self_delimiting da -> (forall a u v, da a ++ u <> literal "]" ++ v) -> self_delimiting (dbg_slice da).
Proof.
  intros HA HB. intros x y r1 r2 H. unfold dbg_slice in H. rewrite <- !app_assoc in H. apply app_inv_head in H.
  assert (HI : forall a l, dbg_items da (a :: l) = da a ++ match l with [] => [] | _ => lit ", " ++ dbg_items da l end).
  { intros a [|b l]; cbn; [now rewrite app_nil_r|reflexivity]. }
  revert y H. induction x as [|a x IH]; intros [|b y] H.
  - cbn [dbg_items app] in H. apply app_inv_head in H. auto.
  - exfalso. rewrite HI in H. cbn [dbg_items app] in H. rewrite <- app_assoc in H. symmetry in H. now apply HB in H.
  - exfalso. rewrite HI in H. cbn [dbg_items app] in H. rewrite <- app_assoc in H. now apply HB in H.
  - rewrite !HI, <- !app_assoc in H. apply HA in H. destruct H as [-> H].
    destruct x as [|a' x], y as [|b' y].
    + cbn [app] in H. apply app_inv_head in H. auto.
    + cbn in H. discriminate.
    + cbn in H. discriminate.
    + rewrite <- !app_assoc in H. apply app_inv_head in H. destruct (IH _ H) as [-> ->]. auto.
Qed.

Lemma thm_C83_apart :
  forall tb, self_delimiting (dbg_char tb) /\ self_delimiting (dbg_str tb) /\ self_delimiting (dbg_ltoken tb)
    /\ self_delimiting (dbg_lltoken tb) /\ self_delimiting (dbg_slice (dbg_lltoken tb)).
Proof.
  intros tb. split; [apply dbg_char_cut|]. split; [apply dbg_str_cut|]. split; [apply dbg_ltoken_cut|].
  split; [apply dbg_lltoken_cut|]. apply dbg_slice_cut; [apply dbg_lltoken_cut|]. intros a u v. cbn. discriminate.
Qed.

Lemma thm_C83_layout :
  forall tb,
    (forall text tag, dbg_ltoken tb (LText text tag) = as_tuple "Text" [dbg_str tb text; dbg_text_tag tag])
    /\ dbg_ltoken tb LValue = literal "Value"
    /\ (forall t, dbg_lltoken tb t
         = as_struct "LLToken" [("token_idx", dbg_N (N.of_nat (token_idx t))); ("pos_starts_at", dbg_N (pos_starts_at t));
                                ("pos_ends_at", dbg_N (pos_ends_at t)); ("token", dbg_ltoken tb (token t))])
    /\ (forall ts, dbg_slice (dbg_lltoken tb) ts = literal "[" ++ comma_separated (map (dbg_lltoken tb) ts) ++ literal "]").
Proof.
  intros tb. split; [|split; [|split]].
  - intros text tag. unfold dbg_ltoken, as_tuple. cbn [comma_separated]. rewrite <- !app_assoc. reflexivity.
  - reflexivity.
  - intros t. unfold dbg_lltoken, as_struct. cbn [comma_separated map fst snd]. rewrite <- !app_assoc. reflexivity.
  - intros ts. unfold dbg_slice. do 2 f_equal. induction ts as [|a [|b ts] IH]; try reflexivity.
    change (dbg_items (dbg_lltoken tb) (a :: b :: ts)) with (dbg_lltoken tb a ++ lit ", " ++ dbg_items (dbg_lltoken tb) (b :: ts)).
    rewrite IH. reflexivity.
Qed.

Section ThmPrint.
Context {UC : Unicode} {U : UserTypes}.

(** Displays of any types that can be told apart tell all that the queries tell. *)
Lemma apart_rows incs lg1 lg2 :
  distinguishable incs -> NoDup (map (@projT1 _ _) incs) ->
  rows_of incs lg1 = rows_of incs lg2 ->
  forall x, In x incs -> included (projT1 x) (projT2 x) lg1 = included (projT1 x) (projT2 x) lg2.
Proof.
  induction incs as [|y incs IH]; intros HI HN H x Hx; [destruct Hx|]. cbn [map] in HN.
  inversion_clear HN as [|? ? HA HB]. unfold rows_of in H. cbn [flat_map] in H.
  assert (Hno : forall lg, Forall (fun row : LRange * str => ~ exists v, snd row = projT2 y v) (rows_of incs lg)).
  { intros lg. apply Forall_forall. intros row Hr (v & E). apply in_flat_map in Hr. destruct Hr as (z & Hz & Hr).
    pose proof (included_printed (projT1 z) (projT2 z) lg) as F. rewrite Forall_forall in F.
    destruct (F row Hr) as (w & E'). rewrite E' in E.
    apply HI in E; [|now right|now left].
    apply (f_equal (@projT1 _ _)) in E. cbn [projT1] in E. apply HA. rewrite <- E. now apply in_map. }
  apply (cut_pred (fun row : LRange * str => exists v, snd row = projT2 y v)) in H;
    try apply included_printed; try apply Hno.
  destruct H as [H1 H2]. destruct Hx as [<-|Hx]; auto. apply IH; auto.
  intros a b v w Ha Hb. apply HI; now right.
Qed.

Lemma thm_C83_display :
  forall tg1 tg2 l1 l2 lg1 lg2 incs,
    History l1 lg1 -> History l2 lg2 -> proper lg1 -> proper lg2 ->
    ll_tokens l1 = ll_tokens l2 -> 0 < u_width 32%N ->
    Forall prints_plain incs -> distinguishable incs -> NoDup (map (@projT1 _ _) incs) ->
    (show tg1 l1 incs = show tg2 l2 incs <-> forall x, In x incs -> query l1 (projT1 x) = query l2 (projT1 x)).
Proof.
  intros tg1 tg2 l1 l2 lg1 lg2 incs H1 H2 P1 P2 HT HW HF HI HN. split.
  - intros HS. pose proof (thm_C35_display tg1 l1 lg1 incs H1 P1) as S1.
    assert (S2 := S1). rewrite HS in S2.
    pose proof (thm_C69_read _ _ _ _ _ _ _ _ _ H1 H2 P1 P2 HT HW HF HF S1 S2) as HR.
    intros x Hx. pose proof (apart_rows incs lg1 lg2 HI HN HR x Hx) as HX.
    apply included_inj in HX.
    + destruct HX as [HA HB]. rewrite (query_proper l1 lg1), (query_proper l2 lg2) by auto.
      unfold query_spec. rewrite HT, HA. f_equal. apply map_ext. intros r. now rewrite HB.
    + intros v w E. apply (HI x x) in E; auto. now apply inj_den in E.
  - intros HQ. rewrite (thm_C35_display tg1 l1 lg1), (thm_C35_display tg2 l2 lg2) by auto. rewrite HT. do 2 f_equal.
    f_equal. rewrite !flat_map_concat_map. f_equal. apply map_ext_in. intros x Hx. specialize (HQ x Hx).
    rewrite (query_proper l1 lg1), (query_proper l2 lg2), HT in HQ by auto. injection HQ as HQ.
    apply query_spec_inj in HQ. destruct HQ as [HA HB]. unfold included. rewrite <- HA.
    rewrite !flat_map_concat_map. f_equal. apply map_ext_in. intros r Hr. now rewrite (HB r Hr).
Qed.

(** The library's types and characters are such types. *)
Lemma denotes_no_newline q body c : Denotes q body c -> ~ In 10%N body.
Proof.
  intros H. destruct H as [c H1 H2 H3 H4 H5|e c H|ds c H].
  - intros [E|[]]. congruence.
  - intros [E|[E|[]]]; [discriminate|]. subst e. cbn in H. intuition congruence.
  - rewrite !in_app_iff. intros [E|[E|E]]; [cbn in E; intuition discriminate| |cbn in E; intuition discriminate].
    apply hex_chars in H. destruct H as [F _]. rewrite Forall_forall in F. apply F in E. destruct E as [_ E]. now apply E.
Qed.

Lemma thm_C83_types :
  forall tb, Forall prints_plain (char_type tb :: library_types)
    /\ distinguishable (char_type tb :: library_types)
    /\ NoDup (map (@projT1 _ _) (char_type tb :: library_types)).
Proof.
  intros tb. split; [|split].
  - constructor; [|apply thm_C70_plain]. intros c. cbn [char_type projT1 projT2 den] in *. split.
    + unfold dbg_char. rewrite !in_app_iff. intros [E|[E|E]]; [cbn in E; intuition discriminate| |cbn in E; intuition discriminate].
      revert E. apply (denotes_no_newline 39%N _ c). apply escape_denotes. auto.
    + intros d r E. unfold dbg_char in E. cbn [app] in E. injection E as <- _. split; discriminate.
  - intros x y v w Hx Hy E.
    assert (HL : forall z (u : den (projT1 z)) c, In z library_types -> projT2 z u = dbg_char tb c -> False).
    { intros z u c Hz K. unfold dbg_char in K. cbn in Hz.
      destruct Hz as [<-|[<-|[<-|[<-|[]]]]]; cbn [projT1 projT2 den] in *; try (destruct u; cbn in K; discriminate). }
    destruct Hx as [<-|Hx], Hy as [<-|Hy].
    + cbn [char_type projT1 projT2] in *. pose proof (dbg_char_cut tb v w [] []) as K. rewrite !app_nil_r in K.
      destruct (K E) as [-> _]. reflexivity.
    + exfalso. exact (HL y w v Hy (eq_sym E)).
    + exfalso. exact (HL x v w Hx E).
    + apply thm_C70_apart; auto.
  - cbn. repeat constructor; cbn; intuition discriminate.
Qed.

(** The printed tokens of a line tell the text it was made from. *)
Lemma thm_C83_source :
  forall (SL : SegmenterLaws) tb tg1 tg2 s1 s2 l1 l2,
    create_line_from_string tg1 s1 = Ok l1 -> create_line_from_string tg2 s2 = Ok l2 ->
    dbg_slice (dbg_lltoken tb) (ll_tokens l1) = dbg_slice (dbg_lltoken tb) (ll_tokens l2) -> s1 = s2.
Proof.
  intros SL tb tg1 tg2 s1 s2 l1 l2 H1 H2 H.
  destruct (thm_C83_apart tb) as (_ & _ & _ & _ & HS). specialize (HS (ll_tokens l1) (ll_tokens l2) [] []).
  rewrite !app_nil_r in HS. destruct (HS H) as [HT _].
  assert (K : forall tg s l, create_line_from_string tg s = Ok l -> concat (map ltext (map token (ll_tokens l))) = s).
  { intros tg s l HC. destruct (thm_C01_no_text_lost SL tg str_len [InText s []] l) as (gs & E & F); auto.
    - repeat constructor.
    - inversion F as [|? g ? gs' Hg F' E1 E2]. subst. inversion F'. subst. rewrite E. cbn [concat]. rewrite app_nil_r. apply Hg. }
  rewrite <- (K _ _ _ H1), <- (K _ _ _ H2), HT. reflexivity.
Qed.

End ThmPrint.
