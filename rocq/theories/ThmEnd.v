(** What a user sees after running the library's resolvers on a new line. *)

From Verif Require Export ThmOrder ThmJoin SpecEnd.
From Coq Require Import Lia.

Section ThmEnd.
Context {UC : Unicode} {U : UserTypes}.

(** ** Queries of a type nobody assigned before *)

Lemma fresh_query {t : ty} l' lg (out : list (LRange * den t)) :
  History l' (lg ++ map (fun '(rg, v) => (rg, mkany t v)) out) -> assigned t lg = [] ->
  NoDup (map fst out) -> (forall rg v, In (rg, v) out -> fst rg <= snd rg) ->
  query l' t = Ok (map (fun '(rg, v) => (rg, text_between (ll_tokens l') (fst rg) (snd rg), [v])) out).
Proof.
  intros H E0 ND HO.
  assert (EA : assigned t (lg ++ map (fun '(rg, v) => (rg, mkany t v)) out) = out).
  { rewrite LemStore.assigned_app, E0, assigned_same. reflexivity. }
  rewrite (thm_C10_query_exact l' _ t H).
  - f_equal. unfold query_spec, ranges_of, values_on. rewrite EA, firsts_id by exact ND. rewrite map_map.
    apply map_ext_in. intros [rg v] Hin. cbn [fst]. f_equal.
    clear -ND Hin. induction out as [|[r' v'] out IH]; [easy|]. inversion ND as [|? ? N1 N2]; subst. cbn [filter_map].
    destruct Hin as [E|Hin].
    + inversion E; subst. rewrite range_eqb_refl. f_equal.
      assert (G : forall o, ~ In rg (map fst o) ->
         filter_map (fun '(r', v) => if range_eqb r' rg then Some v else None) o = @nil (den t)).
      { induction o as [|[r' v'] o IHo]; intros N; [reflexivity|]. cbn [filter_map].
        destruct (range_eqb r' rg) eqn:E2; [|apply IHo; intros X; apply N; now right].
        apply range_eqb_spec in E2. subst. exfalso. apply N. now left. }
      now apply G.
    + destruct (range_eqb r' rg) eqn:E2.
      * apply range_eqb_spec in E2. subst. exfalso. apply N1. apply in_map_iff. exists (rg, v). auto.
      * apply IH; auto.
  - unfold ranges_of. rewrite EA, firsts_id by exact ND. apply Forall_map, Forall_forall. intros [rg v] Hin.
    specialize (HO rg v Hin). unfold range_ordered. cbn [fst]. lia.
Qed.

Lemma created_fresh tg sz input l : Forall wf_input input -> create_line_from_input_tokens tg input sz = Ok l ->
  exists lg, History l lg /\ (forall t, none_of t input -> plain t l lg)
    /\ (forall t, t <> TChar -> t <> TTextTag -> none_of t input -> assigned t lg = []).
Proof.
  intros HW HC. destruct (thm_C07_created_plain tg sz input l HW HC) as (lg & H & HP). exists lg. split; [exact H|].
  split; [exact HP|]. intros t N1 N2 HN. pose proof (HP t HN) as P. unfold plain in P. rewrite P. now apply assigned_tokens_none.
Qed.

(** ** The vocabulary of amounts on new lines *)

Lemma number_plain l lg i text : plain TTextTag l lg ->
  (number l lg i text <-> text_at (ll_tokens l) i text /\ number_at (ll_tokens l) i).
Proof.
  intros HP. unfold number, text_at, number_at, tag_at. split.
  - intros (tok & tag & Hn & Et & HT). rewrite (plain_plain_tags l lg HP i tok text tag Hn Et) in HT.
    destruct HT as [->|[]]. split; eauto.
  - intros ((tok & tag & Hn & Et) & (tok' & text' & Hn' & Et')). assert (tok' = tok) by congruence. subst.
    exists tok, tag. split; [assumption|]. split; [assumption|]. rewrite (plain_plain_tags l lg HP i tok text tag Hn Et). left. congruence.
Qed.

Lemma is_number_plain l lg i : plain TTextTag l lg -> (is_number l lg i <-> number_at (ll_tokens l) i).
Proof.
  intros HP. unfold is_number. split.
  - intros (text & Hi). now apply (number_plain l lg i text HP) in Hi.
  - intros Hi. destruct Hi as (tok & text & Hn & Et) eqn:E. exists text. apply number_plain; auto. split; [|now exists tok, text].
    now exists tok, NATN.
Qed.

Lemma has_char_plain l lg cs i : plain TChar l lg -> (has_char lg cs i <-> char_at (ll_tokens l) cs i).
Proof.
  intros HP. unfold has_char, char_at, text_at.
  assert (G : forall c, In c (values_on TChar (i, i) lg) <-> exists tok tag, nth_error (ll_tokens l) i = Some tok /\ token tok = LText [c] tag).
  { intros c. destruct (nth_error (ll_tokens l) i) as [tok|] eqn:En.
    - rewrite (plain_chars l lg i tok HP En). destruct (token tok) as [text tag|] eqn:Et.
      + destruct text as [|c' [|]]; cbn [In]; split.
        * easy.
        * intros (? & ? & E & X). inversion E; subst. congruence.
        * intros [->|[]]. exists tok, tag. auto.
        * intros (? & ? & E & X). inversion E; subst. left. congruence.
        * easy.
        * intros (? & ? & E & X). inversion E; subst. congruence.
      + split; [easy|]. intros (? & ? & E & X). inversion E; subst. congruence.
    - split; [|intros (? & ? & E & _); discriminate]. intros Hc. exfalso.
      unfold values_on in Hc. unfold plain in HP. rewrite HP in Hc.
      fold (values_on TChar (i, i) (tokens_log 0 (map token (ll_tokens l)))) in Hc.
      rewrite (tokens_log_values TChar (or_intror eq_refl)) in Hc. cbn [Nat.leb] in Hc.
      rewrite Nat.sub_0_r, nth_error_map, En in Hc. exact Hc. }
  split; intros (c & A & B); exists c; (split; [now apply G|assumption]).
Qed.

(** ** Amounts *)

Definition row_of {t : ty} (toks : list LLToken) (x : LRange * den t) : LRange * str * list (den t) :=
  (fst x, text_between toks (fst (fst x)) (snd (fst x)), [snd x]).

Lemma sorted_NoDup {V} (out : list (LRange * V)) :
  StronglySorted (fun x y => snd (fst x) < fst (fst y)) out -> (forall rg v, In (rg, v) out -> fst rg <= snd rg) ->
  NoDup (map fst out).
Proof.
  intros HS HO. induction HS as [|[rg v] out HS IH HF]; [constructor|]. cbn [map fst]. constructor.
  - intros Hin. apply in_map_iff in Hin. destruct Hin as ([rg' v'] & E & Hin). cbn [fst] in E. subst rg'.
    rewrite Forall_forall in HF. specialize (HF _ Hin). cbn [fst snd] in HF. specialize (HO rg v (or_introl eq_refl)). lia.
  - apply IH. intros rg' v' Hin. apply (HO rg' v'). now right.
Qed.

Lemma sorted_rows {t : ty} toks (out : list (LRange * den t)) :
  StronglySorted (fun x y => snd (fst x) < fst (fst y)) out -> in_order (map (row_of toks) out).
Proof.
  intros HS. unfold in_order. induction HS as [|x out HS IH HF]; cbn [map]; constructor; auto.
  apply Forall_map. rewrite Forall_forall in *. intros y Hy. apply (HF y Hy).
Qed.

Lemma amount_rows tg sz input l parse r id l' :
  Forall wf_input input -> none_of TTextTag input -> none_of TChar input -> none_of TAmount input ->
  create_line_from_input_tokens tg input sz = Ok l -> no_digit_signs r ->
  run id l (amount_go parse r) = Ok l' ->
  exists lg out, History l lg /\ plain TTextTag l lg /\ plain TChar l lg /\ numbers_apart l lg r
    /\ amounts l lg r parse 0 out
    /\ StronglySorted (fun x y : LRange * Decimal => snd (fst x) < fst (fst y)) out
    /\ (forall s e d, In ((s, e), d) out -> s <= e < length (ll_tokens l) /\ is_number l lg s /\ is_number l lg e)
    /\ query l' TAmount = Ok (map (@row_of TAmount (ll_tokens l)) out).
Proof.
  intros HW HT HCh HA HC HD HR. destruct (created_fresh tg sz input l HW HC) as (lg & H & HP & HF).
  pose proof (HP _ HT) as PT. pose proof (HP _ HCh) as PC.
  destruct (thm_C39_ordered parse r id l lg l' H HR) as (out & AM & (l1 & E1 & T1 & H1) & HS & HB).
  assert (l1 = l') by congruence. subst l1.
  exists lg, out. split; [assumption|]. split; [assumption|]. split; [assumption|].
  split; [apply (thm_C40_numbers_apart r l lg H PT PC); exact HD|]. split; [assumption|]. split; [assumption|]. split; [assumption|].
  assert (HO : forall rg v, In (rg, v) out -> fst rg <= snd rg).
  { intros [s e] v Hin. apply HB in Hin. simpl. lia. }
  rewrite (fresh_query (t := TAmount) l' lg out H1 (HF TAmount ltac:(discriminate) ltac:(discriminate) HA) (sorted_NoDup _ HS HO) HO).
  rewrite T1. f_equal. apply map_ext. intros [rg v]. reflexivity.
Qed.

Lemma text_at_fun toks i a b : text_at toks i a -> text_at toks i b -> a = b.
Proof. intros (t1 & g1 & E1 & X1) (t2 & g2 & E2 & X2). congruence. Qed.

Lemma contributes_spelling l lg r i p : plain TTextTag l lg -> plain TChar l lg -> contributes l lg r i p ->
  (number_at (ll_tokens l) i \/ char_at (ll_tokens l) (signs r) i)
  /\ exists tok, nth_error (ll_tokens l) i = Some tok /\ spelling r tok = p.
Proof.
  intros PT PC HCo. pose proof (is_number_plain l lg i PT) as IN. pose proof (has_char_plain l lg) as IC.
  unfold contributes, is_delimiter, is_decimal in HCo. rewrite !IN, !IC in HCo by assumption.
  destruct HCo as [Hn|[(Nn & Hd & ->)|(Nn & Nd & (c & (tok & tag & En & Et) & [<-|[]]) & ->)]].
  - apply number_plain in Hn; [|assumption]. destruct Hn as ((tok & tag & En & Et) & Hn). split; [now left|]. exists tok. split; [assumption|].
    destruct Hn as (tok' & text' & En' & Et'). assert (tok' = tok) by congruence. subst. unfold spelling. rewrite Et.
    assert (tag = NATN) by congruence. subst tag. destruct p as [|? [|]]; reflexivity.
  - split.
    + right. destruct Hd as (c & Ht & Hc). exists c. split; [assumption|]. now right.
    + destruct Hd as (c & (tok & tag & En & Et) & Hc). exists tok. split; [assumption|]. unfold spelling. rewrite Et.
      assert (EX : existsb (N.eqb c) (delimiters r) = true) by (apply existsb_exists; exists c; split; [assumption|apply N.eqb_refl]).
      destruct tag; rewrite ?EX; try reflexivity. exfalso. apply Nn. now exists tok, [c].
  - split.
    + right. exists (decimal r). split; [now exists tok, tag|now left].
    + exists tok. split; [assumption|]. unfold spelling. rewrite Et.
      assert (EX : existsb (N.eqb (decimal r)) (delimiters r) = false).
      { apply Bool.not_true_iff_false. intros EX. apply existsb_exists in EX. destruct EX as (x & Hx & Ex). apply N.eqb_eq in Ex. subst x.
        apply Nd. exists (decimal r). split; [now exists tok, tag|assumption]. }
      destruct tag; rewrite ?EX, ?N.eqb_refl; try reflexivity. exfalso. apply Nn. now exists tok, [decimal r].
Qed.

Lemma spells_spelled l lg r s e text : plain TTextTag l lg -> plain TChar l lg -> s <= e -> spells l lg r s e text ->
  text = spelled (ll_tokens l) r s e
  /\ forall i, s <= i <= e -> number_at (ll_tokens l) i \/ char_at (ll_tokens l) (signs r) i.
Proof.
  intros PT PC HSE (ps & EL & HC & ->). split.
  - unfold spelled. rewrite <- EL. clear EL HSE. revert s HC. induction ps as [|p ps IH]; intros s HC; [reflexivity|].
    cbn [concat length seq flat_map]. f_equal.
    + destruct (contributes_spelling l lg r s p PT PC) as (_ & tok & En & Es).
      { specialize (HC 0 p eq_refl). now rewrite Nat.add_0_r in HC. }
      now rewrite En.
    + apply IH. intros j q Hj. specialize (HC (S j) q Hj). now rewrite Nat.add_succ_r in HC.
  - intros i Hi. destruct (nth_error ps (i - s)) as [p|] eqn:Ep.
    + specialize (HC _ _ Ep). replace (s + (i - s)) with i in HC by lia. now apply (contributes_spelling l lg r i p).
    + apply nth_error_None in Ep. lia.
Qed.

(** C39: the amounts are reported in the order of the line; each begins and ends with a number. *)
Lemma thm_C39_created :
  forall tg sz input l parse r id l',
    Forall wf_input input -> none_of TTextTag input -> none_of TChar input -> none_of TAmount input ->
    create_line_from_input_tokens tg input sz = Ok l -> no_digit_signs r ->
    run id l (amount_go parse r) = Ok l' ->
    exists rows, query l' TAmount = Ok rows /\ in_order rows
      /\ forall s e text ds, In ((s, e), text, ds) rows ->
           s <= e < length (ll_tokens l) /\ number_at (ll_tokens l) s /\ number_at (ll_tokens l) e
           /\ text = text_between (ll_tokens l) s e /\ length ds = 1.
Proof.
  intros tg sz input l parse r id l' HW HT HCh HA HC HD HR.
  destruct (amount_rows tg sz input l parse r id l' HW HT HCh HA HC HD HR) as (lg & out & H & PT & PC & AP & AM & HS & HB & EQ).
  exists (map (@row_of TAmount (ll_tokens l)) out). split; [exact EQ|]. split; [now apply sorted_rows|].
  intros s e text ds Hin. apply in_map_iff in Hin. destruct Hin as ([[s' e'] d] & E & Hin). inversion E; subst.
  destruct (HB _ _ _ Hin) as (B1 & B2 & B3). apply is_number_plain in B2, B3; auto.
Qed.

(** C40: every number is in exactly one of the amounts reported. *)
Lemma thm_C40_created :
  forall tg sz input l parse r id l',
    Forall wf_input input -> none_of TTextTag input -> none_of TChar input -> none_of TAmount input ->
    create_line_from_input_tokens tg input sz = Ok l -> no_digit_signs r ->
    run id l (amount_go parse r) = Ok l' ->
    exists rows, query l' TAmount = Ok rows
      /\ forall i, number_at (ll_tokens l) i ->
           exists x, In x rows /\ fst (fst (fst x)) <= i <= snd (fst (fst x))
             /\ forall y, In y rows -> fst (fst (fst y)) <= i <= snd (fst (fst y)) -> y = x.
Proof.
  intros tg sz input l parse r id l' HW HT HCh HA HC HD HR.
  destruct (amount_rows tg sz input l parse r id l' HW HT HCh HA HC HD HR) as (lg & out & H & PT & PC & AP & AM & HS & HB & EQ).
  exists (map (@row_of TAmount (ll_tokens l)) out). split; [exact EQ|]. intros i Hi. apply (is_number_plain l lg i PT) in Hi.
  destruct (thm_C40_covered parse r l lg out i H AM AP Hi) as (x & Hx & HC1 & HU).
  exists (@row_of TAmount (ll_tokens l) x). split; [now apply in_map|]. split; [exact HC1|].
  intros y Hy HCy. apply in_map_iff in Hy. destruct Hy as (z & <- & Hz). f_equal. now apply HU.
Qed.

(** C41: the value reported is what the tokens of the amount spell. *)
Lemma thm_C41_created :
  forall tg sz input l parse r id l',
    Forall wf_input input -> none_of TTextTag input -> none_of TChar input -> none_of TAmount input ->
    create_line_from_input_tokens tg input sz = Ok l -> no_digit_signs r ->
    run id l (amount_go parse r) = Ok l' ->
    exists rows, query l' TAmount = Ok rows
      /\ forall s e text ds, In ((s, e), text, ds) rows ->
           (forall i, s <= i <= e -> number_at (ll_tokens l) i \/ char_at (ll_tokens l) (signs r) i)
           /\ exists d tail, ds = [d] /\ parse (spelled (ll_tokens l) r s e ++ tail) = Some d
              /\ decimal_text (spelled (ll_tokens l) r s e ++ tail)
              /\ (tail = [] \/ (tail = point /\ dangling_point (ll_tokens l) r e)).
Proof.
  intros tg sz input l parse r id l' HW HT HCh HA HC HD HR.
  destruct (amount_rows tg sz input l parse r id l' HW HT HCh HA HC HD HR) as (lg & out & H & PT & PC & AP & AM & HS & HB & EQ).
  exists (map (@row_of TAmount (ll_tokens l)) out). split; [exact EQ|].
  intros s e text ds Hin. apply in_map_iff in Hin. destruct Hin as ([[s' e'] d] & E & Hin). inversion E; subst. cbn [fst snd].
  destruct (HB _ _ _ Hin) as (B1 & _).
  destruct (thm_C41_value parse r l lg out s e d AM Hin) as (u & text & HAt & HPs).
  pose proof (thm_C41_decimal r l lg s e u text H PT HAt) as HDt.
  destruct (thm_C41_text r l lg s e u text AP HAt) as [(_ & HSp)|[(_ & _ & HSp)|(-> & D1 & D2 & D3 & body & HSp & ->)]];
    destruct (spells_spelled l lg r s e _ PT PC ltac:(lia) HSp) as (-> & HCov); (split; [exact HCov|]).
  - exists d, []. rewrite app_nil_r. auto.
  - exists d, []. rewrite app_nil_r. auto.
  - exists d, point. split; [reflexivity|]. split; [assumption|]. split; [assumption|]. right. split; [reflexivity|].
    unfold is_decimal, is_delimiter in D1, D2. rewrite (has_char_plain l lg _ _ PC) in D1. rewrite (has_char_plain l lg _ _ PC) in D2. rewrite (is_number_plain l lg _ PT) in D3.
    unfold dangling_point. replace (e + 2) with (e + 1 + 1) by lia. auto.
Qed.

(** C42: numbers are only joined across delimiters and decimal signs, and across them they are joined. *)
Lemma thm_C42_created :
  forall tg sz input l parse r id l',
    Forall wf_input input -> none_of TTextTag input -> none_of TChar input -> none_of TAmount input ->
    create_line_from_input_tokens tg input sz = Ok l -> no_digit_signs r ->
    run id l (amount_go parse r) = Ok l' ->
    exists rows, query l' TAmount = Ok rows
      /\ forall s e text ds, In ((s, e), text, ds) rows ->
           (forall i, s <= i < e -> number_at (ll_tokens l) i ->
              (char_at (ll_tokens l) (signs r) (i + 1) /\ number_at (ll_tokens l) (i + 2) /\ i + 2 <= e)
              \/ (number_at (ll_tokens l) (i + 1) /\ i + 1 = e))
           /\ (number_at (ll_tokens l) (e + 1) \/ (char_at (ll_tokens l) (signs r) (e + 1) /\ number_at (ll_tokens l) (e + 2)) ->
               s < e /\ (number_at (ll_tokens l) (e - 1)
                         \/ (char_at (ll_tokens l) [decimal r] (e - 1) /\ ~ char_at (ll_tokens l) (delimiters r) (e - 1)))).
Proof.
  intros tg sz input l parse r id l' HW HT HCh HA HC HD HR.
  destruct (amount_rows tg sz input l parse r id l' HW HT HCh HA HC HD HR) as (lg & out & H & PT & PC & AP & AM & HS & HB & EQ).
  exists (map (@row_of TAmount (ll_tokens l)) out). split; [exact EQ|].
  intros s e text ds Hin. apply in_map_iff in Hin. destruct Hin as ([[s' e'] d] & E & Hin). inversion E; subst. cbn [fst snd].
  destruct (HB _ _ _ Hin) as (B1 & _).
  destruct (thm_C41_value parse r l lg out s e d AM Hin) as (u & text & HAt & HPs).
  assert (ES : forall i, char_at (ll_tokens l) (signs r) i <-> is_delimiter lg r i \/ is_decimal lg r i).
  { intros i. unfold is_delimiter, is_decimal. rewrite !(has_char_plain l lg _ _ PC). unfold char_at, signs. split.
    - intros (c & A & [<-|B]); [right|left]; eexists; split; eauto. now left.
    - intros [(c & A & B)|(c & A & [<-|[]])]; eexists; split; eauto; [now right|now left]. }
  split.
  - intros i Hi Hn. apply (is_number_plain l lg i PT) in Hn.
    destruct (thm_C42_partial r l lg s e u text i H AP HAt Hi Hn) as [(A & B & C)|(A & B)].
    + left. rewrite ES. apply is_number_plain in B; auto.
    + right. apply is_number_plain in A; auto.
  - rewrite ES, <- !(is_number_plain l lg _ PT), <- !(has_char_plain l lg _ _ PC). fold (is_delimiter lg r (e - 1)). fold (is_decimal lg r (e - 1)).
    assert (GB : forall e0 t0, groups_at l lg r s e0 t0 -> s <= e0 /\ is_number l lg e0).
    { intros e0 t0 HG. pose proof (groups_bounds l lg r _ _ _ HG) as ((X & _) & _). split; [exact X|].
      destruct HG; eexists; eauto. }
    intros HX. destruct HAt as [e t HG Hr Hnd Hd Hn | e t HG Hd Hn | e t1 t2 HG Hnd Hd Hn | e t HG Hnd Hd Hn | e t1 t2 HG Hr Hnd Hd Hn].
    + exfalso. tauto.
    + exfalso. destruct HX as [HX|[_ HX]]; [|tauto]. apply AP in HX. tauto.
    + destruct (GB _ _ HG). split; [lia|]. right. replace (e + 2 - 1) with (e + 1) by lia. auto.
    + exfalso. destruct HX as [HX|[_ HX]]; [|tauto]. apply AP in HX. tauto.
    + destruct (GB _ _ HG). split; [lia|]. left. replace (e + 1 - 1) with e by lia. auto.
Qed.

(** C44: on new lines of texts, the resolver only fails when the parser refuses what the tokens spell. *)
Lemma thm_C44_created :
  forall tg sz input l parse r id p,
    Forall wf_input input -> Forall is_text input -> none_of TTextTag input -> none_of TChar input ->
    create_line_from_input_tokens tg input sz = Ok l -> no_digit_signs r ->
    run id l (amount_go parse r) = Panic p ->
    exists s e tail, s <= e < length (ll_tokens l) /\ number_at (ll_tokens l) s /\ number_at (ll_tokens l) e
      /\ decimal_text (spelled (ll_tokens l) r s e ++ tail) /\ parse (spelled (ll_tokens l) r s e ++ tail) = None
      /\ (tail = [] \/ (tail = point /\ dangling_point (ll_tokens l) r e)).
Proof.
  intros tg sz input l parse r id p HW HI HT HCh HC HD HR.
  pose proof (created_text_only tg sz input l HW HI HC) as HX.
  destruct (created_fresh tg sz input l HW HC) as (lg & H & HP & HF).
  pose proof (HP _ HT) as PT. pose proof (HP _ HCh) as PC.
  pose proof (thm_C40_numbers_apart r l lg H PT PC HD) as AP.
  destruct (thm_C44_text_only parse r id l lg p H HX HR) as (s & e & u & text & HAt & HPs).
  pose proof (thm_C41_decimal r l lg s e u text H PT HAt) as HDt.
  assert (NL : forall i, is_number l lg i -> i < length (ll_tokens l)).
  { intros i (t & tok & tag & En & _). apply nth_error_Some. congruence. }
  assert (B : s <= e /\ is_number l lg s /\ is_number l lg e).
  { assert (GB : forall e0 t0, groups_at l lg r s e0 t0 -> s <= e0 /\ is_number l lg s /\ is_number l lg e0).
    { induction 1 as [t0 Hn|e0 t1 t2 HG IH Hd Hn].
      - split; [lia|]. split; eexists; eauto.
      - destruct IH as (A & B & _). split; [lia|]. split; [assumption|eexists; eauto]. }
    destruct HAt as [e t HG Hr Hnd Hd Hn | e t HG Hd Hn | e t1 t2 HG Hnd Hd Hn | e t HG Hnd Hd Hn | e t1 t2 HG Hr Hnd Hd Hn];
      destruct (GB _ _ HG) as (A & B & C); (split; [lia|]); (split; [assumption|]); auto; eexists; eauto. }
  destruct B as (B1 & B2 & B3). pose proof (NL _ B3) as B4.
  assert (BN : number_at (ll_tokens l) s /\ number_at (ll_tokens l) e) by (rewrite <- !(is_number_plain l lg _ PT); auto).
  destruct (thm_C41_text r l lg s e u text AP HAt) as [(_ & HSp)|[(_ & _ & HSp)|(-> & D1 & D2 & D3 & body & HSp & ->)]];
    destruct (spells_spelled l lg r s e _ PT PC ltac:(lia) HSp) as (-> & _).
  - exists s, e, []. rewrite app_nil_r. intuition.
  - exists s, e, []. rewrite app_nil_r. intuition.
  - exists s, e, point. split; [lia|]. split; [tauto|]. split; [tauto|]. split; [assumption|]. split; [assumption|]. right. split; [reflexivity|].
    unfold is_decimal, is_delimiter in D1, D2. rewrite (has_char_plain l lg _ _ PC) in D1.
    rewrite (has_char_plain l lg _ _ PC) in D2. rewrite (is_number_plain l lg _ PT) in D3.
    unfold dangling_point. replace (e + 2) with (e + 1 + 1) by lia. auto.
Qed.

(** ** Clauses *)

Lemma classified_fun r text k k' : classified r text k -> classified r text k' -> k = k'.
Proof. destruct k, k'; simpl; tauto. Qed.

(** What the keyword and the clause resolver leave on a new line. *)
Lemma clause_rows tg sz input l r id id' l1 l2 :
  Forall wf_input input -> none_of TKeyword input -> none_of TTextTag input -> none_of TClause input ->
  create_line_from_input_tokens tg input sz = Ok l ->
  run id l (clause_keyword_go r) = Ok l1 -> run id' l1 clause_go = Ok l2 ->
  exists lg out, query l2 TClause = Ok (map (@row_of TClause (ll_tokens l)) out)
    /\ (ll_tokens l = [] -> out = [])
    /\ (ll_tokens l <> [] -> exists runs ts, clauses_of lg (whole id' l1) runs ts out)
    /\ ll_tokens l1 = ll_tokens l
    /\ (forall i k, In k (values_on TKeyword (i, i) lg) <-> keyword_at (ll_tokens l) r i k)
    /\ (forall i tag, In tag (values_on TTextTag (i, i) lg) <-> tag_at (ll_tokens l) i tag).
Proof.
  intros HW HK HT HCl HC R1 R2. destruct (created_fresh tg sz input l HW HC) as (lg & H & HP & HF).
  pose proof (HP _ HT) as PT. pose proof (HP _ HK) as PK.
  destruct (thm_C45_keywords id l lg r H) as (out & (l1' & E & ET & H1) & HO & _).
  assert (l1' = l1) by congruence. subst l1'.
  set (lg1 := lg ++ map (fun '(rg, v) => (rg, mkany TKeyword v)) out) in *.
  assert (SK : single lg1 TKeyword).
  { apply single_app; [|exact (plain_single _ _ _ PK)]. intros _ [a b] v Hin. apply HO in Hin. simpl. tauto. }
  assert (AT : assigned TTextTag lg1 = assigned TTextTag lg).
  { unfold lg1. rewrite LemStore.assigned_app, assigned_other, app_nil_r by discriminate. reflexivity. }
  assert (ST : single lg1 TTextTag).
  { intros rg v Hin. rewrite AT in Hin. exact (plain_single _ _ _ PT rg v Hin). }
  assert (AC : assigned TClause lg1 = []).
  { unfold lg1. rewrite LemStore.assigned_app, assigned_other, app_nil_r by discriminate. apply HF; auto; discriminate. }
  assert (EO : assigned TKeyword lg1 = out).
  { unfold lg1. rewrite LemStore.assigned_app, assigned_same, (HF TKeyword); auto; discriminate. }
  destruct (thm_C47_clauses id' l1 lg1 H1 SK ST) as (out2 & (l2' & E2 & ET2 & H2) & HE & HCs).
  assert (l2' = l2) by congruence. subst l2'.
  exists lg1, out2. rewrite ET in HE. rewrite ET in HCs.
  assert (HD : StronglySorted (fun x y : LRange * Clause => snd (fst x) < fst (fst y)) out2
               /\ forall rg v, In (rg, v) out2 -> fst rg <= snd rg).
  { destruct (ll_tokens l) as [|tok toks] eqn:EL; [rewrite (HE eq_refl); split; [constructor|easy]|].
    destruct HCs as (runs & ts & HCs); [discriminate|]. destruct (thm_C47_disjoint _ _ _ _ _ HCs) as (X & Y). split; [exact X|].
    intros [a b] v Hin. apply Y in Hin. simpl. tauto. }
  destruct HD as (HD & HR).
  split.
  { rewrite (fresh_query (t := TClause) l2 lg1 out2 H2 AC (sorted_NoDup _ HD HR) HR). rewrite ET2, ET. f_equal.
    apply map_ext. intros [rg v]. reflexivity. }
  split; [assumption|]. split; [assumption|]. split; [assumption|]. split.
  - intros i k. pose proof (ThmClause.values_on_assigned TKeyword (i, i) k lg1) as X. rewrite EO in X. specialize (HO i i k).
    unfold keyword_at, text_at. rewrite X, HO. split.
    + intros (_ & tok & text & tag & A & B & C). eauto 8.
    + intros (text & (tok & tag & A & B) & C). split; eauto 8.
  - intros i tag. unfold values_on. rewrite AT. fold (values_on TTextTag (i, i) lg). unfold tag_at. split.
    + unfold values_on. unfold plain in PT. rewrite PT. fold (values_on TTextTag (i, i) (tokens_log 0 (map token (ll_tokens l)))).
      rewrite (tokens_log_values TTextTag (or_introl eq_refl)). cbn [Nat.leb]. rewrite Nat.sub_0_r, nth_error_map.
      destruct (nth_error (ll_tokens l) i) as [tok|] eqn:En; simpl; [|easy].
      intros Hin. destruct (token tok) as [s tag'|] eqn:Et; [|easy]. exists tok, s. split; auto. rewrite Et. f_equal.
      assert (X : values_on TTextTag (i, i) (token_entries i (LText s tag')) = [tag']).
      { unfold values_on, assigned. destruct s as [|c [|]]; simpl; rewrite ?range_eqb_refl; reflexivity. }
      rewrite X in Hin. destruct Hin as [->|[]]. reflexivity.
    + intros (tok & text & En & Et). rewrite (plain_plain_tags l lg PT i tok text tag En Et). now left.
Qed.

Section Clauses.
Context (l : LLLine) (lg : list entry) (r : ClauseKeywordResolver) (id : N) (l1 : LLLine).
Context (HN : ll_tokens l <> []) (ET : ll_tokens l1 = ll_tokens l).
Context (IK : forall i k, In k (values_on TKeyword (i, i) lg) <-> keyword_at (ll_tokens l) r i k).
Context (IT : forall i tag, In tag (values_on TTextTag (i, i) lg) <-> tag_at (ll_tokens l) i tag).

Lemma sep_iff i : separator lg i <-> separates (ll_tokens l) r i.
Proof.
  unfold separator, separates. rewrite IT. split; (intros [(k & Hk)|Hk]; [left; exists k; now apply IK|now right]).
Qed.

Lemma whole_covers i : covers (whole id l1) i <-> i < length (ll_tokens l).
Proof.
  unfold covers, whole. cbn [start_idx end_idx]. rewrite ET. destruct (ll_tokens l); [easy|]. simpl. lia.
Qed.

Context (runs : list LLSelection) (HM : maximal_runs (whole id l1) (separator lg) runs).

Lemma run_stretch p : In p runs -> stretch (ll_tokens l) r (start_idx p) (end_idx p).
Proof.
  intros Hp. destruct (runs_inside _ _ _ HM p Hp) as (_ & A & B & C).
  assert (L : end_idx p < length (ll_tokens l)).
  { apply whole_covers. split; lia. }
  split; [lia|]. split; [|split].
  - intros i Hi. rewrite <- sep_iff. exact (runs_free _ _ _ HM p i Hp Hi).
  - rewrite <- sep_iff. exact (runs_maximal_left _ _ _ HM p Hp).
  - rewrite <- sep_iff. destruct (runs_maximal_right _ _ _ HM p Hp) as [E|E]; [left|now right].
    rewrite E. unfold whole. cbn [end_idx]. rewrite ET. destruct (ll_tokens l); [easy|]. simpl. lia.
Qed.

Lemma stretch_run lo hi : stretch (ll_tokens l) r lo hi -> exists p, In p runs /\ start_idx p = lo /\ end_idx p = hi.
Proof.
  intros ((A & B) & HF & HL & HR).
  assert (NS : forall i, lo <= i <= hi -> ~ separator lg i) by (intros i Hi; rewrite sep_iff; auto).
  destruct (runs_complete _ _ _ HM lo) as (p & Hp & [P1 P2]); [apply whole_covers; lia|apply NS; lia|].
  exists p. split; [assumption|]. destruct (run_stretch p Hp) as ((C & D) & HF' & HL' & HR'). split.
  - destruct HL as [->|HL]; [lia|]. destruct (Nat.eq_dec (start_idx p) lo); [assumption|]. exfalso.
    apply (HF' (lo - 1)); [lia|assumption].
  - destruct (Nat.lt_trichotomy (end_idx p) hi) as [L|[L|L]]; [exfalso|assumption|exfalso].
    + destruct HR' as [E|E]; [lia|]. apply (HF (end_idx p + 1)); [lia|assumption].
    + destruct HR as [E|E]; [lia|]. apply (HF' (hi + 1)); [lia|assumption].
Qed.

Lemma only_run p : In p runs -> (length runs = 1 <-> only_stretch (ll_tokens l) r (start_idx p) (end_idx p)).
Proof.
  intros Hp. split.
  - intros EL. split; [now apply run_stretch|]. intros i Hi Hs.
    destruct (runs_complete _ _ _ HM i) as (q & Hq & Hc); [now apply whole_covers|now rewrite sep_iff|].
    destruct runs as [|x [|]]; try discriminate. destruct Hp as [->|[]], Hq as [->|[]]. exact Hc.
  - intros (_ & HO). pose proof (runs_ordered _ _ _ HM) as HS.
    assert (HA : forall q, In q runs -> q = p).
    { intros q Hq. destruct (run_stretch q Hq) as ((C & D) & HF & _).
      eapply (same_run _ _ _ _ _ (start_idx q) HM); eauto; [split; lia|]. apply HO; [lia|]. apply HF. lia. }
    destruct (run_stretch p Hp) as ((C & D) & _).
    destruct runs as [|x [|y xs]]; [easy|reflexivity|]. exfalso.
    inversion HS as [|? ? _ HF]; subst. inversion HF; subst.
    pose proof (HA x (or_introl eq_refl)). pose proof (HA y (or_intror (or_introl eq_refl))). subst. lia.
Qed.

Lemma before_follows p k : keyword_before lg p = Some k <-> follows (ll_tokens l) r (start_idx p) k.
Proof.
  unfold keyword_before, follows. destruct (start_idx p) as [|i].
  - split; [discriminate|lia].
  - replace (S i - 1) with i by lia. specialize (IK i). destruct (values_on TKeyword (i, i) lg) as [|k' ks].
    + split; [discriminate|]. intros (_ & Hk). apply IK in Hk. easy.
    + split.
      * intros E. inversion E; subst. split; [lia|]. apply IK. now left.
      * intros (_ & Hk). f_equal. destruct (proj1 (IK k') (or_introl eq_refl)) as (t1 & A1 & B1). destruct Hk as (t2 & A2 & B2).
        rewrite (text_at_fun _ _ _ _ A1 A2) in B1. eapply classified_fun; eauto.
Qed.

End Clauses.

Lemma trimmed_exact lg p t : trimmed_run lg p (Some t) -> start_idx p <= end_idx p ->
  start_idx p <= start_idx t /\ end_idx t <= end_idx p /\ start_idx t <= end_idx t
  /\ (space lg (start_idx p) -> start_idx t = start_idx p + 1) /\ (~ space lg (start_idx p) -> start_idx t = start_idx p)
  /\ (space lg (end_idx p) -> end_idx t + 1 = end_idx p) /\ (~ space lg (end_idx p) -> end_idx t = end_idx p).
Proof.
  intros (_ & HL & HC) HP. unfold covers in HC.
  destruct (proj1 (HC (start_idx t)) ltac:(lia)) as (A1 & A2 & A3).
  destruct (proj1 (HC (end_idx t)) ltac:(lia)) as (B1 & B2 & B3).
  split; [lia|]. split; [lia|]. split; [lia|].
  assert (IN : forall k, start_idx p < k < end_idx p -> start_idx t <= k <= end_idx t).
  { intros k Hk. apply HC. split; [lia|]. split; intros [E _]; lia. }
  split; [|split; [|split]].
  - intros HS. assert (start_idx t <> start_idx p) by (intros E; apply A2; rewrite E; auto).
    destruct (Nat.eq_dec (start_idx p + 1) (end_idx p)) as [E|E]; [lia|]. specialize (IN (start_idx p + 1)). lia.
  - intros HS. destruct (Nat.eq_dec (start_idx p) (end_idx p)) as [E|E]; [lia|].
    specialize (proj2 (HC (start_idx p))). intros X. enough (start_idx t <= start_idx p <= end_idx t) by lia.
    apply X. split; [lia|]. split; [intros [_ Y]; auto|intros [Y _]; lia].
  - intros HS. assert (end_idx t <> end_idx p) by (intros E; apply B3; rewrite E; auto).
    destruct (Nat.eq_dec (start_idx p + 1) (end_idx p)) as [E|E]; [lia|]. specialize (IN (end_idx p - 1)). lia.
  - intros HS. destruct (Nat.eq_dec (start_idx p) (end_idx p)) as [E|E]; [lia|].
    specialize (proj2 (HC (end_idx p))). intros X. enough (start_idx t <= end_idx p <= end_idx t) by lia.
    apply X. split; [lia|]. split; [intros [Y _]; lia|intros [_ Y]; auto].
Qed.

(** C47: the clauses reported are the stretches between separators, without a space at either end. *)
Lemma thm_C47_created :
  forall tg sz input l r id id' l1 l2,
    Forall wf_input input -> none_of TKeyword input -> none_of TTextTag input -> none_of TClause input ->
    create_line_from_input_tokens tg input sz = Ok l ->
    run id l (clause_keyword_go r) = Ok l1 -> run id' l1 clause_go = Ok l2 ->
    exists rows, query l2 TClause = Ok rows /\ in_order rows
      /\ forall a b text cs, In ((a, b), text, cs) rows ->
           a <= b /\ text = text_between (ll_tokens l) a b /\ length cs = 1
           /\ exists lo hi, stretch (ll_tokens l) r lo hi /\ lo <= a /\ b <= hi
              /\ (tag_at (ll_tokens l) lo SPACE -> a = lo + 1) /\ (~ tag_at (ll_tokens l) lo SPACE -> a = lo)
              /\ (tag_at (ll_tokens l) hi SPACE -> b + 1 = hi) /\ (~ tag_at (ll_tokens l) hi SPACE -> b = hi).
Proof.
  intros tg sz input l r id id' l1 l2 HW HK HT HCl HC R1 R2.
  destruct (clause_rows tg sz input l r id id' l1 l2 HW HK HT HCl HC R1 R2) as (lg & out & EQ & HE & HCs & ET & IK & IT).
  exists (map (@row_of TClause (ll_tokens l)) out). split; [exact EQ|].
  destruct (ll_tokens l) as [|tok toks] eqn:EL.
  { rewrite (HE eq_refl). split; [constructor|easy]. }
  destruct HCs as (runs & ts & HCs); [discriminate|]. rewrite <- EL in *. assert (HN : ll_tokens l <> []) by congruence.
  split; [apply sorted_rows; apply (thm_C47_disjoint _ _ _ _ _ HCs)|].
  intros a b text cs Hin. apply in_map_iff in Hin. destruct Hin as ([[a' b'] c] & E & Hin). inversion E; subst. cbn [fst snd].
  apply In_nth_error in Hin. destruct Hin as (i & Hi).
  destruct (clauses_at _ _ _ _ _ _ _ _ HCs Hi) as (p & t & _ & E1 & Hp & Ht & _). inversion E1; subst.
  pose proof (run_stretch l lg r id' l1 HN ET IK IT runs (cl_runs _ _ _ _ _ HCs) p Hp) as HS.
  destruct (trimmed_exact lg p t Ht ltac:(destruct HS; lia)) as (T1 & T2 & T3 & T4 & T5 & T6 & T7).
  unfold space in T4, T5, T6, T7. rewrite IT in T4, T5. rewrite IT in T6, T7.
  split; [assumption|]. split; [reflexivity|]. split; [reflexivity|]. exists (start_idx p), (end_idx p). auto 10.
Qed.

Lemma nth_firstn {A} (xs : list A) : forall i j, j < i -> nth_error (firstn i xs) j = nth_error xs j.
Proof.
  induction xs as [|x xs IH]; intros [|i] [|j] L; try reflexivity; try lia. simpl. apply IH. lia.
Qed.

(** C48: the kind of clause reported. *)
Lemma thm_C48_created :
  forall tg sz input l r id id' l1 l2,
    Forall wf_input input -> none_of TKeyword input -> none_of TTextTag input -> none_of TClause input ->
    create_line_from_input_tokens tg input sz = Ok l ->
    run id l (clause_keyword_go r) = Ok l1 -> run id' l1 clause_go = Ok l2 ->
    exists rows, query l2 TClause = Ok rows
      /\ forall a b text cs lo hi, In ((a, b), text, cs) rows -> stretch (ll_tokens l) r lo hi -> lo <= a <= hi ->
           exists c, cs = [c]
           /\ (c = Condition <-> follows (ll_tokens l) r lo KConditionStart)
           /\ (c = Independent <-> ~ follows (ll_tokens l) r lo KConditionStart /\ only_stretch (ll_tokens l) r lo hi)
           /\ (c = TrailingEffect <-> ~ follows (ll_tokens l) r lo KConditionStart /\ ~ only_stretch (ll_tokens l) r lo hi
                                      /\ (follows (ll_tokens l) r lo KThen \/ condition_before rows a))
           /\ (c = LeadingEffect <-> ~ follows (ll_tokens l) r lo KConditionStart /\ ~ only_stretch (ll_tokens l) r lo hi
                                     /\ ~ follows (ll_tokens l) r lo KThen /\ ~ condition_before rows a).
Proof.
  intros tg sz input l r id id' l1 l2 HW HK HT HCl HC R1 R2.
  destruct (clause_rows tg sz input l r id id' l1 l2 HW HK HT HCl HC R1 R2) as (lg & out & EQ & HE & HCs & ET & IK & IT).
  exists (map (@row_of TClause (ll_tokens l)) out). split; [exact EQ|].
  destruct (ll_tokens l) as [|tok toks] eqn:EL.
  { rewrite (HE eq_refl). easy. }
  destruct HCs as (runs & ts & HCs); [discriminate|]. rewrite <- EL in *. assert (HN : ll_tokens l <> []) by congruence.
  intros a b text cs lo hi Hin HS Ha. apply in_map_iff in Hin. destruct Hin as ([[a' b'] c] & E & Hin). inversion E; subst. cbn [fst snd].
  apply In_nth_error in Hin. destruct Hin as (i & Hi).
  destruct (clauses_at _ _ _ _ _ _ _ _ HCs Hi) as (p & t & _ & E1 & Hp & Ht & Ec). inversion E1; subst a b. clear E E1.
  pose proof (run_stretch l lg r id' l1 HN ET IK IT runs (cl_runs _ _ _ _ _ HCs) p Hp) as HSp.
  destruct (stretch_run l lg r id' l1 HN ET IK IT runs (cl_runs _ _ _ _ _ HCs) lo hi HS) as (q & Hq & E2 & E3).
  destruct (trimmed_exact lg p t Ht ltac:(destruct HSp; lia)) as (T1 & T2 & T3 & _).
  assert (q = p).
  { eapply (same_run _ _ _ _ _ (start_idx t) (cl_runs _ _ _ _ _ HCs)); eauto; unfold covers; lia. }
  subst q lo hi.
  pose proof (before_follows l lg r IK p) as BF. pose proof (only_run l lg r id' l1 HN ET IK IT runs (cl_runs _ _ _ _ _ HCs) p Hp) as OR.
  assert (CB : condition_before (map (@row_of TClause (ll_tokens l)) out) (start_idx t)
               <-> existsb is_condition (map snd (firstn i out)) = true).
  { destruct (thm_C47_disjoint _ _ _ _ _ HCs) as (HSo & HDj). rewrite existsb_exists. split.
    - intros (x & Hx & Hl & HCd). apply in_map_iff in Hx. destruct Hx as ([[a b] c0] & <- & Hx). cbn [row_of fst snd] in *.
      destruct HCd as [->|[]]. exists Condition. split; [|reflexivity]. apply in_map_iff. exists ((a, b), Condition). split; [reflexivity|].
      apply In_nth_error in Hx. destruct Hx as (j & Hj). destruct (Nat.lt_trichotomy j i) as [L|[L|L]].
      + apply (nth_error_In _ j). rewrite nth_firstn by assumption. exact Hj.
      + subst j. rewrite Hj in Hi. inversion Hi; subst. lia.
      + pose proof (StronglySorted_nth _ _ HSo i j _ _ L Hi Hj) as X. cbn [fst snd] in X.
        assert (a <= b) by (eapply HDj; eapply nth_error_In; exact Hj). lia.
    - intros (c0 & Hc & EC). destruct c0; try discriminate. apply in_map_iff in Hc. destruct Hc as ([[a b] c0] & E & Hx). cbn [snd] in E. subst c0.
      exists (@row_of TClause (ll_tokens l) ((a, b), Condition)). split; [apply in_map; rewrite <- (firstn_skipn i out); apply in_or_app; now left|]. cbn [row_of fst snd]. split; [|now left].
      apply In_nth_error in Hx. destruct Hx as (j & Hj).
      assert (LJ : j < i).
      { assert (X : j < length (firstn i out)) by (apply nth_error_Some; congruence). rewrite firstn_length in X. lia. }
      rewrite nth_firstn in Hj by assumption.
      exact (StronglySorted_nth _ _ HSo j i _ _ LJ Hj Hi). }
  exists c. split; [reflexivity|]. rewrite CB, <- OR, <- !BF. rewrite Ec. clear.
  change (map snd (firstn i out)) with (map (@snd LRange Clause) (firstn i out)). unfold clause_kind.
  generalize (existsb is_condition (map (@snd LRange Clause) (firstn i out))). intros cb.
  destruct (Nat.eqb (length runs) 1) eqn:E1; [apply Nat.eqb_eq in E1|apply Nat.eqb_neq in E1];
    destruct (keyword_before lg p) as [[]|]; destruct cb;
    repeat split; try discriminate; try tauto; try congruence; intuition congruence.
Qed.

(** C49: every stretch with something other than a space gets one clause. *)
Lemma thm_C49_created :
  forall tg sz input l r id id' l1 l2,
    Forall wf_input input -> none_of TKeyword input -> none_of TTextTag input -> none_of TClause input ->
    create_line_from_input_tokens tg input sz = Ok l ->
    run id l (clause_keyword_go r) = Ok l1 -> run id' l1 clause_go = Ok l2 ->
    exists rows, query l2 TClause = Ok rows
      /\ forall lo hi k, stretch (ll_tokens l) r lo hi -> lo <= k <= hi -> ~ tag_at (ll_tokens l) k SPACE ->
           exists x, In x rows /\ lo <= fst (fst (fst x)) /\ snd (fst (fst x)) <= hi
             /\ (forall j, lo <= j <= hi -> ~ tag_at (ll_tokens l) j SPACE -> fst (fst (fst x)) <= j <= snd (fst (fst x)))
             /\ forall y j, In y rows -> fst (fst (fst y)) <= j <= snd (fst (fst y)) -> lo <= j <= hi -> y = x.
Proof.
  intros tg sz input l r id id' l1 l2 HW HK HT HCl HC R1 R2.
  destruct (clause_rows tg sz input l r id id' l1 l2 HW HK HT HCl HC R1 R2) as (lg & out & EQ & HE & HCs & ET & IK & IT).
  exists (map (@row_of TClause (ll_tokens l)) out). split; [exact EQ|].
  intros lo hi k HS Hk Hsp. assert (HN : ll_tokens l <> []) by (intros X; destruct HS as ((_ & Y) & _); rewrite X in Y; simpl in Y; lia).
  destruct (HCs HN) as (runs & ts & HC1).
  destruct (stretch_run l lg r id' l1 HN ET IK IT runs (cl_runs _ _ _ _ _ HC1) lo hi HS) as (q & Hq & <- & <-).
  destruct (thm_C49_covered lg _ runs ts out q k HC1 Hq Hk) as (x & Hx & A & B & C & D).
  { unfold space. now rewrite IT. }
  exists (@row_of TClause (ll_tokens l) x). split; [now apply in_map|]. split; [assumption|]. split; [assumption|]. split.
  - intros j Hj Hs. apply C; [exact Hj|]. unfold space. now rewrite IT.
  - intros y j Hy Hc Hj. apply in_map_iff in Hy. destruct Hy as (z & <- & Hz). f_equal. eapply D; eauto.
Qed.

(** Every token is in a longest stretch, or separates. *)
Lemma stretch_of toks r i : i < length toks -> ~ separates toks r i -> (forall j, separates toks r j \/ ~ separates toks r j) ->
  exists lo hi, stretch toks r lo hi /\ lo <= i <= hi.
Proof.
  intros Hi Hs HD.
  assert (L : exists lo, lo <= i /\ (forall j, lo <= j <= i -> ~ separates toks r j) /\ (lo = 0 \/ separates toks r (lo - 1))).
  { clear Hi. induction i as [|i IH].
    - exists 0. split; [lia|]. split; [|now left]. intros j Hj. now replace j with 0 by lia.
    - destruct (HD i) as [Y|N].
      + exists (S i). split; [lia|]. split; [|right; now replace (S i - 1) with i by lia]. intros j Hj. now replace j with (S i) by lia.
      + destruct (IH N) as (lo & A & B & C). exists lo. split; [lia|]. split; [|assumption]. intros j Hj.
        destruct (Nat.eq_dec j (S i)) as [->|]; [assumption|]. apply B. lia. }
  assert (R : exists hi, i <= hi < length toks /\ (forall j, i <= j <= hi -> ~ separates toks r j) /\ (hi + 1 = length toks \/ separates toks r (hi + 1))).
  { remember (length toks - i) as n. revert i Hi Hs L Heqn. induction n as [|n IH]; intros i Hi Hs L En; [lia|].
    destruct (Nat.eq_dec (i + 1) (length toks)) as [E|E].
    - exists i. split; [lia|]. split; [|now left]. intros j Hj. now replace j with i by lia.
    - destruct (HD (i + 1)) as [Y|N].
      + exists i. split; [lia|]. split; [|now right]. intros j Hj. now replace j with i by lia.
      + destruct (IH (i + 1)) as (hi & A & B & C); [lia|assumption| |lia|].
        * destruct L as (lo & A & B & C). exists lo. split; [lia|]. split; [|assumption]. intros j Hj.
          destruct (Nat.eq_dec j (i + 1)) as [->|]; [assumption|]. apply B. lia.
        * exists hi. split; [lia|]. split; [|assumption]. intros j Hj. destruct (Nat.eq_dec j i) as [->|]; [assumption|]. apply B. lia. }
  destruct L as (lo & A & B & C), R as (hi & D & E & F). exists lo, hi. split; [|lia].
  split; [lia|]. split; [|auto]. intros j Hj. destruct (Nat.le_ge_cases j i); [apply B|apply E]; lia.
Qed.

Lemma In_str_dec (a : str) (xs : list str) : In a xs \/ ~ In a xs.
Proof. destruct (in_dec (list_eq_dec N.eq_dec) a xs); auto. Qed.

Lemma separates_dec toks r i : separates toks r i \/ ~ separates toks r i.
Proof.
  unfold separates, keyword_at, text_at, tag_at. destruct (nth_error toks i) as [tok|] eqn:En.
  2:{ right. intros [(k & text & (t & g & E & _) & _)|(t & x & E & _)]; discriminate. }
  destruct (token tok) as [text tag|] eqn:Et.
  2:{ right. intros [(k & text & (t & g & E & X) & _)|(t & x & E & X)]; inversion E; subst; congruence. }
  assert (HK : (exists k, classified r text k) \/ ~ exists k, classified r text k).
  { destruct (In_str_dec (u_lower text) (kw_cond_start r)) as [A|A]; [left; now exists KConditionStart|].
    destruct (In_str_dec (u_lower text) (kw_then r)) as [B|B]; [left; now exists KThen|].
    destruct (In_str_dec (u_lower text) (kw_and r)) as [C|C]; [left; now exists KAnd|].
    right. intros ([] & Hk); simpl in Hk; tauto. }
  destruct HK as [(k & Hk)|HK].
  - left. left. exists k, text. split; [|assumption]. now exists tok, tag.
  - destruct (TextTag_eq_dec tag PUNC) as [->|NP].
    + left. right. now exists tok, text.
    + right. intros [(k & text' & (t & g & E & X) & Hk)|(t & x & E & X)]; inversion E; subst t; rewrite Et in X; inversion X; subst.
      * apply HK. eauto.
      * congruence.
Qed.

Lemma tag_at_dec toks i tag : tag_at toks i tag \/ ~ tag_at toks i tag.
Proof.
  unfold tag_at. destruct (nth_error toks i) as [tok|] eqn:En; [|right; intros (t & x & E & _); discriminate].
  destruct (token tok) as [text tag'|] eqn:Et.
  - destruct (TextTag_eq_dec tag' tag) as [->|NE]; [left; now exists tok, text|].
    right. intros (t & x & E & X). inversion E; subst. congruence.
  - right. intros (t & x & E & X). inversion E; subst. congruence.
Qed.

Lemma worded_In runs : forall ts p t, In (p, t) (worded runs ts) <-> In (p, Some t) (combine runs ts).
Proof.
  intros ts p t. unfold worded. rewrite in_filter_map. split.
  - intros ([p' [t'|]] & Hin & E); [|discriminate E]. injection E as -> ->. exact Hin.
  - intros Hin. exists (p, Some t). auto.
Qed.

(** C49: the ranges reported are exactly the stretches without a space at either end, if anything is left. *)
Lemma thm_C49_exact :
  forall tg sz input l r id id' l1 l2,
    Forall wf_input input -> none_of TKeyword input -> none_of TTextTag input -> none_of TClause input ->
    create_line_from_input_tokens tg input sz = Ok l ->
    run id l (clause_keyword_go r) = Ok l1 -> run id' l1 clause_go = Ok l2 ->
    exists rows, query l2 TClause = Ok rows /\ in_order rows
      /\ forall a b text, (exists cs, In ((a, b), text, cs) rows) <->
           text = text_between (ll_tokens l) a b
           /\ exists lo hi, stretch (ll_tokens l) r lo hi /\ without_end_spaces (ll_tokens l) lo hi a b.
Proof.
  intros tg sz input l r id id' l1 l2 HW HK HT HCl HC R1 R2.
  destruct (thm_C47_created tg sz input l r id id' l1 l2 HW HK HT HCl HC R1 R2) as (rows & EQ & HO & HRg).
  destruct (clause_rows tg sz input l r id id' l1 l2 HW HK HT HCl HC R1 R2) as (lg & out & EQ' & HE & HCs & ET & IK & IT).
  exists rows. split; [exact EQ|]. split; [exact HO|]. intros a b text. split.
  - intros (cs & Hin). destruct (HRg a b text cs Hin) as (Hab & Et & _ & lo & hi & HS & _ & _ & S1 & S2 & S3 & S4).
    split; [exact Et|]. exists lo, hi. split; [exact HS|]. split; [exact Hab|].
    split; [destruct (tag_at_dec (ll_tokens l) lo SPACE)|destruct (tag_at_dec (ll_tokens l) hi SPACE)]; auto.
  - intros (Et & lo & hi & HS & Hab & Ha & Hb).
    assert (HN : ll_tokens l <> []) by (intros X; destruct HS as ((_ & Y) & _); rewrite X in Y; simpl in Y; lia).
    destruct (HCs HN) as (runs & ts & HC1).
    destruct (stretch_run l lg r id' l1 HN ET IK IT runs (cl_runs _ _ _ _ _ HC1) lo hi HS) as (q & Hq & <- & <-).
    assert (HX : exists o, In (q, o) (combine runs ts) /\ trimmed_run lg q o).
    { pose proof (cl_trimmed _ _ _ _ _ HC1) as HF. clear -Hq HF. induction HF as [|x o runs ts Hx HF IH]; [easy|].
      destruct Hq as [->|Hq]; [exists o; split; [now left|exact Hx]|]. destruct (IH Hq) as (o' & A & B). exists o'. split; [now right|exact B]. }
    destruct HX as (o & Hin & HTr). destruct HS as ((L1 & _) & _). destruct o as [t|].
    + destruct (trimmed_exact lg q t HTr L1) as (_ & _ & _ & T4 & T5 & T6 & T7). unfold space in *.
      assert (Ea : start_idx t = a) by (destruct Ha as [[A ->]|[A ->]]; [apply T4|apply T5]; now rewrite IT).
      assert (Eb : end_idx t = b) by (destruct Hb as [[A E]|[A ->]]; [apply IT in A; specialize (T6 A); lia|apply T7; now rewrite IT]).
      apply (proj2 (worded_In runs ts q t)) in Hin. apply (in_map (fun '(_, t) => (start_idx t, end_idx t))) in Hin.
      rewrite <- (cl_ranges _ _ _ _ _ HC1) in Hin. apply in_map_iff in Hin. destruct Hin as ([rg c] & E & Hin). cbn [fst] in E. subst rg.
      exists [c]. assert (rows = map (@row_of TClause (ll_tokens l)) out) by congruence. subst rows. apply in_map_iff.
      exists ((start_idx t, end_idx t), c). split; [|exact Hin]. unfold row_of. cbn [fst snd]. now rewrite Ea, Eb, Et.
    + exfalso. unfold trimmed_run, part_of in HTr. apply (HTr a). unfold covers, space. rewrite !IT.
      split; [destruct Ha as [[A Ea]|[A Ea]], Hb as [[B Eb]|[B Eb]]; lia|]. split.
      * intros (E & A'). destruct Ha as [[A Ea]|[A Ea]]; [lia|]. apply A. now rewrite <- E.
      * intros (E & B'). destruct Hb as [[B Eb]|[B Eb]]; [lia|]. apply B. now rewrite <- E.
Qed.

(** C59: every token is a separator, a space, or in exactly one clause, and no separator is in a clause. *)
Lemma thm_C59_partition :
  forall tg sz input l r id id' l1 l2,
    Forall wf_input input -> none_of TKeyword input -> none_of TTextTag input -> none_of TClause input ->
    create_line_from_input_tokens tg input sz = Ok l ->
    run id l (clause_keyword_go r) = Ok l1 -> run id' l1 clause_go = Ok l2 ->
    exists rows, query l2 TClause = Ok rows
      /\ forall i, i < length (ll_tokens l) ->
           (separates (ll_tokens l) r i /\ forall x, In x rows -> ~ fst (fst (fst x)) <= i <= snd (fst (fst x)))
           \/ tag_at (ll_tokens l) i SPACE
           \/ exists x, In x rows /\ fst (fst (fst x)) <= i <= snd (fst (fst x))
                /\ forall y, In y rows -> fst (fst (fst y)) <= i <= snd (fst (fst y)) -> y = x.
Proof.
  intros tg sz input l r id id' l1 l2 HW HK HT HCl HC R1 R2.
  destruct (thm_C49_created tg sz input l r id id' l1 l2 HW HK HT HCl HC R1 R2) as (rows & EQ & HCv).
  destruct (thm_C47_created tg sz input l r id id' l1 l2 HW HK HT HCl HC R1 R2) as (rows' & EQ' & _ & HRg).
  assert (rows' = rows) by congruence. subst rows'. exists rows. split; [assumption|]. intros i Hi.
  destruct (separates_dec (ll_tokens l) r i) as [S|N].
  - left. split; [assumption|]. intros [[[a b] text] cs] Hx. cbn [fst snd]. intros Hc.
    destruct (HRg a b text cs Hx) as (_ & _ & _ & lo & hi & (_ & HF & _) & A & B & _). apply (HF i); [lia|assumption].
  - right. destruct (nth_error (ll_tokens l) i) as [tok|] eqn:En; [|apply nth_error_None in En; lia].
    assert (HD : tag_at (ll_tokens l) i SPACE \/ ~ tag_at (ll_tokens l) i SPACE).
    { unfold tag_at. destruct (token tok) as [text tag|] eqn:Et.
      - destruct (TextTag_eq_dec tag SPACE) as [->|NE]; [left; now exists tok, text|].
        right. intros (t & x & E & X). rewrite En in E. inversion E; subst. congruence.
      - right. intros (t & x & E & X). rewrite En in E. inversion E; subst. congruence. }
    destruct HD as [HD|HD]; [now left|right].
    destruct (stretch_of (ll_tokens l) r i Hi N (separates_dec _ _)) as (lo & hi & HS & Hl).
    destruct (HCv lo hi i HS Hl HD) as (x & Hx & A & B & C & D). exists x. split; [assumption|]. split; [now apply C|].
    intros y Hy Hc. eapply D; eauto.
Qed.

(** ** Resolvers that look at single tokens *)

Lemma filter_map_ext_in {A B} (f g : A -> option B) xs : (forall x, In x xs -> f x = g x) -> filter_map f xs = filter_map g xs.
Proof.
  induction xs as [|x xs IH]; intros H; [reflexivity|]. cbn [filter_map]. rewrite (H x (or_introl eq_refl)), IH; [reflexivity|].
  intros y Hy. apply H. now right.
Qed.

Lemma filter_firsts_repeat {V} (vs : list V) r : forall rs, ~ In r rs ->
  filter (fun r' => negb (range_eqb r' r)) (firsts (map (fun _ => r) vs ++ rs)) = firsts rs.
Proof.
  induction vs as [|v vs IH]; intros rs HN; cbn [map app].
  - rewrite filter_all; [reflexivity|]. intros r' Hr'. apply (proj1 (firsts_In _ _)) in Hr'. apply negb_true_iff, range_eqb_neq. intros ->. contradiction.
  - cbn [firsts filter]. rewrite range_eqb_refl. cbn [negb]. rewrite IH by assumption. rewrite filter_all; [reflexivity|].
    intros r' Hr'. apply (proj1 (firsts_In _ _)) in Hr'. apply negb_true_iff, range_eqb_neq. intros ->. contradiction.
Qed.

Lemma firsts_blocks {V} (g : nat -> str -> list V) toks : forall k,
  firsts (map fst (flat_map (fun '(i, text) => map (pair (i, i)) (g i text))
     (filter_map (fun '(i, tok) => match token tok with LText s _ => Some (i, s) | LValue => None end) (enumerate_from k toks))))
  = filter_map (fun '(i, tok) => match token tok with
                                 | LText s _ => match g i s with [] => None | _ => Some (i, i) end
                                 | LValue => None end) (enumerate_from k toks).
Proof.
  induction toks as [|tok toks IH]; intros k; [reflexivity|]. cbn [enumerate_from filter_map].
  destruct (token tok) as [text tag|] eqn:Et; [|apply IH].
  cbn [flat_map]. rewrite map_app, map_map. cbn [fst].
  assert (HN : ~ In (k, k) (map fst (flat_map (fun '(i, text) => map (pair (i, i)) (g i text))
     (filter_map (fun '(i, tok) => match token tok with LText s _ => Some (i, s) | LValue => None end) (enumerate_from (S k) toks))))).
  { intros Hin. apply in_map_iff in Hin. destruct Hin as ([rg v] & E & Hin). cbn [fst] in E. subst rg.
    apply in_flat_map in Hin. destruct Hin as ([i s] & Hin & Hv). apply in_map_iff in Hv. destruct Hv as (v' & E & _). inversion E; subst.
    apply in_filter_map in Hin. destruct Hin as ([j tok'] & Hin & E'). apply enumerate_In in Hin. destruct (token tok'); inversion E'; subst. lia. }
  destruct (g k text) as [|v vs]; cbn [map app]; [apply IH|].
  cbn [firsts]. rewrite filter_firsts_repeat by exact HN. now rewrite IH.
Qed.

Lemma fresh_tokens {t : ty} l' lg (g : nat -> str -> list (den t)) (f : str -> TextTag -> list (den t)) :
  History l' (lg ++ map (fun '(rg, v) => (rg, mkany t v)) (on_tokens g (ll_tokens l'))) -> assigned t lg = [] ->
  (forall i tok text tag, nth_error (ll_tokens l') i = Some tok -> token tok = LText text tag -> g i text = f text tag) ->
  query l' t = Ok (rows_by (ll_tokens l') f).
Proof.
  intros H E0 HF.
  assert (EA : assigned t (lg ++ map (fun '(rg, v) => (rg, mkany t v)) (on_tokens g (ll_tokens l'))) = on_tokens g (ll_tokens l')).
  { rewrite LemStore.assigned_app, E0, assigned_same. reflexivity. }
  assert (ER : ranges_of t (lg ++ map (fun '(rg, v) => (rg, mkany t v)) (on_tokens g (ll_tokens l')))
     = filter_map (fun '(i, tok) => match token tok with
                                 | LText s _ => match g i s with [] => None | _ => Some (i, i) end
                                 | LValue => None end) (enumerate_from 0 (ll_tokens l'))).
  { unfold ranges_of. rewrite EA. apply firsts_blocks. }
  assert (EN : forall i tok, In (i, tok) (enumerate_from 0 (ll_tokens l')) -> nth_error (ll_tokens l') i = Some tok).
  { intros i tok Hin. apply enumerate_In in Hin. destruct Hin as (A & B). now rewrite Nat.sub_0_r in B. }
  rewrite (thm_C10_query_exact l' _ t H).
  - f_equal. unfold query_spec. rewrite ER. unfold rows_by. rewrite map_filter_map.
    apply filter_map_ext_in. intros [i tok] Hin. apply EN in Hin. destruct (token tok) as [text tag|] eqn:Et; [|reflexivity].
    rewrite (HF i tok text tag Hin Et) at 1. destruct (f text tag) as [|v vs] eqn:Ef; [reflexivity|]. cbn [option_map fst snd].
    do 2 f_equal; [f_equal|].
    + unfold text_between. replace (S i - i) with 1 by lia. cbn [seq flat_map]. rewrite Hin, app_nil_r. unfold token_str. now rewrite Et.
    + unfold values_on. rewrite EA.
      erewrite filter_map_ext_in; [rewrite (on_tokens_at g (ll_tokens l') i text)|].
      * rewrite (HF i tok text tag Hin Et). exact Ef.
      * apply text_tokens_In. eauto.
      * intros [rg v0] _. reflexivity.
  - rewrite ER. apply Forall_forall. intros rg Hin. apply in_filter_map in Hin. destruct Hin as ([i tok] & _ & E).
    destruct (token tok) as [s tag|]; [|discriminate]. destruct (g i s); inversion E. unfold range_ordered. simpl. lia.
Qed.

(** What a text matcher reports on a new line. *)
Lemma text_match_rows {t : ty} tg sz input l id (m : TextMatch t) (f : str -> list (den t)) :
  Forall wf_input input -> none_of t input -> t <> TChar -> t <> TTextTag ->
  create_line_from_input_tokens tg input sz = Ok l ->
  (forall lg, History l lg -> runs_to id l lg (text_match_go m) (on_tokens (fun _ text => f text) (ll_tokens l))) ->
  exists l', run id l (text_match_go m) = Ok l' /\ query l' t = Ok (rows_by (ll_tokens l) (fun text _ => f text)).
Proof.
  intros HW HN N1 N2 HC HR. destruct (created_fresh tg sz input l HW HC) as (lg & H & HP & HF).
  destruct (HR lg H) as (l' & E & ET & H'). exists l'. split; [exact E|]. rewrite <- ET in H'. rewrite <- ET.
  apply (fresh_tokens l' lg _ (fun text _ => f text) H'); auto.
Qed.

(** C37: the matches reported by the case sensitive, the case insensitive and the array form. *)
Lemma thm_C37_created :
  forall t tg sz input l id (table : list (str * list (den t))),
    Forall wf_input input -> none_of t input -> t <> TChar -> t <> TTextTag ->
    create_line_from_input_tokens tg input sz = Ok l -> NoDup (map fst table) ->
    exists l', run id l (text_match_go (text_match_new table)) = Ok l'
      /\ query l' t = Ok (rows_by (ll_tokens l) (fun text _ => entry_values (fun k => str_eqb k text) table)).
Proof.
  intros t tg sz input l id table HW HN N1 N2 HC ND. eapply text_match_rows; eauto. intros lg H. now apply thm_C37_case_sensitive.
Qed.

Lemma thm_C38_created :
  forall t tg sz input l id (table : list (str * list (den t))),
    Forall wf_input input -> none_of t input -> t <> TChar -> t <> TTextTag ->
    create_line_from_input_tokens tg input sz = Ok l ->
    exists l', run id l (text_match_go (text_match_new_ci table)) = Ok l'
      /\ query l' t = Ok (rows_by (ll_tokens l) (fun text _ => last_entry_values (fun k => same_ignoring_case k text) table)).
Proof.
  intros t tg sz input l id table HW HN N1 N2 HC. eapply text_match_rows; eauto. intros lg H. now apply thm_C38_last_wins.
Qed.

(** C45: the keywords reported. *)
Lemma thm_C45_created :
  forall tg sz input l id r,
    Forall wf_input input -> none_of TKeyword input -> create_line_from_input_tokens tg input sz = Ok l ->
    exists f l', run id l (clause_keyword_go r) = Ok l'
      /\ query l' TKeyword = Ok (rows_by (ll_tokens l) (fun text _ => f text)) /\ forall text, keywords_for r text (f text).
Proof.
  intros tg sz input l id r HW HN HC. destruct (created_fresh tg sz input l HW HC) as (lg & H & HP & HF).
  destruct (clause_keyword_run id l lg r H) as (l' & E & ET & H'). rewrite <- ET in H'.
  exists (fun text => opt_list (keyword_of r text)), l'. split; [exact E|]. split.
  - rewrite <- ET. apply (fresh_tokens (t := TKeyword) l' lg _ (fun text _ => opt_list (keyword_of r text)) H'); auto.
    apply HF; auto; discriminate.
  - intros text. unfold keywords_for. destruct (keyword_of r text) as [k|] eqn:EK.
    + left. exists k. split; [reflexivity|]. now apply keyword_of_spec.
    + right. split; [reflexivity|]. intros k Hk. apply keyword_of_spec in Hk. congruence.
Qed.

(** C50: the parts of speech reported. *)
Lemma thm_C50_created :
  forall tg sz input l id dict noun,
    Forall wf_input input -> none_of TTextTag input -> none_of TPos input ->
    create_line_from_input_tokens tg input sz = Ok l ->
    exists l', run id l (pos_go dict noun) = Ok l'
      /\ query l' TPos = Ok (rows_by (ll_tokens l) (fun text tag =>
            match tag with
            | WORD => match dict (u_lower text) with Some tags => tags | None => [noun] end
            | _ => []
            end)).
Proof.
  intros tg sz input l id dict noun HW HT HN HC. destruct (created_fresh tg sz input l HW HC) as (lg & H & HP & HF).
  pose proof (plain_plain_tags l lg (HP _ HT)) as PT.
  destruct (thm_C50_tags id l lg dict noun H) as (l' & E & ET & H'). rewrite <- ET in H'. exists l'. split; [exact E|].
  rewrite <- ET. eapply (fresh_tokens (t := TPos) l' lg _ _ H').
  - apply HF; auto; discriminate.
  - intros i tok text tag Hn Et. rewrite ET in Hn. unfold tagged. rewrite (PT i tok text tag Hn Et).
    destruct tag; cbn; rewrite ?app_nil_r; reflexivity.
Qed.

End ThmEnd.
