(** C99: what more keywords, more delimiters and more table entries do. *)

From Verif Require Export SpecFiner ThmEnd ThmPass.

Local Open Scope list_scope.

Section Finer.
Context {UC : Unicode} {U : UserTypes}.

(** ** Keywords *)

Lemma classified_configured r text k : classified r text k -> configured r (u_lower text).
Proof. unfold configured. destruct k; cbn; tauto. Qed.
Lemma configured_classified r text : configured r (u_lower text) -> exists k, classified r text k.
Proof.
  intros H. destruct (in_dec (list_eq_dec N.eq_dec) (u_lower text) (kw_cond_start r)) as [A|A]; [exists KConditionStart; exact A|].
  destruct (in_dec (list_eq_dec N.eq_dec) (u_lower text) (kw_then r)) as [B|B]; [exists KThen; split; assumption|].
  exists KAnd. unfold configured in H. cbn. tauto.
Qed.
Lemma separates_more toks r r' i : more_words r r' -> separates toks r i -> separates toks r' i.
Proof.
  intros M [(k & text & Ht & Hk)|H]; [left|now right]. destruct (configured_classified r' text) as (k' & Hk'); [apply M; eapply classified_configured; exact Hk|].
  exists k', text. split; assumption.
Qed.

Lemma separates_dec toks r i : separates toks r i \/ ~ separates toks r i.
Proof.
  destruct (nth_error toks i) as [tok|] eqn:E.
  2: { right. intros [(k & text & (tok & x & Ht & _) & _)|(tok & x & Ht & _)]; rewrite E in Ht; discriminate Ht. }
  destruct (token tok) as [text tag|] eqn:Et.
  2: { right. intros [(k & text & (tok' & x & Ht & Hx) & _)|(tok' & x & Ht & Hx)]; rewrite E in Ht; injection Ht as <-; rewrite Et in Hx; discriminate Hx. }
  destruct (in_dec (list_eq_dec N.eq_dec) (u_lower text) (kw_cond_start r ++ kw_then r ++ kw_and r)) as [A|A].
  - left. left. rewrite !in_app_iff in A. destruct (configured_classified r text) as (k & Hk); [unfold configured; tauto|]. exists k, text. split; [|exact Hk]. now exists tok, tag.
  - destruct tag eqn:Etag; try (right; intros [(k & text' & (tok' & x & Ht & Hx) & Hk)|(tok' & x & Ht & Hx)]; rewrite E in Ht; injection Ht as <-; rewrite Et in Hx;
      [injection Hx as <- _; apply A; rewrite !in_app_iff; apply classified_configured in Hk; exact Hk|discriminate Hx]).
    left. right. now exists tok, text.
Qed.

Lemma blank_dec toks i : tag_at toks i SPACE \/ ~ tag_at toks i SPACE.
Proof.
  destruct (nth_error toks i) as [tok|] eqn:E; [|right; intros (tok & x & Ht & _); rewrite E in Ht; discriminate Ht].
  destruct (token tok) as [text tag|] eqn:Et; [|right; intros (tok' & x & Ht & Hx); rewrite E in Ht; injection Ht as <-; rewrite Et in Hx; discriminate Hx].
  destruct tag eqn:Etag; try (right; intros (tok' & x & Ht & Hx); rewrite E in Ht; injection Ht as <-; rewrite Et in Hx; discriminate Hx).
  left. now exists tok, text.
Qed.

(** A stretch with the more keywords is inside one with the fewer. *)
Lemma stretch_inside toks r r' lo' hi' : more_words r r' -> stretch toks r' lo' hi' -> exists lo hi, stretch toks r lo hi /\ lo <= lo' /\ hi' <= hi.
Proof.
  intros M (B & HN & _ & _). destruct (stretch_of toks r lo') as (lo & hi & (B' & HN' & HL & HR) & Hi).
  - lia.
  - intros C. apply (HN lo'); [lia|]. now apply (separates_more toks r r').
  - intros j. apply separates_dec.
  - exists lo, hi. split; [split; [exact B'|split; [exact HN'|split; assumption]]|]. split; [lia|].
    destruct (Nat.le_gt_cases hi' hi) as [L|L]; [exact L|]. exfalso. destruct HR as [HR|HR]; [lia|]. apply (HN (hi + 1)); [lia|]. now apply (separates_more toks r r').
Qed.
Lemma trimmed_inside toks lo hi lo' hi' a' b' : lo <= lo' -> hi' <= hi -> without_end_spaces toks lo' hi' a' b' ->
  exists a b, without_end_spaces toks lo hi a b /\ a <= a' /\ b' <= b.
Proof.
  intros L R (O & A & B).
  assert (exists a, ((tag_at toks lo SPACE /\ a = lo + 1) \/ (~ tag_at toks lo SPACE /\ a = lo)) /\ a <= a') as (a & Ha & La).
  { destruct (Nat.eq_dec lo lo') as [<-|N]; [exists a'; split; [exact A|lia]|]. destruct (blank_dec toks lo) as [S|S]; [exists (lo + 1)|exists lo]; (split; [tauto|]); destruct A as [[_ ->]|[_ ->]]; lia. }
  assert (exists b, ((tag_at toks hi SPACE /\ b + 1 = hi) \/ (~ tag_at toks hi SPACE /\ b = hi)) /\ b' <= b) as (b & Hb & Lb).
  { destruct (Nat.eq_dec hi hi') as [<-|N]; [exists b'; split; [exact B|lia]|]. destruct (blank_dec toks hi) as [S|S]; [exists (hi - 1)|exists hi]; split; try (destruct B as [[_ E]|[_ E]]; lia); [left|right]; (split; [exact S|lia]). }
  exists a, b. split; [|split; assumption]. split; [lia|]. split; assumption.
Qed.

Lemma ordered_within {V} (rows : list (LRange * str * list V)) x y i : in_order rows -> In x rows -> In y rows ->
  fst (fst (fst x)) <= i <= snd (fst (fst x)) -> fst (fst (fst y)) <= i <= snd (fst (fst y)) -> x = y.
Proof.
  unfold in_order. induction rows as [|z rows IH]; intros HO Hx Hy Lx Ly; [destruct Hx|]. inversion HO as [|? ? HO' HF]; subst. rewrite Forall_forall in HF.
  destruct Hx as [<-|Hx], Hy as [<-|Hy]; [reflexivity|exfalso; apply HF in Hy|exfalso; apply HF in Hx|auto];
    destruct z as [[[? ?] ?] ?]; (destruct y as [[[? ?] ?] ?] || destruct x as [[[? ?] ?] ?]); cbn [fst snd] in *; lia.
Qed.

(** C99: with more keywords every clause lies in one that was there before; where there is no new
    separator, the clause is still there. *)
Lemma thm_C99_clauses :
  forall tg sz input l r r' id1 id2 id1' id2' l1 l2 l1' l2',
    Forall wf_input input -> none_of TKeyword input -> none_of TTextTag input -> none_of TClause input ->
    create_line_from_input_tokens tg input sz = Ok l -> more_words r r' ->
    run id1 l (clause_keyword_go r) = Ok l1 -> run id2 l1 clause_go = Ok l2 ->
    run id1' l (clause_keyword_go r') = Ok l1' -> run id2' l1' clause_go = Ok l2' ->
    exists rows rows', query l2 TClause = Ok rows /\ query l2' TClause = Ok rows'
      /\ (forall x', In x' rows' -> exists! x, In x rows /\ lies_in x' x)
      /\ forall a b text cs, In ((a, b), text, cs) rows ->
           (forall i, a <= i + 1 -> i <= b + 1 -> separates (ll_tokens l) r' i -> separates (ll_tokens l) r i) ->
           exists cs', In ((a, b), text, cs') rows'.
Proof.
  intros tg sz input l r r' id1 id2 id1' id2' l1 l2 l1' l2' W N1 N2 N3 E M R1 R2 R1' R2'.
  destruct (thm_C49_exact tg sz input l r id1 id2 l1 l2 W N1 N2 N3 E R1 R2) as (rows & Q & HO & HX).
  destruct (thm_C49_exact tg sz input l r' id1' id2' l1' l2' W N1 N2 N3 E R1' R2') as (rows' & Q' & HO' & HX').
  exists rows, rows'. split; [exact Q|]. split; [exact Q'|]. split.
  - intros [[[a' b'] text'] cs'] Hin. destruct (proj1 (HX' a' b' text') (ex_intro _ cs' Hin)) as (_ & lo' & hi' & HS' & HT').
    destruct (stretch_inside _ r r' lo' hi' M HS') as (lo & hi & HS & L & R). destruct (trimmed_inside _ lo hi lo' hi' a' b' L R HT') as (a & b & HT & La & Lb).
    destruct (proj2 (HX a b (text_between (ll_tokens l) a b))) as (cs & Hc); [split; [reflexivity|]; exists lo, hi; split; assumption|].
    exists ((a, b), text_between (ll_tokens l) a b, cs). split; [split; [exact Hc|split; assumption]|].
    intros y (Hy & Wy1 & Wy2). apply (ordered_within rows _ y a' HO Hc Hy); cbn [fst snd] in *; destruct HT' as (? & _); lia.
  - intros a b text cs Hin HN. destruct (proj1 (HX a b text) (ex_intro _ cs Hin)) as (-> & lo & hi & (B & S & HL & HR) & HT).
    apply HX'. split; [reflexivity|]. exists lo, hi. split; [|exact HT]. destruct HT as (O & A & Bb).
    split; [exact B|]. split; [|split].
    + intros i Hi C. apply (S i Hi). apply HN; [| |exact C]; destruct A as [[_ ->]|[_ ->]], Bb as [[_ Eb]|[_ Eb]]; lia.
    + destruct HL as [HL|HL]; [now left|right]. now apply (separates_more _ r r').
    + destruct HR as [HR|HR]; [now left|right]. now apply (separates_more _ r r').
Qed.

(** ** Delimiters *)

(** A token that was something else may now be a delimiter. *)
Definition mark_more (m m' : NMark) : Prop := m' = m \/ (m = NOther /\ m' = NDelimiter).

Lemma marks_more l r r' ms ms' : more_delimiters r r' -> number_marks l r ms -> number_marks l r' ms' -> Forall2 mark_more ms ms'.
Proof.
  intros (HD & HI & HP) [L H] [L' H']. rewrite <- L in L'.
  assert (G : forall i m m', nth_error ms i = Some m -> nth_error ms' i = Some m' -> mark_more m m').
  { intros i m m' Em Em'. destruct (nth_error (ll_tokens l) i) as [tok|] eqn:Et.
    2: { apply nth_error_None in Et. rewrite <- L in Et. apply nth_error_None in Et. rewrite Et in Em. discriminate Em. }
    specialize (H i m tok Em Et). specialize (H' i m' tok Em' Et). unfold number_mark in H, H'. destruct (token tok) as [text tag|].
    - destruct m, m'; try contradiction; unfold mark_more; try (left; reflexivity); try (right; split; reflexivity);
        try (destruct H as [-> ->], H' as [? ?]; congruence); try (destruct H as [? ?], H' as [? ?]; congruence).
      + destruct H as [_ ->], H' as [_ ->]. now left.
      + destruct H as (_ & c & -> & Hc), H' as (_ & Hd & Hn). injection Hd as ->. exfalso. apply Hn. now apply HI.
      + destruct H as (_ & c & -> & Hc), H' as (_ & Hn). exfalso. apply (Hn c eq_refl). right. now apply HI.
      + destruct H as (_ & -> & Hn), H' as (_ & c & Hc & Hd). injection Hc as <-. exfalso. apply Hn. now apply HP.
      + destruct H as (_ & -> & Hn), H' as (_ & Hm). exfalso. apply (Hm _ eq_refl). left. exact HD.
      + destruct H as (_ & Hn), H' as (_ & -> & _). exfalso. apply (Hn _ eq_refl). left. now symmetry.
    - destruct m, m'; try contradiction; unfold mark_more; left; reflexivity. }
  clear L H H'. revert ms' L' G. induction ms as [|m ms IH]; intros [|m' ms'] L G; try discriminate L; constructor.
  - exact (G 0 m m' eq_refl eq_refl).
  - apply IH; [now injection L|]. intros i. exact (G (S i)).
Qed.

(** What has been read with the fewer delimiters and with the more: [g] are the amounts that were
    finished since the other began. *)
Inductive reading_more : list (LRange * str) -> Reading -> Reading -> Prop :=
| RM_idle : reading_more [] Idle Idle
| RM_digits g s e text s' text' : put_together (g ++ [((s, e), text)]) ((s', e), text') -> reading_more g (Digits s e text) (Digits s' e text')
| RM_delimited g s e text s' text' : put_together (g ++ [((s, e), text)]) ((s', e), text') -> reading_more g (Delimited s e text) (Delimited s' e text')
| RM_pointed g s e text s' text' : put_together (g ++ [((s, e), text)]) ((s', e), text') -> reading_more g (Pointed s e text) (Pointed s' e text')
| RM_new g s' e' text' : put_together g ((s', e'), text') -> reading_more g Idle (Delimited s' e' text').

Lemma put_together_one rg text : put_together [(rg, text)] (rg, text).
Proof. destruct rg. exists ((n, n0), text), ((n, n0), text). cbn. rewrite app_nil_r. auto. Qed.
Lemma last_one {A} (g : list A) x : nth_error (g ++ [x]) (length (g ++ [x]) - 1) = Some x.
Proof. rewrite app_length. cbn [length]. rewrite nth_error_app2 by lia. replace (length g + 1 - 1 - length g) with 0 by lia. reflexivity. Qed.
Lemma put_together_on g s e text s' e' text' i t : put_together (g ++ [((s, e), text)]) ((s', e'), text') -> put_together (g ++ [((s, i), text ++ t)]) ((s', i), text' ++ t).
Proof.
  intros (f & z & Hf & Hz & E & ET). rewrite last_one in Hz. injection Hz as <-. cbn [fst snd] in *. injection E as -> ->.
  destruct g as [|f' g].
  - cbn in Hf. injection Hf as <-. exists ((s, i), text ++ t), ((s, i), text ++ t). cbn in *. rewrite !app_nil_r in *. now subst.
  - cbn in Hf. injection Hf as ->. exists f, ((s, i), text ++ t). split; [reflexivity|]. split; [apply last_one|]. split; [reflexivity|]. cbn [snd]. rewrite ET, !map_app, !concat_app. cbn [map snd concat]. rewrite !app_nil_r, <- app_assoc. reflexivity.
Qed.
Lemma put_together_next g s' e' text' i t : put_together g ((s', e'), text') -> put_together (g ++ [((i, i), t)]) ((s', i), text' ++ t).
Proof.
  intros (f & z & Hf & Hz & E & ET). cbn [fst snd] in *. injection E as -> ->. destruct g as [|f' g]; [discriminate Hf|]. cbn in Hf. injection Hf as ->.
  exists f, ((i, i), t). split; [reflexivity|]. split; [apply last_one|]. split; [reflexivity|]. cbn [snd]. rewrite map_app, concat_app, ET. cbn. now rewrite app_nil_r.
Qed.

Lemma grouped_one g x : put_together g x -> grouped g [x].
Proof. intros H. rewrite <- (app_nil_r g). constructor; [exact H|constructor]. Qed.

Lemma at_end_more g st st' : reading_more g st st' -> grouped (g ++ SpecPass.at_end st) (SpecPass.at_end st').
Proof.
  intros H. destruct H; cbn [SpecPass.at_end]; try (apply grouped_one; exact H).
  - constructor.
  - apply grouped_one. eapply put_together_on. exact H.
  - rewrite app_nil_r. now apply grouped_one.
Qed.

(** One token: what is finished with the more delimiters takes up all that was finished with the fewer. *)
Definition moved_on (g done : list (LRange * str)) (st : Reading) (done' : list (LRange * str)) (st' : Reading) : Prop :=
  (done' = [] /\ reading_more (g ++ done) st st') \/ exists x, done' = [x] /\ put_together (g ++ done) x /\ reading_more [] st st'.

Lemma read_more g st st' i m m' done' st1' : reading_more g st st' -> mark_more m m' -> read st' i m' = Some (done', st1') ->
  exists done st1, read st i m = Some (done, st1) /\ moved_on g done st1 done' st1'.
Proof.
  intros HR [->|[-> ->]] E.
  - destruct HR, m; cbn [read] in *; try discriminate E; injection E as <- <-; do 2 eexists; (split; [reflexivity|]);
      try (left; split; [reflexivity|]; rewrite ?app_nil_r; cbn [app]; econstructor; first [eassumption|apply put_together_one|eapply put_together_on; eassumption|eapply put_together_next; eassumption]);
      try (right; eexists; split; [reflexivity|]; split; [|constructor]; rewrite ?app_nil_r; first [eassumption|eapply put_together_on; eassumption|rewrite ?app_assoc; eapply put_together_on; eassumption]).
    all: idtac.
  - destruct HR; cbn [read] in *; injection E as <- <-; do 2 eexists; (split; [reflexivity|]);
      try (left; split; [reflexivity|]; rewrite ?app_nil_r; econstructor; eassumption);
      try (right; eexists; split; [reflexivity|]; split; [|constructor]; rewrite ?app_nil_r; first [eassumption|eapply put_together_on; eassumption]).
Qed.

Lemma pass_more ms ms' : Forall2 mark_more ms ms' -> forall g st st' i ys, reading_more g st st' -> whole_pass st' i ms' = Some ys ->
  exists xs, whole_pass st i ms = Some xs /\ grouped (g ++ xs) ys.
Proof.
  induction 1 as [|m m' ms ms' Hm _ IH]; intros g st st' i ys HR E.
  - unfold whole_pass in *. cbn in *. injection E as <-. exists (SpecPass.at_end st). split; [reflexivity|]. now apply at_end_more.
  - unfold whole_pass in *. cbn [pass] in *. destruct (read st' i m') as [[done' st1']|] eqn:Er; [|discriminate E].
    destruct (read_more g st st' i m m' done' st1' HR Hm Er) as (done & st1 & Er1 & HM). rewrite Er1.
    destruct (pass st1' (S i) ms') as [[more' last']|] eqn:Ep; [|discriminate E]. cbn in E. injection E as <-.
    specialize (IH (match done' with [] => g ++ done | _ => [] end) st1 st1' (S i) (more' ++ SpecPass.at_end last')).
    destruct IH as (xs & Ex & Hg).
    + destruct HM as [[-> H]|(x & -> & _ & H)]; exact H.
    + rewrite Ep. reflexivity.
    + destruct (pass st1 (S i) ms) as [[more last]|]; [|discriminate Ex]. cbn in Ex. injection Ex as <-. cbn. eexists. split; [reflexivity|].
      destruct HM as [[-> _]|(x & -> & HT & _)]; cbn [app] in *.
      * rewrite <- !app_assoc in *. exact Hg.
      * rewrite <- !app_assoc. rewrite (app_assoc g done). now constructor.
Qed.

(** C99: with more delimiters the amounts are those there were before, neighbours put together. *)
Lemma thm_C99_amounts :
  forall tg sz input l parse r r' id id' l1 l2,
    Forall wf_input input -> none_of TTextTag input -> none_of TChar input -> none_of TAmount input ->
    create_line_from_input_tokens tg input sz = Ok l -> no_digit_signs r -> no_digit_signs r' -> more_delimiters r r' ->
    run id l (amount_go parse r) = Ok l1 -> run id' l (amount_go parse r') = Ok l2 ->
    exists xs ys out out', grouped xs ys /\ parsed parse xs = Some out /\ parsed parse ys = Some out'
      /\ query l1 TAmount = Ok (map (amount_row (ll_tokens l)) out) /\ query l2 TAmount = Ok (map (amount_row (ll_tokens l)) out').
Proof.
  intros tg sz input l parse r r' id id' l1 l2 W N1 N2 N3 E D D' M R1 R2.
  destruct (thm_C82_marks tg sz input l r W E) as (ms & HM & _). destruct (thm_C82_marks tg sz input l r' W E) as (ms' & HM' & _).
  pose proof (thm_C82_pass tg sz input l parse r id ms W N1 N2 N3 E D HM) as P. pose proof (thm_C82_pass tg sz input l parse r' id' ms' W N1 N2 N3 E D' HM') as P'.
  rewrite R1 in P. rewrite R2 in P'. destruct (whole_pass Idle 0 ms') as [ys|] eqn:Ey; [|destruct P' as (p & C); discriminate C].
  destruct (pass_more ms ms' (marks_more l r r' ms ms' M HM HM') [] Idle Idle 0 ys RM_idle Ey) as (xs & Ex & HG). rewrite Ex in P.
  destruct (parsed parse xs) as [out|] eqn:Eo; [|destruct P as (p & C); discriminate C]. destruct (parsed parse ys) as [out'|] eqn:Eo'; [|destruct P' as (p & C); discriminate C].
  destruct P as (l1' & C & Q). injection C as <-. destruct P' as (l2' & C & Q'). injection C as <-.
  exists xs, ys, out, out'. split; [exact HG|]. split; [exact Eo|]. split; [exact Eo'|]. split; assumption.
Qed.

(** ** Tables *)

Lemma rows_by_In {V} toks (f g : str -> TextTag -> list V) : (forall text tag, f text tag <> [] -> g text tag = f text tag) ->
  forall x, In x (rows_by toks f) -> In x (rows_by toks g).
Proof.
  intros H x. unfold rows_by. generalize 0. induction toks as [|tok toks IH]; intros i Hx; [exact Hx|]. cbn [enumerate_from filter_map] in *.
  destruct (token tok) as [text tag|]; [|now apply IH]. specialize (H text tag). destruct (f text tag) as [|v vs] eqn:Ef.
  - destruct (g text tag); [|right]; now apply IH.
  - rewrite H by discriminate. destruct Hx as [<-|Hx]; [now left|right; now apply IH].
Qed.

Lemma entry_values_of {V} (table : list (str * list V)) k vs : NoDup (map fst table) -> In (k, vs) table -> entry_values (fun k' => str_eqb k' k) table = vs.
Proof.
  unfold entry_values. induction table as [|[k1 vs1] table IH]; intros HN Hin; [destruct Hin|]. cbn [map fst] in HN. inversion HN as [|? ? N1 N2]; subst. cbn [flat_map].
  destruct Hin as [[= -> ->]|Hin].
  - rewrite (proj2 (str_eqb_spec k k) eq_refl). rewrite <- (app_nil_r vs) at 2. f_equal. clear - N1. induction table as [|[k1 vs1] table IH]; [reflexivity|]. cbn [map fst flat_map] in *.
    destruct (str_eqb k1 k) eqn:E; [apply str_eqb_spec in E; subst; exfalso; apply N1; now left|]. apply IH. intros C. apply N1. now right.
  - destruct (str_eqb k1 k) eqn:E; [|now apply IH]. apply str_eqb_spec in E. subst k1. exfalso. apply N1. apply in_map_iff. now exists (k, vs).
Qed.
Lemma entry_values_some {V} (table : list (str * list V)) k : NoDup (map fst table) -> entry_values (fun k' => str_eqb k' k) table <> [] ->
  In (k, entry_values (fun k' => str_eqb k' k) table) table.
Proof.
  intros HN H. assert (exists vs, In (k, vs) table) as (vs & Hin).
  { clear HN. unfold entry_values in H. induction table as [|[k1 vs1] table IH]; [now destruct H|]. cbn [flat_map] in H. destruct (str_eqb k1 k) eqn:E.
    - apply str_eqb_spec in E. subst. exists vs1. now left.
    - destruct (IH H) as (vs & Hin). exists vs. now right. }
  now rewrite (entry_values_of table k vs HN Hin).
Qed.

(** C99: a table with more entries loses no match. *)
Lemma thm_C99_tables :
  forall t tg sz input l id id' (table table' : list (str * list (den t))),
    Forall wf_input input -> none_of t input -> t <> TChar -> t <> TTextTag ->
    create_line_from_input_tokens tg input sz = Ok l -> NoDup (map fst table) -> NoDup (map fst table') -> incl table table' ->
    exists l1 l2 rows rows', run id l (text_match_go (text_match_new table)) = Ok l1 /\ run id' l (text_match_go (text_match_new table')) = Ok l2
      /\ query l1 t = Ok rows /\ query l2 t = Ok rows' /\ incl rows rows'.
Proof.
  intros t tg sz input l id id' table table' W N1 N2 N3 E D D' I.
  destruct (thm_C37_created t tg sz input l id table W N1 N2 N3 E D) as (l1 & R1 & Q1). destruct (thm_C37_created t tg sz input l id' table' W N1 N2 N3 E D') as (l2 & R2 & Q2).
  do 4 eexists. split; [exact R1|]. split; [exact R2|]. split; [exact Q1|]. split; [exact Q2|]. intros x. apply rows_by_In. intros text _ H.
  apply (entry_values_of table' text _ D'). apply I. now apply entry_values_some.
Qed.
(** C99: nor does one that ignores case, if the new entries are put before the old. *)
Lemma thm_C99_tables_ci :
  forall t tg sz input l id id' (table new : list (str * list (den t))),
    Forall wf_input input -> none_of t input -> t <> TChar -> t <> TTextTag ->
    create_line_from_input_tokens tg input sz = Ok l ->
    exists l1 l2 rows rows', run id l (text_match_go (text_match_new_ci table)) = Ok l1 /\ run id' l (text_match_go (text_match_new_ci (new ++ table))) = Ok l2
      /\ query l1 t = Ok rows /\ query l2 t = Ok rows' /\ incl rows rows'.
Proof.
  intros t tg sz input l id id' table new W N1 N2 N3 E.
  destruct (thm_C38_created t tg sz input l id table W N1 N2 N3 E) as (l1 & R1 & Q1). destruct (thm_C38_created t tg sz input l id' (new ++ table) W N1 N2 N3 E) as (l2 & R2 & Q2).
  do 4 eexists. split; [exact R1|]. split; [exact R2|]. split; [exact Q1|]. split; [exact Q2|]. intros x. apply rows_by_In. intros text _ H.
  unfold last_entry_values in *. rewrite filter_app, rev_app_distr. destruct (rev (filter _ table)) as [|[k vs] es] eqn:Er; [now destruct H|reflexivity].
Qed.

End Finer.
