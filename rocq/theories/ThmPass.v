(** C82: the amounts of a line by one pass over its tokens. *)

From Verif Require Export SpecPass ThmSeam ThmOrder.

Local Open Scope list_scope.

Section ThmPass.
Context {UC : Unicode} {U : UserTypes}.

(** ** Marks *)

Lemma In_char_dec (c : char) (cs : list char) : In c cs \/ ~ In c cs.
Proof. destruct (in_dec N.eq_dec c cs); auto. Qed.

Section Line.
Context (l : LLLine) (lg : list entry) (r : AmountResolver) (ms : list NMark).
Context (H : History l lg) (HPr : proper lg) (PT : plain TTextTag l lg) (PC : plain TChar l lg).
Context (AP : numbers_apart l lg r) (HM : number_marks l r ms).

Lemma bare_iff i : bare l i <-> ~ attributed i lg.
Proof.
  unfold bare, attributed. split.
  - intros HB Hin. apply in_map_iff in Hin. destruct Hin as ([rg [t v]] & E & Hin). cbn [fst] in E. subst rg.
    pose proof (proper_query l lg t H HPr) as EQ.
    apply (HB t _ ((i, i), text_between (ll_tokens l) i i, values_on t (i, i) lg) EQ); [|reflexivity].
    unfold query_spec. apply in_map_iff. exists (i, i). split; [reflexivity|]. apply ranges_of_In. exists v. exact Hin.
  - intros HN t rows x EQ Hx E. apply HN. rewrite (proper_query l lg t H HPr) in EQ. injection EQ as <-.
    unfold query_spec in Hx. apply in_map_iff in Hx. destruct Hx as (rg & <- & Hin). cbn [fst] in E. subst rg.
    apply ranges_of_In in Hin. destruct Hin as (v & Hin). apply in_map_iff. eexists. split; [|exact Hin]. reflexivity.
Qed.

Lemma mark_at i m : nth_error ms i = Some m -> exists tok, nth_error (ll_tokens l) i = Some tok /\ number_mark l r i m tok.
Proof.
  intros E. destruct HM as (HL & HX). destruct (nth_error (ll_tokens l) i) as [tok|] eqn:En.
  - exists tok. split; [reflexivity|]. now apply (HX i).
  - exfalso. apply nth_error_None in En. apply nth_error_lt_rev in E. lia.
Qed.

Lemma text_readable i tok text tag : nth_error (ll_tokens l) i = Some tok -> token tok = LText text tag -> attributed i lg.
Proof.
  intros En Et. destruct (attributed_dec i lg) as [|N]; auto. exfalso.
  apply (thm_C18_unattributed l lg i H (nth_error_lt_rev _ _ _ En)) in N. destruct N as (tok' & En' & Et' & _). congruence.
Qed.

Lemma text_facts i tok text tag : nth_error (ll_tokens l) i = Some tok -> token tok = LText text tag ->
  (is_number l lg i <-> tag = NATN) /\ (forall cs, has_char lg cs i <-> exists c, text = [c] /\ In c cs).
Proof.
  intros En Et. split.
  - rewrite (is_number_plain l lg i PT). unfold number_at, tag_at. split.
    + intros (tok' & text' & En' & Et'). congruence.
    + intros ->. eauto.
  - intros cs. rewrite (has_char_plain l lg cs i PC). unfold char_at, text_at. split.
    + intros (c & (tok' & tag' & En' & Et') & Hc). exists c. split; [congruence|exact Hc].
    + intros (c & -> & Hc). exists c. split; [eauto|exact Hc].
Qed.

Lemma value_facts i tok : nth_error (ll_tokens l) i = Some tok -> token tok = LValue ->
  ~ is_number l lg i /\ forall cs, ~ has_char lg cs i.
Proof.
  intros En Et. split.
  - rewrite (is_number_plain l lg i PT). intros (tok' & text' & En' & Et'). congruence.
  - intros cs. rewrite (has_char_plain l lg cs i PC). intros (c & (tok' & tag' & En' & Et') & Hc). congruence.
Qed.

Lemma mark_number i t : nth_error ms i = Some (NNumber t) -> number l lg i t /\ readable l lg i.
Proof.
  intros E. apply mark_at in E. destruct E as (tok & En & Hm). unfold number_mark in Hm. destruct (token tok) as [text tag|] eqn:Et; [|contradiction].
  destruct Hm as (-> & ->). split; [|intros _; eapply text_readable; eauto].
  apply (number_plain l lg i text PT). split; [exists tok, NATN; auto|exists tok, text; auto].
Qed.

Lemma mark_other i m : nth_error ms i = Some m -> (forall t, m <> NNumber t) ->
  ~ is_number l lg i
  /\ (is_delimiter lg r i <-> m = NDelimiter) /\ (m = NPoint -> is_decimal lg r i) /\ (m = NOther \/ m = NBare -> ~ is_decimal lg r i)
  /\ (readable l lg i <-> m <> NBare).
Proof.
  intros E HN. pose proof (nth_error_lt_rev _ _ _ E) as LM. rewrite (proj1 HM) in LM. apply mark_at in E. destruct E as (tok & En & Hm). unfold number_mark in Hm.
  unfold readable. destruct (token tok) as [text tag|] eqn:Et.
  - destruct (text_facts i tok text tag En Et) as (FN & FC). unfold is_delimiter, is_decimal. rewrite FN, !FC.
    assert (TA : attributed i lg) by (eapply text_readable; eauto).
    destruct m as [t| | | |]; [now contradiction (HN t)| | | |contradiction].
    + destruct Hm as (A & B). split; [exact A|]. split; [tauto|]. split; [discriminate|]. split; [intuition discriminate|]. split; [discriminate|auto].
    + destruct Hm as (A & -> & B). split; [exact A|]. split; [split; [|discriminate]|].
      * intros (c & X & Y). injection X as <-. contradiction.
      * split; [intros _; exists (decimal r); split; [reflexivity|now left]|]. split; [intuition discriminate|]. split; [discriminate|auto].
    + destruct Hm as (A & B). split; [exact A|]. split; [split; [|discriminate]|].
      * intros (c & X & Y). exfalso. apply (B c X). now right.
      * split; [discriminate|]. split; [|split; [discriminate|auto]]. intros _ (c & X & [Y|[]]). apply (B c X). left. congruence.
  - destruct (value_facts i tok En Et) as (FN & FC). unfold is_delimiter, is_decimal.
    destruct m as [t| | | |]; try contradiction; (split; [exact FN|]); (split; [split; [intros X; now apply FC in X|discriminate]|]); (split; [discriminate|]); (split; [intros _; apply FC|]).
    + rewrite bare_iff in Hm. split; [discriminate|]. intros _ _. destruct (attributed_dec i lg); tauto.
    + rewrite bare_iff in Hm. split; [intros X; contradiction (Hm (X LM))|intros X; contradiction X; reflexivity].
Qed.

Lemma past_end i : length (ll_tokens l) <= i ->
  ~ is_number l lg i /\ ~ is_delimiter lg r i /\ ~ is_decimal lg r i /\ readable l lg i.
Proof.
  intros L. split; [|split; [|split]].
  - intros (t & X). apply number_lt in X. lia.
  - intros X. apply (has_char_lt l lg H) in X. lia.
  - intros X. apply (has_char_lt l lg H) in X. lia.
  - intros X. lia.
Qed.

(** ** The pass *)

Context (parse : str -> option Decimal).

Lemma amounts_skip i out : ~ is_number l lg i -> amounts l lg r parse (S i) out -> amounts l lg r parse i out.
Proof.
  intros HN HA. inversion HA as [k HX|k s e u text d out' HF HAt HPs HA']; subst.
  - apply AS_none. intros j Hj. destruct (Nat.eq_dec j i) as [->|]; [exact HN|]. apply HX. lia.
  - econstructor; eauto. destruct HF as (A & B & C). split; [lia|]. split; [exact B|].
    intros j Hj. destruct (Nat.eq_dec j i) as [->|]; [exact HN|]. apply C. lia.
Qed.

Lemma first_skip i s : ~ is_number l lg i -> first_number l lg (S i) s -> first_number l lg i s.
Proof.
  intros HN (A & B & C). split; [lia|]. split; [exact B|]. intros j Hj. destruct (Nat.eq_dec j i) as [->|]; [exact HN|]. apply C. lia.
Qed.

Lemma fail_skip i : ~ is_number l lg i -> amounts_fail l lg r parse (S i) -> amounts_fail l lg r parse i.
Proof.
  intros HN HA. inversion HA as [k s e u text HF HAt HPs|k s e text HF HG HRd|k s e u text d HF HAt HPs HA']; subst; apply (first_skip i) in HF; auto.
  - eapply AF_parse; eauto.
  - eapply AF_unreadable; eauto.
  - eapply AF_later; eauto.
Qed.

(** What the pass makes of the rest of the tokens. *)
Definition rest (st : Reading) (i : nat) (xs : list NMark) : option (list (LRange * Decimal)) :=
  match whole_pass st i xs with Some ys => parsed parse ys | None => None end.

Lemma parsed_app xs : forall ys, parsed parse (xs ++ ys)
  = match parsed parse xs, parsed parse ys with Some a, Some b => Some (a ++ b) | _, _ => None end.
Proof.
  induction xs as [|[rg text] xs IH]; intros ys; cbn [app parsed]; [destruct (parsed parse ys); reflexivity|].
  rewrite IH. destruct (parse text), (parsed parse xs), (parsed parse ys); reflexivity.
Qed.

Lemma rest_cons st i m xs : rest st i (m :: xs)
  = match read st i m with
    | None => None
    | Some (done, st') => match parsed parse done, rest st' (S i) xs with Some a, Some b => Some (a ++ b) | _, _ => None end
    end.
Proof.
  unfold rest, whole_pass. cbn [pass]. destruct (read st i m) as [[done st']|]; [|reflexivity].
  destruct (pass st' (S i) xs) as [[more lst]|]; cbn [option_map]; [|destruct (parsed parse done); reflexivity].
  rewrite <- app_assoc, parsed_app. reflexivity.
Qed.

Definition reading_at (st : Reading) (i : nat) : Prop :=
  match st with
  | Idle => True
  | Digits s e text => groups_at l lg r s e text /\ i = e + 1
  | Delimited s e text => groups_at l lg r s e text /\ is_delimiter lg r (e + 1) /\ i = e + 2
  | Pointed s e text => groups_at l lg r s e text /\ ~ is_delimiter lg r (e + 1) /\ is_decimal lg r (e + 1) /\ i = e + 2
  end.

Definition first_then (s : nat) (o : option (list (LRange * Decimal))) : Prop :=
  match o with
  | Some out => exists e u text d out', amount_at l lg r s e u text /\ parse text = Some d /\ amounts l lg r parse (u + 1) out' /\ out = ((s, e), d) :: out'
  | None => (exists e u text, amount_at l lg r s e u text /\ (parse text = None \/ exists d, parse text = Some d /\ amounts_fail l lg r parse (u + 1)))
            \/ exists e text, groups_at l lg r s e text /\ ~ readable l lg (e + 1)
  end.

Definition outcome (st : Reading) (i : nat) (o : option (list (LRange * Decimal))) : Prop :=
  match st with
  | Idle => match o with Some out => amounts l lg r parse i out | None => amounts_fail l lg r parse i end
  | Digits s _ _ | Delimited s _ _ | Pointed s _ _ => first_then s o
  end.

(** One amount, then the rest. *)
Lemma done_then s e u text i xs : amount_at l lg r s e u text -> outcome Idle (u + 1) (rest Idle i xs) ->
  first_then s (match parsed parse [((s, e), text)], rest Idle i xs with Some a, Some b => Some (a ++ b) | _, _ => None end).
Proof.
  intros HA HO. cbn [parsed]. destruct (parse text) as [d|] eqn:EP; cbn [first_then].
  - destruct (rest Idle i xs) as [out|]; cbn [outcome] in HO.
    + exists e, u, text, d, out. auto.
    + left. exists e, u, text. split; [exact HA|]. right. eauto.
  - left. exists e, u, text. auto.
Qed.

Lemma idle_skip i o : ~ is_number l lg i -> outcome Idle (S i) o -> outcome Idle i o.
Proof. intros HN. destruct o; cbn [outcome]; [now apply amounts_skip|now apply fail_skip]. Qed.

Lemma rest_outcome : forall xs pre st i, ms = pre ++ xs -> length pre = i -> reading_at st i -> outcome st i (rest st i xs).
Proof.
  induction xs as [|m xs IH]; intros pre st i E L HS.
  - assert (LE : length (ll_tokens l) <= i) by (rewrite <- (proj1 HM), E, app_nil_r; lia).
    assert (EI : forall j, i <= j -> rest Idle j [] = Some [] /\ outcome Idle j (rest Idle j [])).
    { intros j Hj. split; [reflexivity|]. cbn. apply AS_none. intros k Hk. apply past_end. lia. }
    assert (DT : forall s e u text, amount_at l lg r s e u text -> i <= u + 1 ->
      first_then s (parsed parse [((s, e), text)])).
    { intros s e u text HA Hu. pose proof (done_then s e u text (u + 1) [] HA (proj2 (EI (u + 1) Hu))) as X. rewrite (proj1 (EI (u + 1) Hu)) in X.
      destruct (parsed parse [((s, e), text)]) as [a|]; [now rewrite app_nil_r in X|exact X]. }
    destruct st as [|s e text|s e text|s e text]; cbn [reading_at] in HS; unfold rest, whole_pass; cbn [pass option_map at_end app].
    + apply EI. lia.
    + destruct HS as (HG & ->). apply (DT s e e); [|lia]. destruct (past_end (e + 1) LE) as (A & B & C & D). now apply A_groups.
    + destruct HS as (HG & HD & ->). apply (DT s e (e + 1)); [|lia]. destruct (past_end (e + 2) LE) as (A & _). now apply A_delimiter.
    + destruct HS as (HG & HD & HP & ->). apply (DT s e (e + 1)); [|lia]. destruct (past_end (e + 2) LE) as (A & _). now apply A_point.
  - assert (En : nth_error ms i = Some m) by (rewrite E, nth_error_app2 by lia; now replace (i - length pre) with 0 by lia).
    assert (IH' : forall st, reading_at st (S i) -> outcome st (S i) (rest st (S i) xs)).
    { intros st' HS'. apply (IH (pre ++ [m])); auto; [now rewrite <- app_assoc|rewrite app_length; simpl; lia]. }
    pose proof (IH' Idle I) as IHI. rewrite rest_cons.
    assert (ID : forall o, match parsed parse [], o with Some a, Some b => Some (a ++ b) | _, _ => None end = o :> option (list (LRange * Decimal))) by (intros [o|]; reflexivity).
    destruct m as [t| | | |]; [destruct (mark_number i t En) as (FN & FR)| | | |].
    1:{ assert (FI : is_number l lg i) by (now exists t). destruct (AP i FI) as (NDl & NDc).
        destruct st as [|s e text|s e text|s e text]; cbn [read reading_at] in *.
        - rewrite ID. assert (HX := IH' (Digits i i t) ltac:(split; [now apply G_one|lia])). cbn [outcome] in *.
          assert (FF : first_number l lg i i) by (split; [lia|]; split; [exact FI|]; intros; lia).
          destruct (rest (Digits i i t) (S i) xs) as [out|]; cbn [first_then] in HX.
          + destruct HX as (e & u & text & d & out' & A & B & C & ->). econstructor; eauto.
          + destruct HX as [(e & u & text & A & [B|(d & B & C)])|(e & text & A & B)].
            * eapply AF_parse; eauto.
            * eapply AF_later; eauto.
            * eapply AF_unreadable; eauto.
        - destruct HS as (HG & ->). cbn [outcome]. apply (done_then s (e + 1) (e + 1)); [now apply A_adjacent|]. now replace (e + 1 + 1) with (S (e + 1)) by lia.
        - destruct HS as (HG & HD & ->). rewrite ID. cbn [outcome]. apply (IH' (Digits s (e + 2) (text ++ t))). split; [now apply G_more|lia].
        - destruct HS as (HG & HD & HP & ->). cbn [outcome]. apply (done_then s (e + 2) (e + 2)); [now apply A_decimal|]. now replace (e + 2 + 1) with (S (e + 2)) by lia. }
    all: match type of En with _ = Some ?m => destruct (mark_other i m En ltac:(discriminate)) as (FN & FD & FP & FO & FR) end;
      pose proof (idle_skip i _ FN IHI) as HK.
    all: destruct st as [|s e text|s e text|s e text]; cbn [read reading_at] in *; cbn [outcome].
    all: try (rewrite ID; exact HK).
    all: try (destruct HS as (HG & HD & ->); apply (done_then s e (e + 1)); [now apply A_delimiter|now replace (e + 1 + 1) with (e + 2) by lia]).
    all: try (destruct HS as (HG & HD & HP & ->); apply (done_then s e (e + 1)); [now apply A_point|now replace (e + 1 + 1) with (e + 2) by lia]).
    all: destruct HS as (HG & ->).
    + rewrite ID. apply (IH' (Delimited s e text)). split; [exact HG|]. split; [now apply FD|lia].
    + rewrite ID. apply (IH' (Pointed s e text)). split; [exact HG|]. split; [intros X; apply FD in X; discriminate|]. split; [now apply FP|lia].
    + apply (done_then s e e); [|exact HK]. apply A_groups; auto; [apply FR; discriminate|intros X; apply FD in X; discriminate].
    + cbn [first_then]. right. exists e, text. split; [exact HG|]. rewrite FR. intros X. now apply X.
Qed.

End Line.

(** ** Created lines *)

Lemma created_all tg sz input l : Forall wf_input input -> create_line_from_input_tokens tg input sz = Ok l ->
  exists lg, History l lg /\ proper lg /\ (forall t, none_of t input -> plain t l lg).
Proof.
  intros HW HC. destruct (create_facts tg sz input l HW HC) as (groups & H1 & H2 & _ & HT & HR).
  exists (creation_log (map (map fst) groups) input). split; [eapply H_create; eauto|]. split.
  - unfold creation_log, proper. apply Forall_app. split; [apply tokens_log_proper|]. apply input_log_proper. now apply map_nonempty.
  - intros t HN. unfold plain, creation_log. rewrite LemStore.assigned_app.
    assert (E : forall gs inp k, (forall it, In it inp -> In it input) -> assigned t (input_log k gs inp) = []).
    { induction gs as [|g gs IH]; intros [|it inp] k HI; simpl; auto. rewrite LemStore.assigned_app, IH by (intros; apply HI; now right).
      rewrite app_nil_r. unfold assigned. rewrite filter_map_map. apply filter_map_none. intros a Ha.
      rewrite (HN it a); auto. apply HI. now left. }
    rewrite E by auto. rewrite app_nil_r. do 2 f_equal. rewrite HT, layout_by_tokens. apply concat_map_map.
Qed.

(** C82: the amounts reported are those one pass over the tokens finds; the run fails if the pass does. *)
Lemma thm_C82_pass :
  forall tg sz input l parse r id ms,
    Forall wf_input input -> none_of TTextTag input -> none_of TChar input -> none_of TAmount input ->
    create_line_from_input_tokens tg input sz = Ok l -> no_digit_signs r -> number_marks l r ms ->
    match whole_pass Idle 0 ms with
    | Some xs =>
      match parsed parse xs with
      | Some out => exists l', run id l (amount_go parse r) = Ok l' /\ query l' TAmount = Ok (map (amount_row (ll_tokens l)) out)
      | None => exists p, run id l (amount_go parse r) = Panic p
      end
    | None => exists p, run id l (amount_go parse r) = Panic p
    end.
Proof.
  intros tg sz input l parse r id ms HW HT HCh HA HC HD HM.
  destruct (created_all tg sz input l HW HC) as (lg & H & HPr & HP). pose proof (HP _ HT) as PT. pose proof (HP _ HCh) as PC.
  pose proof (thm_C40_numbers_apart r l lg H PT PC HD) as AP.
  assert (HX : match rest parse Idle 0 ms with
     | Some out => exists l', run id l (amount_go parse r) = Ok l' /\ query l' TAmount = Ok (map (amount_row (ll_tokens l)) out)
     | None => exists p, run id l (amount_go parse r) = Panic p end).
  { pose proof (rest_outcome l lg r ms H HPr PT PC AP HM parse ms [] Idle 0 eq_refl eq_refl I) as HO. cbn [outcome] in HO.
    destruct (rest parse Idle 0 ms) as [out|].
    - pose proof (amounts_run parse r id l lg out H HO) as (l' & E & ET & H').
      destruct (thm_C39_ordered parse r id l lg l' H E) as (out2 & AM & _ & HS & HB).
      rewrite <- (amounts_fun _ _ _ _ _ _ HO _ AM) in HS, HB.
      exists l'. split; [exact E|].
      assert (HN : assigned TAmount lg = []).
      { pose proof (HP _ HA) as PA. unfold plain in PA. rewrite PA. apply assigned_tokens_none; discriminate. }
      assert (HO' : forall rg v, In (rg, v) out -> fst rg <= snd rg).
      { intros [s e] v Hin. apply HB in Hin. simpl. lia. }
      rewrite (fresh_query (t := TAmount) l' lg out H' HN (sorted_NoDup _ HS HO') HO').
      rewrite ET. f_equal. apply map_ext. intros [[a b] v]. reflexivity.
    - apply (thm_C44_panics_iff parse r id l lg H). exact HO. }
  unfold rest in HX. destruct (whole_pass Idle 0 ms) as [xs|]; [|exact HX]. destruct (parsed parse xs); exact HX.
Qed.

(** C82: every token has one mark. *)
Lemma thm_C82_marks :
  forall tg sz input l r,
    Forall wf_input input -> create_line_from_input_tokens tg input sz = Ok l -> exists! ms, number_marks l r ms.
Proof.
  intros tg sz input l r HW HC. destruct (created_all tg sz input l HW HC) as (lg & H & HPr & _).
  assert (SM : forall i tok, exists m, number_mark l r i m tok /\ forall m', number_mark l r i m' tok -> m = m').
  { intros i tok. unfold number_mark. destruct (token tok) as [text tag|].
    - destruct (TextTag_eq_dec tag NATN) as [->|NN].
      { exists (NNumber text). split; [auto|]. intros [t| | | |]; intuition congruence. }
      assert (HS : (exists c, text = [c]) \/ forall c, text <> [c]).
      { destruct text as [|c [|]]; [right; discriminate|left; eauto|right; discriminate]. }
      destruct HS as [(c & ->)|HN].
      + destruct (In_char_dec c (delimiters r)) as [I|NI].
        { exists NDelimiter. split; [eauto|]. intros [t| | | |] HX; [now destruct HX|reflexivity| | |contradiction].
          - destruct HX as (_ & E & X). injection E as ->. contradiction.
          - destruct HX as (_ & X). exfalso. apply (X c eq_refl). now right. }
        destruct (N.eq_dec c (decimal r)) as [->|ND].
        { exists NPoint. split; [auto|]. intros [t| | | |] HX; [now destruct HX| |reflexivity| |contradiction].
          - destruct HX as (_ & c & E & X). injection E as <-. contradiction.
          - destruct HX as (_ & X). exfalso. apply (X (decimal r) eq_refl). now left. }
        exists NOther. split.
        { split; [exact NN|]. intros c' E [X|X]; injection E as <-; [now symmetry in X|contradiction]. }
        intros [t| | | |] HX; [now destruct HX| | |reflexivity|contradiction].
        * destruct HX as (_ & c' & E & X). injection E as <-. contradiction.
        * destruct HX as (_ & E & _). injection E as E. contradiction.
      + exists NOther. split; [split; [exact NN|]; intros c E; now apply HN in E|].
        intros [t| | | |] HX; [now destruct HX|destruct HX as (_ & c & E & _); now apply HN in E|destruct HX as (_ & E & _); now apply HN in E|reflexivity|contradiction].
    - destruct (attributed_dec i lg) as [A|A].
      + exists NOther. pose proof (bare_iff l lg H HPr i) as BI. split; [tauto|]. intros [t| | | |] HX; solve [reflexivity|tauto].
      + exists NBare. pose proof (bare_iff l lg H HPr i) as BI. split; [tauto|]. intros [t| | | |] HX; solve [reflexivity|tauto]. }
  assert (EX : forall toks k, exists ms, length ms = length toks /\ (forall i m tok, nth_error ms i = Some m -> nth_error toks i = Some tok -> number_mark l r (k + i) m tok)
     /\ forall ms', length ms' = length toks -> (forall i m tok, nth_error ms' i = Some m -> nth_error toks i = Some tok -> number_mark l r (k + i) m tok) -> ms = ms').
  { induction toks as [|tok toks IH]; intros k.
    - exists []. split; [reflexivity|]. split; [intros [|] m tok E; discriminate E|]. intros [|] E; [reflexivity|discriminate E].
    - destruct (SM k tok) as (m & A & B). destruct (IH (S k)) as (ms & C & D & F). exists (m :: ms). split; [simpl; congruence|]. split.
      + intros [|i] m' tok' E1 E2; cbn [nth_error] in *.
        * injection E1 as <-. injection E2 as <-. now rewrite Nat.add_0_r.
        * replace (k + S i) with (S k + i) by lia. eauto.
      + intros [|m' ms'] E HX; [discriminate E|]. f_equal.
        * apply B. specialize (HX 0 m' tok eq_refl eq_refl). now rewrite Nat.add_0_r in HX.
        * apply F; [now injection E|]. intros i m'' tok'' E1 E2. replace (S k + i) with (k + S i) by lia. now apply (HX (S i)). }
  destruct (EX (ll_tokens l) 0) as (ms & A & B & C). exists ms. split; [split; assumption|]. intros ms' (A' & B'). now apply C.
Qed.

(** ** Parts *)

Lemma pass_app xs : forall st i ys, pass st i (xs ++ ys)
  = match pass st i xs with
    | Some (done, st') => option_map (fun '(more, lst) => (done ++ more, lst)) (pass st' (i + length xs) ys)
    | None => None
    end.
Proof.
  induction xs as [|x xs IH]; intros st i ys; cbn [app pass length].
  - rewrite Nat.add_0_r. destruct (pass st i ys) as [[more lst]|]; reflexivity.
  - destruct (read st i x) as [[done st']|]; [|reflexivity]. rewrite IH. replace (S i + length xs) with (i + S (length xs)) by lia.
    destruct (pass st' (S i) xs) as [[more st'']|]; cbn [option_map]; [|reflexivity].
    destruct (pass st'' (i + S (length xs)) ys) as [[rst lst]|]; cbn [option_map]; [now rewrite app_assoc|reflexivity].
Qed.

Lemma bare_joined tg sz i1 i2 l l1 l2 :
  Forall wf_input i1 -> Forall wf_input i2 -> create_line_from_input_tokens tg (i1 ++ i2) sz = Ok l ->
  create_line_from_input_tokens tg i1 sz = Ok l1 -> create_line_from_input_tokens tg i2 sz = Ok l2 ->
  (forall i, i < length (ll_tokens l1) -> (bare l i <-> bare l1 i))
  /\ forall i, bare l (length (ll_tokens l1) + i) <-> bare l2 i.
Proof.
  intros HW1 HW2 H C1 C2. destruct (thm_C55_join tg sz i1 i2 l HW1 HW2 H) as (x1 & x2 & E1 & E2 & _ & HQ).
  assert (x1 = l1) by congruence. assert (x2 = l2) by congruence. subst x1 x2. clear E1 E2.
  destruct (created_all tg sz i1 l1 HW1 C1) as (lg1 & H1 & P1 & _).
  assert (IN1 : forall t rows x, query l1 t = Ok rows -> In x rows -> fst (fst (fst x)) < length (ll_tokens l1)).
  { intros t rows x EQ Hx. rewrite (proper_query l1 lg1 t H1 P1) in EQ. injection EQ as <-. unfold query_spec in Hx.
    apply in_map_iff in Hx. destruct Hx as (rg & <- & Hin). cbn [fst]. apply ranges_of_In in Hin. destruct Hin as (v & Hin).
    pose proof (rp_in _ _ (history_repr _ _ H1)) as RI. unfold in_line in RI. rewrite Forall_forall in RI. specialize (RI _ Hin). cbn [fst] in RI. lia. }
  unfold bare. split.
  - intros i Hi. split; intros HB t rows x EQ Hx; destruct (HQ t) as (q & q1 & q2 & Q & Q1 & Q2 & HP & _).
    + assert (rows = q1) by congruence. subst rows. apply (HB t q x Q). eapply Permutation_in; [apply Permutation_sym, HP|]. apply in_or_app. now left.
    + assert (rows = q) by congruence. subst rows. apply (Permutation_in _ HP) in Hx. apply in_app_iff in Hx. destruct Hx as [Hx|Hx]; [exact (HB t q1 x Q1 Hx)|].
      apply in_map_iff in Hx. destruct Hx as (y & <- & Hy). unfold moved_row, moved_range. cbn [fst]. intros X. injection X as X _. lia.
  - intros i. split; intros HB t rows x EQ Hx; destruct (HQ t) as (q & q1 & q2 & Q & Q1 & Q2 & HP & _).
    + assert (rows = q2) by congruence. subst rows. intros E. apply (HB t q (moved_row (length (ll_tokens l1)) x) Q).
      * eapply Permutation_in; [apply Permutation_sym, HP|]. apply in_or_app. right. now apply in_map.
      * unfold moved_row, moved_range. cbn [fst]. rewrite E. reflexivity.
    + assert (rows = q) by congruence. subst rows. apply (Permutation_in _ HP) in Hx. apply in_app_iff in Hx. destruct Hx as [Hx|Hx].
      * intros E. pose proof (IN1 t q1 x Q1 Hx) as L. rewrite E in L. cbn [fst] in L. lia.
      * apply in_map_iff in Hx. destruct Hx as (y & <- & Hy). intros E. apply (HB t q2 y Q2 Hy). unfold moved_row, moved_range in E. cbn [fst] in E.
        destruct (fst (fst y)) as [a b]. cbn [fst snd] in E. injection E as E3 E4. f_equal; lia.
Qed.

(** C82: the pass over the second part goes on from what is being read at the end of the first. *)
Lemma thm_C82_parts :
  forall tg sz i1 i2 l l1 l2 parse r id ms1 ms2,
    Forall wf_input i1 -> Forall wf_input i2 ->
    none_of TTextTag (i1 ++ i2) -> none_of TChar (i1 ++ i2) -> none_of TAmount (i1 ++ i2) ->
    create_line_from_input_tokens tg (i1 ++ i2) sz = Ok l ->
    create_line_from_input_tokens tg i1 sz = Ok l1 -> create_line_from_input_tokens tg i2 sz = Ok l2 ->
    no_digit_signs r -> number_marks l1 r ms1 -> number_marks l2 r ms2 ->
    match pass Idle 0 ms1 with
    | Some (done, st) =>
      match whole_pass st (length (ll_tokens l1)) ms2 with
      | Some more =>
        match parsed parse (done ++ more) with
        | Some out => exists l', run id l (amount_go parse r) = Ok l' /\ query l' TAmount = Ok (map (amount_row (ll_tokens l)) out)
        | None => exists p, run id l (amount_go parse r) = Panic p
        end
      | None => exists p, run id l (amount_go parse r) = Panic p
      end
    | None => exists p, run id l (amount_go parse r) = Panic p
    end.
Proof.
  intros tg sz i1 i2 l l1 l2 parse r id ms1 ms2 HW1 HW2 NT NC NA H C1 C2 HD (L1 & M1) (L2 & M2).
  destruct (thm_C55_join tg sz i1 i2 l HW1 HW2 H) as (x1 & x2 & E1 & E2 & ET & _).
  assert (x1 = l1) by congruence. assert (x2 = l2) by congruence. subst x1 x2. clear E1 E2.
  destruct (bare_joined tg sz i1 i2 l l1 l2 HW1 HW2 H C1 C2) as (B1 & B2).
  assert (HM : number_marks l r (ms1 ++ ms2)).
  { split; [rewrite ET, !app_length, map_length; congruence|]. intros i m tok Em Et. rewrite ET in Et.
    destruct (lt_dec i (length (ll_tokens l1))) as [Hi|Hi].
    - rewrite nth_error_app1 in Em by lia. rewrite nth_error_app1 in Et by lia. specialize (M1 i m tok Em Et).
      unfold number_mark in *. destruct (token tok); [exact M1|]. destruct m; try exact M1; rewrite (B1 i Hi); exact M1.
    - rewrite nth_error_app2 in Em by lia. rewrite nth_error_app2 in Et by lia. rewrite L1 in Em. rewrite nth_error_map in Et.
      destruct (nth_error (ll_tokens l2) (i - length (ll_tokens l1))) as [tok2|] eqn:En; [|discriminate Et]. injection Et as <-.
      specialize (M2 _ m tok2 Em En). unfold number_mark in *. cbn [moved_token token]. specialize (B2 (i - length (ll_tokens l1))).
      replace (length (ll_tokens l1) + (i - length (ll_tokens l1))) with i in B2 by lia.
      destruct (token tok2); [exact M2|]. destruct m; try exact M2; rewrite B2; exact M2. }
  pose proof (thm_C82_pass tg sz (i1 ++ i2) l parse r id (ms1 ++ ms2) ltac:(now apply Forall_app) NT NC NA H HD HM) as HX.
  unfold whole_pass in *. rewrite pass_app, Nat.add_0_l, L1 in HX. destruct (pass Idle 0 ms1) as [[done st]|]; [|exact HX].
  destruct (pass st (length (ll_tokens l1)) ms2) as [[more lst]|]; [|exact HX]. cbn [option_map] in *. now rewrite <- app_assoc in HX.
Qed.

End ThmPass.
