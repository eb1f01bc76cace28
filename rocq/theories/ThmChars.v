(** Proofs about the amounts of ASCII text (C90). *)

From Verif Require Export ThmPass SpecChars ThmAscii.

Section Machine.
Context (r : AmountResolver) (HD : no_digit_signs r).
Local Notation found_from := (found_from r).
Local Notation isdig := (fun c => decimal_digit c = true).
Local Notation nodig := (fun c => decimal_digit c = false).

Lemma groups_eat t : Forall isdig t -> forall b t0 x seen s,
  found_from (Groups b t0 x) seen (t ++ s) = found_from (Groups b (t0 ++ t) (x ++ t)) (seen ++ t) s.
Proof.
  induction 1 as [|c t Hc _ IH]; intros b t0 x seen s; [now rewrite !app_nil_r|].
  cbn [app SpecChars.found_from next_char]. rewrite Hc. cbn [fst snd app]. rewrite IH, <- !app_assoc. reflexivity.
Qed.
Lemma fraction_eat t : Forall isdig t -> forall b t0 x seen s,
  found_from (Fraction b t0 x) seen (t ++ s) = found_from (Fraction b (t0 ++ t) (x ++ t)) (seen ++ t) s.
Proof.
  induction 1 as [|c t Hc _ IH]; intros b t0 x seen s; [now rewrite !app_nil_r|].
  cbn [app SpecChars.found_from next_char]. rewrite Hc. cbn [fst snd app]. rewrite IH, <- !app_assoc. reflexivity.
Qed.
Lemma nothing_eat t : Forall nodig t -> forall seen s, found_from Nothing seen (t ++ s) = found_from Nothing (seen ++ t) s.
Proof.
  induction 1 as [|c t Hc _ IH]; intros seen s; [now rewrite !app_nil_r|].
  cbn [app SpecChars.found_from next_char]. rewrite Hc. cbn [fst snd app]. rewrite IH, <- !app_assoc. reflexivity.
Qed.

Lemma nothing_number t : t <> [] -> Forall isdig t -> forall seen s,
  found_from Nothing seen (t ++ s) = found_from (Groups seen t t) (seen ++ t) s.
Proof.
  intros Nt Ht seen s. destruct t as [|c t]; [easy|]. inversion Ht as [|? ? Hc Ht']; subst.
  cbn [app SpecChars.found_from next_char]. rewrite Hc. cbn [fst snd app]. rewrite groups_eat by exact Ht'. now rewrite <- app_assoc.
Qed.
Lemma delimiter_number t : t <> [] -> Forall isdig t -> forall b t0 x d seen s,
  found_from (AfterDelimiter b t0 x d) seen (t ++ s) = found_from (Groups b (t0 ++ d :: t) (x ++ t)) (seen ++ t) s.
Proof.
  intros Nt Ht b t0 x d seen s. destruct t as [|c t]; [easy|]. inversion Ht as [|? ? Hc Ht']; subst.
  cbn [app SpecChars.found_from next_char]. rewrite Hc. cbn [fst snd app]. rewrite groups_eat by exact Ht'. now rewrite <- !app_assoc.
Qed.
Lemma point_number t : t <> [] -> Forall isdig t -> forall b t0 x d seen s,
  found_from (AfterPoint b t0 x d) seen (t ++ s) = found_from (Fraction b (t0 ++ d :: t) (x ++ point ++ t)) (seen ++ t) s.
Proof.
  intros Nt Ht b t0 x d seen s. destruct t as [|c t]; [easy|]. inversion Ht as [|? ? Hc Ht']; subst.
  cbn [app SpecChars.found_from next_char]. rewrite Hc. cbn [fst snd app]. rewrite fraction_eat by exact Ht'. now rewrite <- !app_assoc.
Qed.

(** a text without digits *)
Lemma delimiter_other t : t <> [] -> Forall nodig t -> forall b t0 x d seen s,
  found_from (AfterDelimiter b t0 x d) seen (t ++ s) = (b, t0, x) :: found_from Nothing (seen ++ t) s.
Proof.
  intros Nt Ht b t0 x d seen s. destruct t as [|c t]; [easy|]. inversion Ht as [|? ? Hc Ht']; subst.
  cbn [app SpecChars.found_from next_char]. rewrite Hc. cbn [fst snd app]. rewrite nothing_eat by exact Ht'. now rewrite <- app_assoc.
Qed.
Lemma point_other t : t <> [] -> Forall nodig t -> forall b t0 x d seen s,
  found_from (AfterPoint b t0 x d) seen (t ++ s) = (b, t0, x ++ point) :: found_from Nothing (seen ++ t) s.
Proof.
  intros Nt Ht b t0 x d seen s. destruct t as [|c t]; [easy|]. inversion Ht as [|? ? Hc Ht']; subst.
  cbn [app SpecChars.found_from next_char]. rewrite Hc. cbn [fst snd app]. rewrite nothing_eat by exact Ht'. now rewrite <- app_assoc.
Qed.
Lemma fraction_other t : t <> [] -> Forall nodig t -> forall b t0 x seen s,
  found_from (Fraction b t0 x) seen (t ++ s) = (b, t0, x) :: found_from Nothing (seen ++ t) s.
Proof.
  intros Nt Ht b t0 x seen s. destruct t as [|c t]; [easy|]. inversion Ht as [|? ? Hc Ht']; subst.
  cbn [app SpecChars.found_from next_char]. rewrite Hc. cbn [fst snd app]. rewrite nothing_eat by exact Ht'. now rewrite <- app_assoc.
Qed.

Lemma is_delimiter c : existsb (N.eqb c) (delimiters r) = true <-> In c (delimiters r).
Proof.
  rewrite existsb_exists. split.
  - intros (x & Hx & E). apply N.eqb_eq in E. now subst.
  - intros H. exists c. split; [exact H|apply N.eqb_refl].
Qed.

(** ** The pass over the tokens *)

Context (ps : list (str * TextTag)).
Local Notation txt := (fun qs : list (str * TextTag) => concat (map fst qs)).
Context
  (H1 : forall ps1 t ps2, ps = ps1 ++ (t, NATN) :: ps2 ->
     t <> [] /\ Forall isdig t /\ ~ ends_in (txt ps1) isdig /\ ~ starts_in (txt ps2) isdig)
  (H2 : forall ps1 t tag ps2, ps = ps1 ++ (t, tag) :: ps2 -> tag <> NATN -> t <> [] /\ Forall nodig t)
  (H3 : forall ps1 t tag ps2, ps = ps1 ++ (t, tag) :: ps2 -> tag <> NATN -> starts_in t (is (decimal r)) ->
     ~ In (decimal r) (delimiters r) -> ends_in (txt ps1) isdig -> t = [decimal r]).

Definition piece_mark (m : NMark) (p : str * TextTag) : Prop :=
  match m with
  | NNumber t => snd p = NATN /\ t = fst p
  | NDelimiter => snd p <> NATN /\ exists c, fst p = [c] /\ In c (delimiters r)
  | NPoint => snd p <> NATN /\ fst p = [decimal r] /\ ~ In (decimal r) (delimiters r)
  | NOther => snd p <> NATN /\ forall c, fst p = [c] -> ~ In c (signs r)
  | NBare => False
  end.

Definition same_found (x : LRange * str) (f : Found) : Prop :=
  let '((i, j), y) := x in let '(b, t, y') := f in
  y = y' /\ i <= j < length ps /\ txt (firstn i ps) = b /\ txt (firstn (S j) ps) = b ++ t.

Definition corr (k : nat) (seen : str) (st : Reading) (pend : list (LRange * str)) (c : Spelling) : Prop :=
  match st, c with
  | Idle, Nothing => pend = []
  | Digits i j x, Groups b t y => pend = [] /\ same_found ((i, j), x) (b, t, y) /\ S j = k /\ ends_in seen isdig
  | Delimited i j x, AfterDelimiter b t y d => pend = [] /\ same_found ((i, j), x) (b, t, y) /\ seen = b ++ t ++ [d] /\ j < k
  | Pointed i j x, AfterPoint b t y d => pend = [] /\ same_found ((i, j), x) (b, t, y) /\ seen = b ++ t ++ [d] /\ j < k
  | Idle, Fraction b t y => exists i j, pend = [((i, j), y)] /\ same_found ((i, j), y) (b, t, y) /\ ends_in seen isdig
  | _, _ => False
  end.

Lemma whole_pass_cons st i m ms : whole_pass st i (m :: ms) =
  match read st i m with Some (done, st') => option_map (fun more => done ++ more) (whole_pass st' (S i) ms) | None => None end.
Proof.
  unfold whole_pass. cbn [pass]. destruct (read st i m) as [[done st']|]; [|reflexivity].
  destruct (pass st' (S i) ms) as [[more lst]|]; [|reflexivity]. cbn [option_map]. now rewrite app_assoc.
Qed.

Lemma txt_step ps1 p ps2 : ps = ps1 ++ p :: ps2 -> txt (firstn (S (length ps1)) ps) = txt ps1 ++ fst p.
Proof.
  intros ->. rewrite firstn_app, firstn_all2 by lia. replace (S (length ps1) - length ps1) with 1 by lia. cbn [firstn].
  rewrite map_app, concat_app. cbn. now rewrite app_nil_r.
Qed.
Lemma txt_here ps1 ps2 : ps = ps1 ++ ps2 -> txt (firstn (length ps1) ps) = txt ps1.
Proof. intros ->. now rewrite firstn_app, Nat.sub_diag, firstn_all, firstn_O, app_nil_r. Qed.

Lemma digit_end x t : t <> [] -> Forall isdig t -> ends_in (x ++ t) isdig.
Proof.
  intros Nt Ht. apply ends_in_app. destruct (exists_last Nt) as (t' & c & ->). apply ends_in_last. apply Forall_app in Ht. destruct Ht as [_ Ht]. now inversion Ht.
Qed.

Lemma pass_found : forall ms2 ps2, Forall2 piece_mark ms2 ps2 -> forall ps1 st pend c, ps = ps1 ++ ps2 ->
  corr (length ps1) (txt ps1) st pend c ->
  exists outs, whole_pass st (length ps1) ms2 = Some outs /\ Forall2 same_found (pend ++ outs) (found_from c (txt ps1) (txt ps2)).
Proof.
  induction 1 as [|m [t tag] ms2 ps2 Hm _ IH]; intros ps1 st pend c E HC.
  - cbn [map concat SpecChars.found_from].
    destruct st as [|i j x|i j x|i j x], c as [|b t y|b t y d|b t y d|b t y]; try contradiction; cbn [corr] in HC; eexists; (split; [reflexivity|]); cbn [at_end no_more app].
    + subst. constructor.
    + destruct HC as (i & j & -> & HS & _). constructor; [exact HS|constructor].
    + destruct HC as (-> & HS & _). constructor; [exact HS|constructor].
    + destruct HC as (-> & HS & _). constructor; [exact HS|constructor].
    + destruct HC as (-> & HS & _). constructor; [|constructor]. destruct HS as (-> & HS). split; [reflexivity|exact HS].
  - assert (E' : ps = (ps1 ++ [(t, tag)]) ++ ps2) by now rewrite <- app_assoc.
    assert (ET : txt (ps1 ++ [(t, tag)]) = txt ps1 ++ t) by (rewrite map_app, concat_app; cbn; now rewrite app_nil_r).
    assert (EL : length (ps1 ++ [(t, tag)]) = S (length ps1)) by (rewrite app_length; cbn; lia).
    assert (LP : length ps1 < length ps) by (rewrite E, app_length; cbn; lia).
    specialize (IH (ps1 ++ [(t, tag)])). cbv beta in ET. rewrite ET, EL in IH.
    pose proof (txt_step _ _ _ E) as TS. cbn [fst] in TS. pose proof (txt_here _ _ E) as TH. cbv beta in TS, TH.
    rewrite whole_pass_cons. cbn [map concat fst].
    assert (OTHER : forall (done : list (LRange * str)) st' c' fs, read st (length ps1) m = Some (done, st') ->
        found_from c (txt ps1) (t ++ txt ps2) = fs ++ found_from c' (txt ps1 ++ t) (txt ps2) ->
        (exists pend', Forall2 same_found (pend ++ done) (fs ++ []) /\ corr (S (length ps1)) (txt ps1 ++ t) st' pend' c' /\ pend' = [])
        \/ (exists pend', done = pend' /\ pend = [] /\ fs = [] /\ corr (S (length ps1)) (txt ps1 ++ t) st' pend' c') ->
        exists outs, match read st (length ps1) m with Some (done, st') => option_map (fun more => done ++ more) (whole_pass st' (S (length ps1)) ms2) | None => None end = Some outs
          /\ Forall2 same_found (pend ++ outs) (found_from c (txt ps1) (t ++ txt ps2))).
    { intros done st' c' fs -> -> [(pend' & HF & HC' & ->)|(pend' & -> & -> & -> & HC')].
      - destruct (IH st' [] c' E' HC') as (outs & -> & HO). exists (done ++ outs). split; [reflexivity|]. rewrite app_assoc. rewrite app_nil_r in HF.
        apply Forall2_app; assumption.
      - destruct (IH st' pend' c' E' HC') as (outs & -> & HO). exists (pend' ++ outs). split; [reflexivity|]. exact HO. }
    destruct m as [t'| | | |]; cbn [piece_mark fst snd] in Hm; [|destruct Hm as [NN Hm]; destruct (H2 _ _ _ _ E NN) as [Nt Ht]..|contradiction].
    + (* a number *)
      destruct Hm as (-> & ->). destruct (H1 _ _ _ E) as (Nt & Ht & N1 & N2).
      destruct st as [|i j x|i j x|i j x], c as [|b t0 y|b t0 y d|b t0 y d|b t0 y]; try contradiction; cbn [corr] in HC.
      * subst pend. eapply (OTHER _ _ (Groups (txt ps1) t t) []); [reflexivity|cbn [app]; now rewrite nothing_number|].
        left. exists []. split; [constructor|]. split; [|reflexivity]. split; [reflexivity|]. split; [|split; [reflexivity|now apply digit_end]].
        split; [reflexivity|]. split; [lia|]. split; [exact TH|exact TS].
      * destruct HC as (i & j & _ & _ & C). contradiction.
      * destruct HC as (_ & _ & _ & C). contradiction.
      * destruct HC as (-> & (<- & HB & TB & TE) & ES & JK). eapply (OTHER _ _ (Groups b (t0 ++ d :: t) (x ++ t)) []); [reflexivity|cbn [app]; now rewrite delimiter_number|].
        left. exists []. split; [constructor|]. split; [|reflexivity]. split; [reflexivity|]. split; [|split; [reflexivity|now apply digit_end]].
        split; [reflexivity|]. split; [lia|]. split; [exact TB|]. rewrite TS, ES, <- !app_assoc. reflexivity.
      * destruct HC as (-> & (<- & HB & TB & TE) & ES & JK). eapply (OTHER _ _ (Fraction b (t0 ++ d :: t) (x ++ point ++ t)) []); [reflexivity|cbn [app]; now rewrite point_number|].
        right. eexists. split; [reflexivity|]. split; [reflexivity|]. split; [reflexivity|]. exists i, (length ps1). split; [reflexivity|]. split; [|now apply digit_end].
        split; [reflexivity|]. split; [lia|]. split; [exact TB|]. rewrite TS, ES, <- !app_assoc. reflexivity.
    + (* a delimiter *)
      destruct Hm as (e & -> & He). inversion Ht as [|? ? He' _]; subst.
      destruct st as [|i j x|i j x|i j x], c as [|b t0 y|b t0 y d|b t0 y d|b t0 y]; try contradiction; cbn [corr] in HC.
      * subst pend. eapply (OTHER _ _ Nothing []); [reflexivity|cbn [app]; now apply (nothing_eat [e])|]. left. exists []. split; [constructor|]. split; reflexivity.
      * destruct HC as (i & j & -> & HS & _). eapply (OTHER _ _ Nothing [(b, t0, y)]); [reflexivity|now apply (fraction_other [e])|].
        left. exists []. split; [constructor; [exact HS|constructor]|]. split; reflexivity.
      * destruct HC as (-> & HS & HJ & _). eapply (OTHER _ _ (AfterDelimiter b t0 y e) []); [reflexivity| |].
        { cbn [app SpecChars.found_from next_char]. rewrite He'. replace (existsb (N.eqb e) (delimiters r)) with true by (symmetry; now apply is_delimiter). reflexivity. }
        left. exists []. split; [constructor|]. split; [|reflexivity]. split; [reflexivity|]. split; [exact HS|]. destruct HS as (_ & _ & TB & TE).
        rewrite HJ in TE. rewrite TH in TE. rewrite TE. split; [now rewrite <- app_assoc|lia].
      * destruct HC as (-> & HS & ES & JK). eapply (OTHER _ _ Nothing [(b, t0, y)]); [reflexivity|now apply (delimiter_other [e])|].
        left. exists []. split; [constructor; [exact HS|constructor]|]. split; reflexivity.
      * destruct HC as (-> & (<- & HS) & ES & JK). eapply (OTHER _ _ Nothing [(b, t0, x ++ point)]); [reflexivity|now apply (point_other [e])|].
        left. exists []. split; [constructor; [split; [reflexivity|exact HS]|constructor]|]. split; reflexivity.
    + (* the decimal sign *)
      destruct Hm as (-> & He). inversion Ht as [|? ? He' _]; subst.
      destruct st as [|i j x|i j x|i j x], c as [|b t0 y|b t0 y d|b t0 y d|b t0 y]; try contradiction; cbn [corr] in HC.
      * subst pend. eapply (OTHER _ _ Nothing []); [reflexivity|cbn [app]; now apply (nothing_eat [decimal r])|]. left. exists []. split; [constructor|]. split; reflexivity.
      * destruct HC as (i & j & -> & HS & _). eapply (OTHER _ _ Nothing [(b, t0, y)]); [reflexivity|now apply (fraction_other [decimal r])|].
        left. exists []. split; [constructor; [exact HS|constructor]|]. split; reflexivity.
      * destruct HC as (-> & HS & HJ & _). eapply (OTHER _ _ (AfterPoint b t0 y (decimal r)) []); [reflexivity| |].
        { cbn [app SpecChars.found_from next_char]. rewrite He'. destruct (existsb (N.eqb (decimal r)) (delimiters r)) eqn:EX; [apply is_delimiter in EX; contradiction|].
          rewrite N.eqb_refl. reflexivity. }
        left. exists []. split; [constructor|]. split; [|reflexivity]. split; [reflexivity|]. split; [exact HS|]. destruct HS as (_ & _ & TB & TE).
        rewrite HJ in TE. rewrite TH in TE. rewrite TE. split; [now rewrite <- app_assoc|lia].
      * destruct HC as (-> & HS & ES & JK). eapply (OTHER _ _ Nothing [(b, t0, y)]); [reflexivity|now apply (delimiter_other [decimal r])|].
        left. exists []. split; [constructor; [exact HS|constructor]|]. split; reflexivity.
      * destruct HC as (-> & (<- & HS) & ES & JK). eapply (OTHER _ _ Nothing [(b, t0, x ++ point)]); [reflexivity|now apply (point_other [decimal r])|].
        left. exists []. split; [constructor; [split; [reflexivity|exact HS]|constructor]|]. split; reflexivity.
    + (* anything else *)
      destruct st as [|i j x|i j x|i j x], c as [|b t0 y|b t0 y d|b t0 y d|b t0 y]; try contradiction; cbn [corr] in HC.
      * subst pend. eapply (OTHER _ _ Nothing []); [reflexivity|cbn [app]; now apply nothing_eat|]. left. exists []. split; [constructor|]. split; reflexivity.
      * destruct HC as (i & j & -> & HS & _). eapply (OTHER _ _ Nothing [(b, t0, y)]); [reflexivity|now apply fraction_other|].
        left. exists []. split; [constructor; [exact HS|constructor]|]. split; reflexivity.
      * destruct HC as (-> & HS & HJ & HE). eapply (OTHER _ _ Nothing [(b, t0, y)]); [reflexivity| |].
        { destruct t as [|e q]; [easy|]. inversion Ht as [|? ? He' Hq]; subst. cbn [app SpecChars.found_from next_char]. rewrite He'.
          destruct (existsb (N.eqb e) (delimiters r)) eqn:EX; [|destruct (N.eqb e (decimal r)) eqn:ED].
          - apply is_delimiter in EX. destruct q as [|e2 q]; [exfalso; apply (Hm e eq_refl); now right|].
            cbn [fst snd app]. change (e2 :: q ++ concat (map fst ps2)) with ((e2 :: q) ++ concat (map fst ps2)).
            rewrite delimiter_other; [|discriminate|exact Hq]. now rewrite <- !app_assoc.
          - apply N.eqb_eq in ED. subst e. exfalso.
            assert (NI : ~ In (decimal r) (delimiters r)) by (intros C; apply is_delimiter in C; congruence).
            assert (Eq : decimal r :: q = [decimal r]) by (eapply (H3 _ _ _ _ E NN); [now exists (decimal r), q|exact NI|exact HE]).
            apply (Hm (decimal r) Eq). now left.
          - cbn [fst snd app]. change (q ++ concat (map fst ps2)) with (q ++ txt ps2). rewrite nothing_eat by exact Hq. now rewrite <- !app_assoc. }
        left. exists []. split; [constructor; [exact HS|constructor]|]. split; reflexivity.
      * destruct HC as (-> & HS & ES & JK). eapply (OTHER _ _ Nothing [(b, t0, y)]); [reflexivity|now apply delimiter_other|].
        left. exists []. split; [constructor; [exact HS|constructor]|]. split; reflexivity.
      * destruct HC as (-> & (<- & HS) & ES & JK). eapply (OTHER _ _ Nothing [(b, t0, x ++ point)]); [reflexivity|now apply point_other|].
        left. exists []. split; [constructor; [split; [reflexivity|exact HS]|constructor]|]. split; reflexivity.
Qed.
End Machine.

(** ** What is found is a written number, and every digit is found *)

Section Found.
Context (r : AmountResolver) (HD : no_digit_signs r).
Local Notation found_from := (found_from r).
Local Notation isdig := (fun c => decimal_digit c = true).

Definition spells (t x : str) (frac : bool) : Prop :=
  exists w, well_written r w /\ t = concat (SpecWritten.parts_of r w) /\ x = denoted w
    /\ match fraction w with Some _ => frac = true | None => frac = false end.

Lemma spells_one c : decimal_digit c = true -> spells [c] [c] false.
Proof.
  intros Hc. exists (mkWritten [c] [] None). split; [|split; [reflexivity|split; reflexivity]].
  split; [split; [discriminate|repeat constructor; exact Hc]|]. split; [constructor|exact I].
Qed.

Lemma all_digits_snoc g c : all_digits g -> decimal_digit c = true -> all_digits (g ++ [c]).
Proof.
  intros [Ng Hg] Hc. split; [intros C; apply app_eq_nil in C; now destruct C|]. apply Forall_app. split; [exact Hg|]. constructor; [exact Hc|constructor].
Qed.

Lemma spells_more t x c : spells t x false -> decimal_digit c = true -> spells (t ++ [c]) (x ++ [c]) false.
Proof.
  intros ([g ms f] & HW & -> & -> & Hf) Hc. cbn [fraction] in Hf. destruct f; [discriminate|].
  destruct HW as (W1 & W2 & _). cbn [first_group more_groups] in *. unfold SpecWritten.parts_of, denoted. cbn [first_group more_groups fraction]. rewrite !app_nil_r.
  destruct ms as [|m0 ms].
  - exists (mkWritten (g ++ [c]) [] None). split; [split; [now apply all_digits_snoc|split; [constructor|exact I]]|].
    unfold SpecWritten.parts_of, denoted. cbn. rewrite !app_nil_r. auto.
  - assert (N : m0 :: ms <> []) by discriminate. destruct (exists_last N) as (ms' & [d h] & E). rewrite E in *. clear N E m0 ms.
    apply Forall_app in W2. destruct W2 as [W2 W3]. inversion W3 as [|? ? [W4 W5] _]; subst. cbn [fst snd] in *.
    exists (mkWritten g (ms' ++ [(d, h ++ [c])]) None). split.
    + split; [exact W1|]. split; [|exact I]. apply Forall_app. split; [exact W2|]. constructor; [|constructor]. split; [exact W4|now apply all_digits_snoc].
    + unfold SpecWritten.parts_of, denoted. cbn [first_group more_groups fraction]. rewrite !app_nil_r, !flat_map_app, !map_app. cbn [flat_map map concat fst snd app].
      rewrite !concat_app. cbn [concat app]. rewrite !app_nil_r. split; [|split; [|reflexivity]]; repeat (rewrite <- !app_assoc; cbn [app]); reflexivity.
Qed.

Lemma spells_group t x d c : spells t x false -> In d (delimiters r) -> decimal_digit c = true -> spells (t ++ [d; c]) (x ++ [c]) false.
Proof.
  intros ([g ms f] & HW & -> & -> & Hf) Hd Hc. cbn [fraction] in Hf. destruct f; [discriminate|]. destruct HW as (W1 & W2 & _). cbn [first_group more_groups] in *.
  exists (mkWritten g (ms ++ [(d, [c])]) None). split.
  - split; [exact W1|]. split; [|exact I]. apply Forall_app. split; [exact W2|]. constructor; [|constructor]. split; [exact Hd|]. split; [discriminate|repeat constructor; exact Hc].
  - unfold SpecWritten.parts_of, denoted. cbn [first_group more_groups fraction]. rewrite flat_map_app, map_app. cbn [flat_map map fst snd app concat].
    rewrite !app_nil_r, !concat_app. cbn [concat app]. rewrite <- !app_assoc. cbn. auto.
Qed.

Lemma spells_fraction t x c : spells t x false -> ~ In (decimal r) (delimiters r) -> decimal_digit c = true ->
  spells (t ++ [decimal r; c]) (x ++ point ++ [c]) true.
Proof.
  intros ([g ms f] & HW & -> & -> & Hf) Hd Hc. cbn [fraction] in Hf. destruct f; [discriminate|]. destruct HW as (W1 & W2 & _). cbn [first_group more_groups] in *.
  exists (mkWritten g ms (Some [c])). split.
  - split; [exact W1|]. split; [exact W2|]. split; [|exact Hd]. split; [discriminate|repeat constructor; exact Hc].
  - unfold SpecWritten.parts_of, denoted. cbn [first_group more_groups fraction]. rewrite !app_nil_r. cbn [concat]. rewrite concat_app. cbn [concat app].
    rewrite <- !app_assoc. auto.
Qed.

Lemma spells_fraction_more t x c : spells t x true -> decimal_digit c = true -> spells (t ++ [c]) (x ++ [c]) true.
Proof.
  intros ([g ms f] & HW & -> & -> & Hf) Hc. cbn [fraction] in Hf. destruct f as [f|]; [|discriminate]. destruct HW as (W1 & W2 & W3 & W4). cbn [first_group more_groups] in *.
  exists (mkWritten g ms (Some (f ++ [c]))). split.
  - split; [exact W1|]. split; [exact W2|]. split; [|exact W4]. now apply all_digits_snoc.
  - unfold SpecWritten.parts_of, denoted. cbn [first_group more_groups fraction concat]. rewrite !concat_app. cbn [concat]. rewrite !app_nil_r, <- !app_assoc.
    cbn [app]. rewrite <- ?app_assoc. auto.
Qed.

Definition state_ok (st : Spelling) (seen : str) : Prop :=
  match st with
  | Nothing => ~ ends_in seen isdig
  | Groups b t x => seen = b ++ t /\ ~ ends_in b isdig /\ spells t x false
  | AfterDelimiter b t x d => seen = b ++ t ++ [d] /\ ~ ends_in b isdig /\ spells t x false /\ In d (delimiters r)
  | AfterPoint b t x d => seen = b ++ t ++ [d] /\ ~ ends_in b isdig /\ spells t x false /\ d = decimal r /\ ~ In d (delimiters r)
  | Fraction b t x => seen = b ++ t /\ ~ ends_in b isdig /\ spells t x true
  end.

Definition good_found (s : str) (f : Found) : Prop :=
  let '(b, t, x) := f in exists a, s = b ++ t ++ a /\ ~ ends_in b isdig /\ ~ starts_in a isdig
    /\ exists w, well_written r w /\ t = concat (SpecWritten.parts_of r w)
       /\ ((x = denoted w /\ (fraction w = None -> starts_in a (is (decimal r)) -> In (decimal r) (delimiters r)))
           \/ (fraction w = None /\ x = denoted w ++ point /\ starts_in a (is (decimal r)) /\ ~ In (decimal r) (delimiters r))).

Lemma sign_not_digit d : In d (signs r) -> decimal_digit d = false.
Proof. unfold no_digit_signs in HD. rewrite Forall_forall in HD. apply HD. Qed.

Lemma found_good : forall s st seen, state_ok st seen -> Forall (good_found (seen ++ s)) (found_from st seen s).
Proof.
  assert (KG : forall s b t x a, s = b ++ t ++ a -> ~ ends_in b isdig -> ~ starts_in a isdig -> spells t x false ->
     (starts_in a (is (decimal r)) -> In (decimal r) (delimiters r)) -> good_found s (b, t, x)).
  { intros s b t x a Es Hb Ha (w & W1 & W2 & W3 & W4) Hd. exists a. split; [exact Es|]. split; [exact Hb|]. split; [exact Ha|]. exists w. split; [exact W1|]. split; [exact W2|].
    left. split; [exact W3|]. intros _. exact Hd. }
  assert (KP : forall s b t x a, s = b ++ t ++ a -> ~ ends_in b isdig -> ~ starts_in a isdig -> spells t x false ->
     starts_in a (is (decimal r)) -> ~ In (decimal r) (delimiters r) -> good_found s (b, t, x ++ point)).
  { intros s b t x a Es Hb Ha (w & W1 & W2 & W3 & W4) Hd Hn. exists a. split; [exact Es|]. split; [exact Hb|]. split; [exact Ha|]. exists w. split; [exact W1|]. split; [exact W2|].
    right. split; [destruct (fraction w); [discriminate|reflexivity]|]. split; [now rewrite W3|]. auto. }
  assert (KF : forall s b t x a, s = b ++ t ++ a -> ~ ends_in b isdig -> ~ starts_in a isdig -> spells t x true -> good_found s (b, t, x)).
  { intros s b t x a Es Hb Ha (w & W1 & W2 & W3 & W4). exists a. split; [exact Es|]. split; [exact Hb|]. split; [exact Ha|]. exists w. split; [exact W1|]. split; [exact W2|].
    left. split; [exact W3|]. intros C. rewrite C in W4. discriminate. }
  assert (S0 : forall d a, In d (signs r) -> ~ starts_in (d :: a) isdig).
  { intros d a Hd C. rewrite starts_in_cons in C. cbv beta in C. rewrite (sign_not_digit d Hd) in C. discriminate. }
  assert (SD : forall d a, In d (delimiters r) -> starts_in (d :: a) (is (decimal r)) -> In (decimal r) (delimiters r)).
  { intros d a Hd C. rewrite starts_in_cons in C. unfold is in C. now rewrite C. }
  induction s as [|c s IH]; intros st seen HS.
  - cbn [SpecChars.found_from]. rewrite app_nil_r. destruct st as [|b t x|b t x d|b t x d|b t x]; cbn [no_more state_ok] in *; [constructor|..].
    + destruct HS as (-> & Hb & HX). constructor; [|constructor]. apply (KG _ b t x []); auto; [now rewrite app_nil_r|apply starts_in_nil|]. intros C. now apply starts_in_nil in C.
    + destruct HS as (-> & Hb & HX & Hd). constructor; [|constructor]. apply (KG _ b t x [d]); auto; [apply S0; now right|]. now apply SD.
    + destruct HS as (-> & Hb & HX & -> & Hd). constructor; [|constructor]. apply (KP _ b t x [decimal r]); auto; [apply S0; now left|]. now apply starts_in_cons.
    + destruct HS as (-> & Hb & HX). constructor; [|constructor]. apply (KF _ b t x []); auto; [now rewrite app_nil_r|apply starts_in_nil].
  - cbn [SpecChars.found_from]. specialize (IH (snd (next_char r st seen c)) (seen ++ [c])). rewrite <- app_assoc in IH. cbn [app] in IH.
    assert (NE : decimal_digit c = false -> ~ ends_in (seen ++ [c]) isdig) by (intros H C; rewrite ends_in_last in C; cbv beta in C; congruence).
    assert (NC : decimal_digit c = false -> ~ starts_in (c :: s) isdig) by (intros H C; rewrite starts_in_cons in C; cbv beta in C; congruence).
    apply Forall_app. destruct (decimal_digit c) eqn:Ec; destruct st as [|b t x|b t x d|b t x d|b t x]; cbn [next_char state_ok] in *; rewrite Ec in *; cbn [fst snd] in *.
    + split; [constructor|]. apply IH. split; [reflexivity|]. split; [exact HS|]. now apply spells_one.
    + destruct HS as (-> & Hb & HX). split; [constructor|]. apply IH. split; [now rewrite <- app_assoc|]. split; [exact Hb|]. now apply spells_more.
    + destruct HS as (-> & Hb & HX & Hd). split; [constructor|]. apply IH. split; [now rewrite <- !app_assoc|]. split; [exact Hb|]. now apply spells_group.
    + destruct HS as (-> & Hb & HX & -> & Hd). split; [constructor|]. apply IH. split; [now rewrite <- !app_assoc|]. split; [exact Hb|]. now apply spells_fraction.
    + destruct HS as (-> & Hb & HX). split; [constructor|]. apply IH. split; [now rewrite <- app_assoc|]. split; [exact Hb|]. now apply spells_fraction_more.
    + split; [constructor|]. apply IH. now apply NE.
    + destruct HS as (-> & Hb & HX). destruct (existsb (N.eqb c) (delimiters r)) eqn:EX; [|destruct (N.eqb c (decimal r)) eqn:ED]; cbn [fst snd] in *.
      * apply is_delimiter in EX. split; [constructor|]. apply IH. split; [now rewrite <- app_assoc|]. auto.
      * apply N.eqb_eq in ED. split; [constructor|]. apply IH. split; [now rewrite <- app_assoc|]. split; [exact Hb|]. split; [exact HX|]. split; [exact ED|].
        intros C. apply is_delimiter in C. congruence.
      * split; [|apply IH; now apply NE]. constructor; [|constructor]. apply (KG _ b t x (c :: s)); auto; [now rewrite <- app_assoc|].
        intros C. rewrite starts_in_cons in C. unfold is in C. apply N.eqb_neq in ED. congruence.
    + destruct HS as (-> & Hb & HX & Hd). split; [|apply IH; now apply NE]. constructor; [|constructor].
      apply (KG _ b t x (d :: c :: s)); auto; [now rewrite <- !app_assoc|apply S0; now right|now apply SD].
    + destruct HS as (-> & Hb & HX & -> & Hd). split; [|apply IH; now apply NE]. constructor; [|constructor].
      apply (KP _ b t x (decimal r :: c :: s)); auto; [now rewrite <- !app_assoc|apply S0; now left|now apply starts_in_cons].
    + destruct HS as (-> & Hb & HX). split; [|apply IH; now apply NE]. constructor; [|constructor]. apply (KF _ b t x (c :: s)); auto. now rewrite <- app_assoc.
Qed.

(** what is being read will be found *)
Definition reading_of (st : Spelling) (b t : str) : Prop :=
  match st with Nothing => False | Groups b' t' _ | AfterDelimiter b' t' _ _ | AfterPoint b' t' _ _ | Fraction b' t' _ => b' = b /\ t' = t end.
Lemma will_be_found : forall s st seen b t, reading_of st b t -> exists t2 x, In (b, t ++ t2, x) (found_from st seen s).
Proof.
  induction s as [|c s IH]; intros st seen b t HR.
  - destruct st; cbn in HR; [contradiction|..]; destruct HR as [-> ->]; exists []; rewrite app_nil_r; cbn [SpecChars.found_from no_more]; eexists; left; reflexivity.
  - cbn [SpecChars.found_from].
    assert (K : (exists x, In (b, t, x) (fst (next_char r st seen c))) \/ exists t1, reading_of (snd (next_char r st seen c)) b (t ++ t1)).
    { destruct st; cbn in HR; [contradiction|..]; destruct HR as [-> ->]; cbn [next_char]; destruct (decimal_digit c); cbn [fst snd reading_of].
      all: try (left; eexists; left; reflexivity).
      all: try (right; eexists; split; reflexivity).
      destruct (existsb (N.eqb c) (delimiters r)); [|destruct (N.eqb c (decimal r))]; cbn [fst snd reading_of].
      - right. exists []. now rewrite app_nil_r.
      - right. exists []. now rewrite app_nil_r.
      - left. eexists. left. reflexivity. }
    destruct K as [(x & Hx)|(t1 & H1)].
    + exists [], x. rewrite app_nil_r. apply in_or_app. now left.
    + destruct (IH _ (seen ++ [c]) _ _ H1) as (t2 & x & Hx). exists (t1 ++ t2), x. rewrite app_assoc. apply in_or_app. now right.
Qed.

Lemma digit_found : forall p st seen c q, state_ok st seen -> decimal_digit c = true ->
  exists b t1 t2 x, In (b, t1 ++ c :: t2, x) (found_from st seen (p ++ c :: q)) /\ seen ++ p = b ++ t1.
Proof.
  induction p as [|e p IH]; intros st seen c q HS Hc; cbn [app SpecChars.found_from].
  - assert (K : exists b t1, reading_of (snd (next_char r st seen c)) b (t1 ++ [c]) /\ seen = b ++ t1).
    { destruct st as [|b t x|b t x d|b t x d|b t x]; cbn [next_char state_ok] in *; rewrite Hc; cbn [snd reading_of].
      - exists seen, []. rewrite app_nil_r. auto.
      - exists b, t. split; [auto|apply HS].
      - exists b, (t ++ [d]). rewrite <- app_assoc. split; [auto|apply HS].
      - exists b, (t ++ [d]). rewrite <- app_assoc. split; [auto|apply HS].
      - exists b, t. split; [auto|apply HS]. }
    destruct K as (b & t1 & HR & ->). destruct (will_be_found q _ ((b ++ t1) ++ [c]) _ _ HR) as (t2 & x & Hx).
    rewrite <- app_assoc in Hx. exists b, t1, t2, x. rewrite app_nil_r. split; [|reflexivity]. apply in_or_app. now right.
  - assert (HS' : state_ok (snd (next_char r st seen e)) (seen ++ [e])).
    { clear IH. destruct (decimal_digit e) eqn:Ee; destruct st as [|b t x|b t x d|b t x d|b t x]; cbn [next_char state_ok] in *; rewrite Ee; cbn [snd state_ok].
      - split; [reflexivity|]. split; [exact HS|]. now apply spells_one.
      - destruct HS as (-> & Hb & HX). split; [now rewrite <- app_assoc|]. split; [exact Hb|]. now apply spells_more.
      - destruct HS as (-> & Hb & HX & Hd). split; [now rewrite <- !app_assoc|]. split; [exact Hb|]. now apply spells_group.
      - destruct HS as (-> & Hb & HX & -> & Hd). split; [now rewrite <- !app_assoc|]. split; [exact Hb|]. now apply spells_fraction.
      - destruct HS as (-> & Hb & HX). split; [now rewrite <- app_assoc|]. split; [exact Hb|]. now apply spells_fraction_more.
      - intros C. rewrite ends_in_last in C. congruence.
      - destruct HS as (-> & Hb & HX). destruct (existsb (N.eqb e) (delimiters r)) eqn:EX; [|destruct (N.eqb e (decimal r)) eqn:ED]; cbn [snd state_ok].
        + apply is_delimiter in EX. split; [now rewrite <- app_assoc|]. auto.
        + apply N.eqb_eq in ED. split; [now rewrite <- app_assoc|]. split; [exact Hb|]. split; [exact HX|]. split; [exact ED|]. intros C. apply is_delimiter in C. congruence.
        + intros C. rewrite ends_in_last in C. congruence.
      - intros C. rewrite ends_in_last in C. congruence.
      - intros C. rewrite ends_in_last in C. congruence.
      - intros C. rewrite ends_in_last in C. congruence. }
    destruct (IH _ _ c q HS' Hc) as (b & t1 & t2 & x & Hx & E). exists b, t1, t2, x. split; [apply in_or_app; now right|].
    rewrite <- app_assoc in E. exact E.
Qed.
End Found.

(** ** The run *)

Section C90.
Context {UC : Unicode} {U : UserTypes}.

Section Text.
Context (SL : SegmenterLaws) colon (AL : AsciiLaws colon) tg sz s ats l
  (HA : ascii s) (HL : digits_apart s) (HW : Forall wf_attribute ats)
  (HC : create_line_from_input_tokens tg [InText s ats] sz = Ok l).

Lemma dig_ends x : ends_in x ascii_digit <-> ends_in x (fun c => decimal_digit c = true).
Proof. split; intros (p & c & E & H); exists p, c; (split; [exact E|]); now apply digit_iff. Qed.
Lemma dig_starts x : starts_in x ascii_digit <-> starts_in x (fun c => decimal_digit c = true).
Proof. split; intros (p & c & E & H); exists p, c; (split; [exact E|]); now apply digit_iff. Qed.

Lemma number_token_facts b t a : token_at l b t NATN a ->
  t <> [] /\ Forall (fun c => decimal_digit c = true) t /\ ~ ends_in b (fun c => decimal_digit c = true)
  /\ ~ starts_in a (fun c => decimal_digit c = true).
Proof.
  intros H. destruct (number_of_token colon SL AL s HA tg sz ats l HW HC _ _ _ H) as (_ & N & F & N1 & N2).
  rewrite <- dig_ends, <- dig_starts. split; [exact N|]. split; [|auto]. eapply Forall_impl; [|exact F]. intros c. apply digit_iff.
Qed.

Lemma other_token_facts b t tag a : token_at l b t tag a -> tag <> NATN ->
  t <> [] /\ Forall (fun c => decimal_digit c = false) t.
Proof.
  intros H NN. destruct (token_segment s tg sz ats l HW HC _ _ _ _ H) as [(c & q & -> & Hs & Nd & _)|(w0 & x & y & w3 & _ & _ & _ & _ & ps1 & ps2 & G & _)].
  - split; [discriminate|]. apply Forall_forall. intros d Hd. apply digit_not. intros C. apply in_split in Hd. destruct Hd as (p & z & E). rewrite E in Hs.
    destruct (digit_led colon SL AL s HA HL (length p) _ _ _ _ _ (le_n _) Hs C) as (d' & rr & E' & Hd'). rewrite <- E in E'. injection E' as <- _. contradiction.
  - apply Forall_app in G. destruct G as [_ G]. inversion G as [|? ? Gt _]; subst. unfold good_piece in Gt. cbn [fst snd] in Gt. destruct tag; try easy.
    + destruct Gt as (e & -> & He & _). split; [discriminate|]. constructor; [exact He|constructor].
    + destruct Gt as (N & F). split; [exact N|]. eapply Forall_impl; [|exact F]. intros c Hc. apply Hc.
Qed.

Lemma sign_token_facts b t tag a c : token_at l b t tag a -> tag <> NATN -> starts_in t (is c) -> ~ ascii_letter c -> ~ ascii_space c ->
  ends_in b (fun c => decimal_digit c = true) -> t = [c].
Proof.
  intros H NN (c' & q & -> & E) Nl Nw He. unfold is in E. subst c'. apply dig_ends in He.
  destruct (other_token_facts _ _ _ _ H NN) as (_ & Hd). inversion Hd as [|? ? Hd' _]; subst. apply digit_not in Hd'.
  destruct (token_segment s tg sz ats l HW HC _ _ _ _ H) as [(c2 & q2 & Eq & Hs & _)|(w0 & x & y & w3 & Hs & _ & _ & _ & ps1 & ps2 & G & _)].
  - destruct (N.eq_dec c 95) as [->|Nu].
    + exfalso. destruct He as (p & e & -> & He). apply (segment_start colon SL AL s HA _ _ _ _ p e Hs eq_refl). unfold ub, alnum. tauto.
    + now rewrite (other_single colon SL AL s HA _ _ _ _ Hs Nl Hd' Nu Nw).
  - apply Forall_app in G. destruct G as [_ G]. inversion G as [|? ? Gt _]; subst. unfold good_piece in Gt. cbn [fst snd] in Gt. destruct tag; try easy.
    + destruct Gt as (e & E & _). injection E as <- ->. reflexivity.
    + exfalso. destruct Gt as (_ & F). inversion F as [|? ? [_ K] _]; subst. apply Nl. apply (ascii_alphabetic colon AL); [|exact K].
      apply (segment_ascii colon SL AL s HA _ _ _ c Hs). apply in_or_app. right. now left.
Qed.

Lemma text_pieces : exists ps, map token (ll_tokens l) = map (fun p => LText (fst p) (snd p)) ps /\ concat (map fst ps) = s
  /\ forall ps1 t tag ps2, ps = ps1 ++ (t, tag) :: ps2 -> token_at l (concat (map fst ps1)) t tag (concat (map fst ps2)).
Proof.
  destruct (line_pieces tg sz s ats l HW HC) as (pss & HP & ET). exists (concat pss). split; [exact ET|]. split.
  - rewrite (segments_pieces _ _ HP). apply (seg_concat SL).
  - intros ps1 t tag ps2 E. exists (map (fun p => LText (fst p) (snd p)) ps1), (map (fun p => LText (fst p) (snd p)) ps2).
    rewrite ET, E, map_app. split; [reflexivity|]. split; apply ltext_pieces.
Qed.

Context (r : AmountResolver) (HD : no_digit_signs r) (HPl : plain_decimal r).

Lemma found_rows : exists ps ms outs, map token (ll_tokens l) = map (fun p => LText (fst p) (snd p)) ps
  /\ number_marks l r ms /\ whole_pass Idle 0 ms = Some outs /\ Forall2 (same_found ps) outs (numbers_in r s).
Proof.
  destruct text_pieces as (ps & ET & ES & HT).
  assert (HW' : Forall wf_input [InText s ats]) by (constructor; [exact HW|constructor]).
  destruct (thm_C82_marks tg sz _ l r HW' HC) as (ms & HM & _).
  assert (HF : Forall2 (piece_mark r) ms ps).
  { destruct HM as (LM & HM). assert (LP : length ms = length ps) by (rewrite LM, <- (map_length token), ET; apply map_length).
    clear HT ES. 
    assert (G : forall ms ps toks k, length ms = length ps -> map token toks = map (fun p : str * TextTag => LText (fst p) (snd p)) ps ->
      (forall i m tok, nth_error ms i = Some m -> nth_error toks i = Some tok -> number_mark l r (k + i) m tok) -> Forall2 (piece_mark r) ms ps).
    { clear. induction ms as [|m ms IH]; intros [|p ps] toks k L E H; try discriminate; [constructor|]. destruct toks as [|tok toks]; [discriminate|]. injection E as E1 E2. constructor.
      - specialize (H 0 m tok eq_refl eq_refl). unfold number_mark in H. rewrite E1 in H. exact H.
      - apply (IH ps toks (S k)); [now injection L|exact E2|]. intros i m' tok' Hm Ht. replace (S k + i) with (k + S i) by lia. now apply H. }
    apply (G ms ps (ll_tokens l) 0 LP ET). exact HM. }
  destruct (pass_found r ps) with (ms2 := ms) (ps2 := ps) (ps1 := @nil (str * TextTag)) (st := Idle) (pend := @nil (LRange * str)) (c := Nothing) as (outs & E & HO).
  - intros ps1 t ps2 E. exact (number_token_facts _ _ _ (HT _ _ _ _ E)).
  - intros ps1 t tag ps2 E NN. exact (other_token_facts _ _ _ _ (HT _ _ _ _ E) NN).
  - intros ps1 t tag ps2 E NN Hs Hn He. destruct HPl as [C|[H1 H2]]; [contradiction|]. exact (sign_token_facts _ _ _ _ _ (HT _ _ _ _ E) NN Hs H1 H2 He).
  - exact HF.
  - reflexivity.
  - reflexivity.
  - exists ps, ms, outs. split; [exact ET|]. split; [exact HM|]. split; [exact E|]. cbn [map concat app] in HO. rewrite ES in HO. exact HO.
Qed.

Lemma token_texts_pieces ps : map token (ll_tokens l) = map (fun p => LText (fst p) (snd p)) ps -> token_texts l = map fst ps.
Proof.
  intros E. unfold token_texts. rewrite <- (map_map token ltext), E, map_map. apply map_ext. now intros [t tag].
Qed.

Lemma text_between_firstn i j : i <= j < length (ll_tokens l) ->
  concat (firstn (S j) (token_texts l)) = concat (firstn i (token_texts l)) ++ text_between (ll_tokens l) i j.
Proof.
  intros (Hij & Hj). unfold text_between, token_texts. generalize (ll_tokens l) Hj. intros toks Hj'. clear - Hij Hj'.
  replace (S j) with (i + (S j - i)) at 1 by lia. assert (Hb : i + (S j - i) <= length toks) by lia. revert Hb. generalize (S j - i). clear Hij Hj'. intros n.
  induction n as [|n IH]; intros Hb.
  - rewrite Nat.add_0_r. cbn. now rewrite app_nil_r.
  - rewrite seq_S, flat_map_app, app_assoc, <- IH by lia. cbn [flat_map]. rewrite app_nil_r.
    destruct (nth_error_lt toks (i + n)) as (tok & Etok); [lia|]. rewrite Etok. replace (i + S n) with (S (i + n)) by lia.
    clear - Etok. revert toks Etok. generalize (i + n). induction n0 as [|k IH]; intros [|x toks] E; try discriminate.
    + injection E as ->. cbn. rewrite app_nil_r. unfold token_str, ltext. now destruct (token tok).
    + cbn [firstn map concat]. cbn [nth_error] in E. rewrite <- app_assoc, <- (IH toks E). reflexivity.
Qed.

Lemma parsed_rows parse ps outs fs ds : map token (ll_tokens l) = map (fun p => LText (fst p) (snd p)) ps ->
  Forall2 (same_found ps) outs fs -> all_parsed parse fs ds ->
  exists out, parsed parse outs = Some out /\ Forall2 (row_for l) (combine fs ds) (map (amount_row (ll_tokens l)) out).
Proof.
  intros ET HO HP. revert outs HO. induction HP as [|f d fs ds Hf _ IH]; intros outs HO; inversion HO as [|o ? outs' ? Ho HO']; subst.
  - exists []. split; [reflexivity|constructor].
  - destruct (IH _ HO') as (out & E & HR). destruct o as [[i j] x], f as [[b t] y]. destruct Ho as (-> & Hij & E1 & E2). cbn [snd] in Hf.
    exists (((i, j), d) :: out). cbn [parsed]. rewrite Hf, E. split; [reflexivity|]. cbn [combine map]. constructor; [|exact HR].
    assert (LL : length ps = length (ll_tokens l)) by (rewrite <- (map_length token), ET; symmetry; apply map_length).
    rewrite LL in Hij. pose proof (text_between_firstn i j Hij) as TB. rewrite (token_texts_pieces ps ET), !firstn_map, E1, E2 in TB. apply app_inv_head in TB.
    unfold row_for, amount_row. cbn [fst snd]. rewrite (token_texts_pieces ps ET), !firstn_map. auto.
Qed.

Lemma refused parse ps outs fs f : Forall2 (same_found ps) outs fs -> In f fs -> parse (snd f) = None -> parsed parse outs = None.
Proof.
  intros HO. induction HO as [|[[i j] x] [[b t] y] outs fs Ho HO IH]; intros Hf HN; [destruct Hf|]. cbn [parsed]. destruct Ho as (-> & _).
  destruct Hf as [<-|Hf].
  - cbn [snd] in HN. now rewrite HN.
  - rewrite (IH Hf HN). now destruct (parse y).
Qed.
End Text.

(** C90: the amounts of a text. *)
Lemma thm_C90_amounts :
  forall (SL : SegmenterLaws) colon (AL : AsciiLaws colon) tg sz s ats l parse r id,
    ascii s -> digits_apart s -> no_digit_signs r -> plain_decimal r -> Forall wf_attribute ats ->
    (forall t, In t [TTextTag; TChar; TAmount] -> none_of t [InText s ats]) ->
    create_line_from_input_tokens tg [InText s ats] sz = Ok l ->
    (forall ds, all_parsed parse (numbers_in r s) ds ->
       exists l' rows, run id l (amount_go parse r) = Ok l' /\ query l' TAmount = Ok rows
         /\ Forall2 (row_for l) (combine (numbers_in r s) ds) rows)
    /\ ((exists x, In x (numbers_in r s) /\ parse (snd x) = None) -> exists p, run id l (amount_go parse r) = Panic p).
Proof.
  intros SL colon AL tg sz s ats l parse r id HA HL HD HPl HW HN HC.
  destruct (found_rows SL colon AL tg sz s ats l HA HL HW HC r HPl) as (ps & ms & outs & ET & HM & HP & HO).
  assert (HW' : Forall wf_input [InText s ats]) by (constructor; [exact HW|constructor]).
  pose proof (thm_C82_pass tg sz _ l parse r id ms HW' (HN TTextTag ltac:(cbn; tauto)) (HN TChar ltac:(cbn; tauto)) (HN TAmount ltac:(cbn; tauto)) HC HD HM) as HR.
  rewrite HP in HR. split.
  - intros ds Hds. destruct (parsed_rows l parse ps outs _ ds ET HO Hds) as (out & E & HF). rewrite E in HR. destruct HR as (l' & R1 & R2).
    exists l', (map (amount_row (ll_tokens l)) out). auto.
  - intros (x & Hx & Ex). rewrite (refused parse ps outs _ x HO Hx Ex) in HR. exact HR.
Qed.

(** C90: amounts are written numbers, and no digit is left out. *)
Lemma thm_C90_written :
  forall (SL : SegmenterLaws) colon (AL : AsciiLaws colon) tg sz s ats l parse r id l',
    ascii s -> digits_apart s -> no_digit_signs r -> plain_decimal r -> Forall wf_attribute ats ->
    (forall t, In t [TTextTag; TChar; TAmount] -> none_of t [InText s ats]) ->
    create_line_from_input_tokens tg [InText s ats] sz = Ok l ->
    run id l (amount_go parse r) = Ok l' ->
    exists rows, query l' TAmount = Ok rows
      /\ (forall i j text ds, In ((i, j), text, ds) rows ->
            let b := concat (firstn i (token_texts l)) in let a := concat (skipn (S j) (token_texts l)) in
            s = b ++ text ++ a /\ ~ ends_in b ascii_digit /\ ~ starts_in a ascii_digit
            /\ exists w d, well_written r w /\ text = concat (SpecWritten.parts_of r w) /\ ds = [d]
                 /\ (parse (denoted w) = Some d
                     \/ (fraction w = None /\ starts_in a (is (decimal r)) /\ parse (denoted w ++ point) = Some d)))
      /\ (forall p c q, s = p ++ c :: q -> ascii_digit c ->
            exists i j t1 t2 ds, In ((i, j), t1 ++ c :: t2, ds) rows /\ p = concat (firstn i (token_texts l)) ++ t1).
Proof.
  intros SL colon AL tg sz s ats l parse r id l' HA HL HD HPl HW HN HC HR.
  destruct (thm_C90_amounts SL colon AL tg sz s ats l parse r id HA HL HD HPl HW HN HC) as (H1 & H2).
  assert (K : (exists ds, all_parsed parse (numbers_in r s) ds) \/ exists x, In x (numbers_in r s) /\ parse (snd x) = None).
  { clear. induction (numbers_in r s) as [|f fs IH]; [left; exists []; constructor|]. destruct (parse (snd f)) as [d|] eqn:E.
    - destruct IH as [(ds & H)|(x & Hx & Ex)]; [left; exists (d :: ds); now constructor|right; exists x; split; [now right|exact Ex]].
    - right. exists f. split; [now left|exact E]. }
  destruct K as [(ds & Hds)|K]; [|destruct (H2 K) as (p & C); congruence].
  destruct (H1 ds Hds) as (l2 & rows & E & Q & HF). assert (l2 = l') by congruence. subst l2. exists rows. split; [exact Q|].
  assert (HS0 : state_ok r Nothing []) by (intros C; now apply ends_in_nil in C).
  assert (TC : concat (token_texts l) = s).
  { destruct (text_pieces SL tg sz s ats l HW HC) as (ps & ET & ES & _). now rewrite (token_texts_pieces l ps ET). }
  split.
  - intros i j text vs Hin. cbv zeta.
    assert (G : exists x, In x (combine (numbers_in r s) ds) /\ row_for l x ((i, j), text, vs)).
    { clear - HF Hin. induction HF as [|x y xs ys H HF IH]; [destruct Hin|]. destruct Hin as [->|Hin]; [exists x; split; [now left|exact H]|].
      destruct (IH Hin) as (z & Hz & Hr). exists z. split; [now right|exact Hr]. }
    destruct G as ([[[b t] y] d] & Hx & -> & -> & Hij & Eb & Et).
    pose proof (in_combine_l _ _ _ _ Hx) as Hf. pose proof (found_good r HD s Nothing [] HS0) as FG. rewrite Forall_forall in FG. destruct (FG _ Hf) as (a & Es & Nb & Na & w & W1 & W2 & W3).
    cbn [app] in Es. rewrite Eb.
    assert (Ea : concat (skipn (S j) (token_texts l)) = a).
    { rewrite <- (firstn_skipn (S j) (token_texts l)), concat_app, Et in TC. rewrite Es, <- app_assoc in TC. apply app_inv_head in TC. now apply app_inv_head in TC. }
    rewrite Ea. split; [exact Es|]. rewrite dig_ends, dig_starts. split; [exact Nb|]. split; [exact Na|]. exists w, d. split; [exact W1|]. split; [exact W2|]. split; [reflexivity|].
    assert (Py : parse y = Some d).
    { clear - Hds Hx. induction Hds as [|f e fs ds H _ IH]; [destruct Hx|]. destruct Hx as [E|Hx]; [injection E as -> ->; exact H|auto]. }
    destruct W3 as [(-> & _)|(Ef & -> & Hs & _)]; [now left|right; auto].
  - intros p c q Es Hc. apply digit_iff in Hc. destruct (digit_found r p Nothing [] c q HS0 Hc) as (b & t1 & t2 & x & Hx & Ep). rewrite <- Es in Hx. cbn [app] in Ep.
    assert (G : exists d y, In ((b, t1 ++ c :: t2, x), d) (combine (numbers_in r s) ds) /\ In y rows /\ row_for l ((b, t1 ++ c :: t2, x), d) y).
    { assert (LE : length (numbers_in r s) = length ds) by (clear - Hds; induction Hds; cbn; congruence). clear - Hx HF LE. change (found_from r Nothing [] s) with (numbers_in r s) in Hx.
      revert ds rows HF LE Hx. induction (numbers_in r s) as [|f fs IH]; intros ds rows HF LE Hx; [destruct Hx|]. destruct ds as [|d ds]; [discriminate|]. cbn [combine] in HF. inversion HF as [|? y ? ys Hy HF']; subst.
      destruct Hx as [->|Hx]; [exists d, y; split; [now left|split; [now left|exact Hy]]|]. destruct (IH ds ys HF' ltac:(now injection LE) Hx) as (d' & y' & A1 & A2 & A3). exists d', y'. split; [now right|]. split; [now right|exact A3]. }
    destruct G as (d & [[[i j] text] vs] & _ & Hy & -> & -> & Hij & Eb & _). exists i, j, t1, t2, [d]. split; [exact Hy|]. now rewrite Eb.
Qed.
End C90.
