(** Facts about the creation of lines with size functions that have memory. *)

From Verif Require Export LemTokens SpecMem ModelSize.

Local Notation sized := (prod LToken N).

Section LemSize.
Context {UC : Unicode} {U : UserTypes}.

Lemma in_turn_app {M A B} (F : A -> M -> M -> res B -> Prop) xs ys st st1 r1 : in_turn F xs st st1 r1 ->
  (forall bs, r1 = Ok bs -> forall st2 r2, in_turn F ys st1 st2 r2 ->
      in_turn F (xs ++ ys) st st2 (rmap (app bs) r2))
  /\ ((forall bs, r1 <> Ok bs) -> in_turn F (xs ++ ys) st st1 r1).
Proof.
  induction 1 as [st|a xs st st1 st' b r E H IH|a xs st st' p E|a xs st st' E]; (split; [intros bs Eb st2 r2 H2|intros Hn]).
  - injection Eb as <-. change ([] ++ ys) with ys. replace (rmap (app []) r2) with r2 by (destruct r2; reflexivity). exact H2.
  - now elim (Hn []).
  - destruct r as [bs0| |]; try discriminate Eb. injection Eb as <-.
    destruct IH as (IH & _). specialize (IH bs0 eq_refl st2 r2 H2). change ((a :: xs) ++ ys) with (a :: xs ++ ys).
    replace (rmap (app (b :: bs0)) r2) with (rmap (cons b) (rmap (app bs0) r2)) by (destruct r2; reflexivity).
    eapply T_answer; eauto.
  - destruct IH as (_ & IH). change ((a :: xs) ++ ys) with (a :: xs ++ ys). eapply T_answer; eauto. apply IH. intros bs ->. now elim (Hn (b :: bs)).
  - discriminate Eb.
  - now constructor.
  - discriminate Eb.
  - now constructor.
Qed.

Lemma in_turn_fun {M A B} (F : A -> M -> M -> res B -> Prop) xs :
  (forall a st st1 r1 st2 r2, F a st st1 r1 -> F a st st2 r2 -> st1 = st2 /\ r1 = r2) ->
  forall st st1 r1, in_turn F xs st st1 r1 -> forall st2 r2, in_turn F xs st st2 r2 -> st1 = st2 /\ r1 = r2.
Proof.
  intros HF. induction 1 as [st|a xs st st1 st' b r E H IH|a xs st st' p E|a xs st st' E]; intros st2 r2 H2; inversion H2; subst; auto;
    match goal with H1 : F a st _ _ |- _ => destruct (HF _ _ _ _ _ _ E H1) as (<- & E2) end; try discriminate E2; auto.
  - injection E2 as <-. match goal with H3 : in_turn F xs st1 _ _ |- _ => destruct (IH _ _ H3) as (<- & <-) end. auto.
  - now injection E2 as <-.
Qed.
Lemma calling_fun {M A B} (f : A -> mem M B) a st st1 r1 st2 r2 : calling f a st st1 r1 -> calling f a st st2 r2 -> st1 = st2 /\ r1 = r2.
Proof. unfold calling. intros E1 E2. rewrite E1 in E2. now injection E2 as <- <-. Qed.

Lemma in_turn_length {M A B} (F : A -> M -> M -> res B -> Prop) xs st st' r : in_turn F xs st st' r ->
  forall bs, r = Ok bs -> length bs = length xs.
Proof.
  induction 1 as [st|a xs st st1 st' b r E H IH|a xs st st' p E|a xs st st' E]; intros bs Eb; try discriminate Eb.
  - now injection Eb as <-.
  - destruct r as [bs0| |]; try discriminate Eb. injection Eb as <-. cbn. now rewrite (IH bs0).
Qed.

Lemma in_turn_prefix {M A B} (f : A -> mem M B) xs ys st st' bs : in_turn (calling f) (xs ++ ys) st st' (Ok bs) ->
  exists st1 cs ds, in_turn (calling f) xs st st1 (Ok cs) /\ in_turn (calling f) ys st1 st' (Ok ds) /\ bs = cs ++ ds.
Proof.
  revert st bs. induction xs as [|x xs IH]; intros st bs H.
  - exists st, [], bs. split; [constructor|]. auto.
  - inversion H as [|? ? ? st1 ? b r E T| |]; subst. destruct r as [bs0| |]; try discriminate.
    cbn in *. match goal with X : Ok _ = Ok _ |- _ => injection X as <- end.
    destruct (IH st1 bs0 T) as (st2 & cs & ds & T1 & T2 & ->). exists st2, (b :: cs), ds.
    split; [exact (T_answer (calling f) x xs st st1 st2 b (Ok cs) E T1)|]. auto.
Qed.

Lemma in_turn_plainly {M A B} (f : A -> B) xs (st : M) : in_turn (calling (plainly f)) xs st st (Ok (map f xs)).
Proof.
  induction xs as [|a xs IH]; [constructor|].
  exact (T_answer (calling (plainly f)) a xs st st st (f a) (Ok (map f xs)) eq_refl IH).
Qed.

Lemma in_turn_mapM {M A B} (F : A -> M -> M -> res B -> Prop) (f : A -> mem M B) xs :
  (forall a st, In a xs -> exists st' r, F a st st' r /\ f a st = (st', r)) ->
  forall st, exists st' r, in_turn F xs st st' r /\ mem_mapM f xs st = (st', r).
Proof.
  induction xs as [|a xs IH]; intros HF st; [do 2 eexists; split; [constructor|reflexivity]|].
  cbn [mem_mapM]. unfold mbind. destruct (HF a st (or_introl eq_refl)) as (st1 & r1 & H1 & ->).
  destruct r1 as [b|p|]; [|exists st1, (Panic p); split; [now constructor|reflexivity]|exists st1, OutOfFuel; split; [now constructor|reflexivity]].
  destruct (IH (fun a' st' H => HF a' st' (or_intror H)) st1) as (st2 & r2 & H2 & ->).
  exists st2, (rmap (cons b) r2). split; [eapply T_answer; eauto|]. destruct r2; reflexivity.
Qed.

(** ** Sizes of the tokens of a text *)

Section Sizes.
Context {M : Type} (size : str -> mem M N).

(** The part [prog] of the tokenizer asks for the sizes of the texts of [ts] in turn and adds_tokens these tokens. *)
Definition adds_tokens (ts : list LToken) (prog : list sized -> mem M (list sized)) : Prop :=
  forall acc st, exists st' r, in_turn (calling size) (map ltext ts) st st' r
    /\ prog acc st = (st', rmap (fun ns => acc ++ combine ts ns) r).

Lemma adds_nothing : adds_tokens [] (fun acc => lift (Ok acc)).
Proof. intros acc st. exists st, (Ok []). split; [constructor|]. cbn. now rewrite app_nil_r. Qed.

Lemma combine_app {A B} (xs xs' : list A) (ys ys' : list B) : length ys = length xs ->
  combine (xs ++ xs') (ys ++ ys') = combine xs ys ++ combine xs' ys'.
Proof.
  revert ys. induction xs as [|x xs IH]; intros [|y ys] E; try discriminate E; [reflexivity|].
  cbn. now rewrite IH by (injection E; auto).
Qed.

Lemma adds_seq ts1 ts2 p1 p2 : adds_tokens ts1 p1 -> adds_tokens ts2 p2 -> adds_tokens (ts1 ++ ts2) (fun acc => mbind (p1 acc) p2).
Proof.
  intros H1 H2 acc st. destruct (H1 acc st) as (st1 & r1 & T1 & E1).
  rewrite map_app. unfold mbind. rewrite E1.
  destruct (in_turn_app (calling size) (map ltext ts1) (map ltext ts2) st st1 r1 T1) as (A & B).
  destruct r1 as [ns1|p|]; cbn [rmap bind].
  - destruct (H2 (acc ++ combine ts1 ns1) st1) as (st2 & r2 & T2 & E2).
    exists st2, (rmap (app ns1) r2). split; [apply (A ns1 eq_refl); exact T2|].
    rewrite E2. destruct r2 as [ns2| |]; try reflexivity. cbn [rmap bind].
    rewrite combine_app by (rewrite (in_turn_length _ _ _ _ _ T1 ns1 eq_refl); apply map_length).
    now rewrite app_assoc.
  - exists st1, (Panic p). split; [apply B; discriminate|reflexivity].
  - exists st1, OutOfFuel. split; [apply B; discriminate|reflexivity].
Qed.

Lemma adds_ext ts p q : (forall acc st, p acc st = q acc st) -> adds_tokens ts p -> adds_tokens ts q.
Proof. intros E H acc st. destruct (H acc st) as (st' & r & T & X). exists st', r. now rewrite <- E. Qed.

Lemma adds_one s tag : adds_tokens [LText s tag] (fun acc => mbind (size s) (fun n => lift (Ok (acc ++ [(LText s tag, n)])))).
Proof.
  intros acc st. cbn [map ltext]. unfold mbind. destruct (size s st) as [st1 [n|p|]] eqn:E.
  - exists st1, (rmap (cons n) (Ok [])). split; [econstructor; [exact E|constructor]|reflexivity].
  - exists st1, (Panic p). split; [now constructor|reflexivity].
  - exists st1, OutOfFuel. split; [now constructor|reflexivity].
Qed.

Definition run_of (tag : TextTag) (s : str) : list LToken := match s with [] => [] | _ => [LText s tag] end.

Lemma adds_digits ds : adds_tokens (run_of NATN ds) (fun acc => mem_flush_digits size acc ds).
Proof. destruct ds as [|d ds]; [apply adds_nothing|apply adds_one]. Qed.
Lemma adds_letters ls : adds_tokens (run_of WORD ls) (fun acc => mem_flush_letters size acc ls).
Proof. destruct ls as [|d ls]; [apply adds_nothing|apply adds_one]. Qed.

(** The tokens of a digit-led segment. *)
Fixpoint split_tokens (cs digits letters : str) : list LToken :=
  match cs with
  | [] => run_of WORD letters ++ run_of NATN digits
  | ch :: cs' =>
      if is_ascii_digit ch then run_of WORD letters ++ split_tokens cs' (digits ++ [ch]) []
      else if u_alphabetic ch then run_of NATN digits ++ split_tokens cs' [] (letters ++ [ch])
      else run_of WORD letters ++ run_of NATN digits ++ [LText [ch] PUNC] ++ split_tokens cs' [] []
  end.

Lemma adds_split cs : forall ds ls, adds_tokens (split_tokens cs ds ls) (mem_split_digit_word size cs ds ls).
Proof.
  induction cs as [|ch cs IH]; intros ds ls; cbn [split_tokens].
  - exact (adds_seq _ _ _ _ (adds_letters ls) (adds_digits ds)).
  - eapply adds_ext; [intros acc st; cbn [mem_split_digit_word]; reflexivity|].
    destruct (is_ascii_digit ch); [|destruct (u_alphabetic ch)].
    + exact (adds_seq _ _ _ _ (adds_letters ls) (IH (ds ++ [ch]) [])).
    + exact (adds_seq _ _ _ _ (adds_digits ds) (IH [] (ls ++ [ch]))).
    + refine (adds_seq _ _ _ _ (adds_letters ls) (adds_seq _ _ _ (fun acc => mbind (size [ch]) _) (adds_digits ds) _)).
      eapply adds_ext; [|exact (adds_seq _ _ _ _ (adds_one [ch] PUNC) (IH [] []))].
      intros acc st. unfold mbind, lift. destruct (size [ch] st) as [st1 [n|p|]]; reflexivity.
Qed.

End Sizes.

Section Texts.
Context {M : Type} (size : str -> mem M N).

Definition unsized (ts : list LToken) : list sized := map (fun t => (t, 0%N)) ts.
Definition size_zero : str -> N := fun _ => 0%N.

Lemma flush_digits_zero acc ds : flush_digits size_zero acc ds = acc ++ unsized (run_of NATN ds).
Proof. destruct ds; [cbn; now rewrite app_nil_r|reflexivity]. Qed.
Lemma flush_letters_zero acc ls : flush_letters size_zero acc ls = acc ++ unsized (run_of WORD ls).
Proof. destruct ls; [cbn; now rewrite app_nil_r|reflexivity]. Qed.

Lemma split_zero cs : forall ds ls acc, split_digit_word size_zero cs ds ls acc = acc ++ unsized (split_tokens cs ds ls).
Proof.
  induction cs as [|ch cs IH]; intros ds ls acc; cbn [split_digit_word split_tokens].
  - rewrite flush_digits_zero, flush_letters_zero. unfold unsized. now rewrite map_app, app_assoc.
  - destruct (is_ascii_digit ch); [|destruct (u_alphabetic ch)]; rewrite IH, ?flush_digits_zero, ?flush_letters_zero;
      unfold unsized; rewrite !map_app, <- ?app_assoc; reflexivity.
Qed.

(** One segment: its tokens, or no token and a panic before any question. *)
Lemma segment_tokens w : (exists ts, adds_tokens size ts (fun acc => mem_tokens_of_segment size acc w)
     /\ forall acc, tokens_of_segment size_zero acc w = Ok (acc ++ unsized ts))
  \/ exists p, (forall acc st, mem_tokens_of_segment size acc w st = (st, Panic p)) /\ forall acc, tokens_of_segment size_zero acc w = Panic p.
Proof.
  unfold mem_tokens_of_segment, tokens_of_segment. destruct w as [|c w]; [right; eexists; split; reflexivity|].
  destruct (is_ascii_digit c); [destruct (str_is_ascii (c :: w))|].
  - left. exists (split_tokens (c :: w) [] []). split; [apply adds_split|]. intros acc. now rewrite split_zero.
  - right; eexists; split; reflexivity.
  - left. exists [LText (c :: w) (get_unicode_word_tag (c :: w))]. split; [apply adds_one|]. reflexivity.
Qed.

Lemma segments_tokens ws : (exists ts, adds_tokens size ts (mem_foldM (mem_tokens_of_segment size) ws)
     /\ forall acc, foldM (tokens_of_segment size_zero) ws acc = Ok (acc ++ unsized ts))
  \/ exists ts p, (forall acc st, exists st' r, in_turn (calling size) (map ltext ts) st st' r
          /\ mem_foldM (mem_tokens_of_segment size) ws acc st = (st', match r with Ok _ => Panic p | Panic q => Panic q | OutOfFuel => OutOfFuel end))
       /\ forall acc, foldM (tokens_of_segment size_zero) ws acc = Panic p.
Proof.
  induction ws as [|w ws IH].
  - left. exists []. split; [apply adds_nothing|]. intros acc. cbn. now rewrite app_nil_r.
  - destruct (segment_tokens w) as [(ts & HA & HP)|(p & HA & HP)].
    + destruct IH as [(ts' & HA' & HP')|(ts' & p & HA' & HP')].
      * left. exists (ts ++ ts'). split; [exact (adds_seq size _ _ _ _ HA HA')|].
        intros acc. cbn [foldM]. rewrite HP. cbn [bind]. rewrite HP'. unfold unsized. now rewrite map_app, app_assoc.
      * right. exists (ts ++ ts'), p. split.
        -- intros acc st. destruct (HA acc st) as (st1 & r1 & T1 & E1). cbn [mem_foldM]. unfold mbind. rewrite E1, map_app.
           destruct (in_turn_app (calling size) (map ltext ts) (map ltext ts') st st1 r1 T1) as (A & B).
           destruct r1 as [ns1|q|]; cbn [rmap bind].
           ++ destruct (HA' (acc ++ combine ts ns1) st1) as (st2 & r2 & T2 & E2). exists st2, (rmap (app ns1) r2).
              split; [apply (A ns1 eq_refl); exact T2|]. rewrite E2. destruct r2; reflexivity.
           ++ exists st1, (Panic q). split; [apply B; discriminate|reflexivity].
           ++ exists st1, OutOfFuel. split; [apply B; discriminate|reflexivity].
        -- intros acc. cbn [foldM]. rewrite HP. cbn [bind]. apply HP'.
    + right. exists [], p. split.
      * intros acc st. exists st, (Ok []). split; [constructor|]. cbn [mem_foldM]. unfold mbind. now rewrite HA.
      * intros acc. cbn [foldM]. now rewrite HP.
Qed.

(** An input token that is accepted. *)
Lemma input_tokens_ok it g0 : input_ltokens size_zero it = Ok g0 -> forall st, exists st' r,
  in_turn (calling size) (match it with InText _ _ => map ltext (map fst g0) | InCustom _ _ => [] end) st st' r
  /\ mem_input_ltokens size it st
     = (st', rmap (fun ns => match it with InText _ _ => combine (map fst g0) ns | InCustom n _ => [(LValue, n)] end) r).
Proof.
  intros H st. destruct it as [text ats|n ats]; cbn [input_ltokens] in H.
  - unfold create_tokens_for_string in H. cbn [mem_input_ltokens]. unfold mem_create_tokens_for_string.
    destruct (segments_tokens (u_words text)) as [(ts & HA & HP)|(ts & p & HA & HP)]; rewrite HP in H; [|discriminate H].
    injection H as <-. change ([] ++ unsized ts) with (unsized ts).
    assert (X : map fst (unsized ts) = ts) by (unfold unsized; rewrite map_map; apply map_id). rewrite X. exact (HA [] st).
  - exists st, (Ok []). split; [constructor|reflexivity].
Qed.
Lemma input_tokens_inv it st st' g : mem_input_ltokens size it st = (st', Ok g) ->
  exists g0, input_ltokens size_zero it = Ok g0.
Proof.
  destruct it as [text ats|n ats]; cbn [input_ltokens mem_input_ltokens]; [|eauto].
  unfold create_tokens_for_string, mem_create_tokens_for_string.
  destruct (segments_tokens (u_words text)) as [(ts & HA & HP)|(ts & p & HA & HP)]; [rewrite HP; eauto|].
  destruct (HA [] st) as (st1 & r & _ & ->). destruct r; discriminate.
Qed.

End Texts.

(** ** Laying out tokens of any sizes *)

(** What the creation loop does with the sized tokens of one input token. *)
Definition place_group (tg : Target) (cs : CreateState) (it : InputToken) (g : list sized) : res CreateState :=
  match g with
  | [] => Panic PEmptyText
  | _ :: _ =>
      '(toks, size) <- foldM (push_lltoken tg) g (cs_tokens cs, cs_size cs);;
      to_idx <- sub_usize (length toks) 1;;
      Ok (mkCS (cs_attrs cs ++ [(length (cs_tokens cs), to_idx, input_attrs it)]) toks size)
  end.
Definition place_all (tg : Target) (cs : CreateState) (input : list InputToken) (groups : list (list sized)) : res CreateState :=
  foldM (fun cs x => place_group tg cs (fst x) (snd x)) (combine input groups) cs.

Lemma place_all_ok tg : forall input groups cs, length groups = length input ->
  Forall (fun g => g <> []) groups ->
  fits tg (cs_size cs) (concat groups) ->
  place_all tg cs input groups =
  Ok (mkCS (cs_attrs cs ++ spans (length (cs_tokens cs)) groups input)
           (cs_tokens cs ++ layout_by (wadd tg) (length (cs_tokens cs)) (cs_size cs) (concat groups))
           (fold_left (wadd tg) (map snd (concat groups)) (cs_size cs))).
Proof.
  induction input as [|it input IH]; intros [|g groups] st HL HN HF; try discriminate HL.
  - cbn. rewrite !app_nil_r. now destruct st.
  - inversion HN as [|? ? Hg0 HN']; subst. unfold place_all. cbn [combine foldM]. cbn [fst snd].
    destruct g as [|x g]; [easy|].
    assert (F1 : fits tg (cs_size st) (x :: g)).
    { destruct HF as [F|[F|F]]; [left; auto|discriminate|]. right; right.
      simpl concat in F. change (x :: g ++ concat groups) with ((x :: g) ++ concat groups) in F.
      rewrite total_app in F. lia. }
    unfold place_group at 1. rewrite (push_fold tg (x :: g)) by exact F1. cbn [bind].
    set (toks' := cs_tokens st ++ layout_by (wadd tg) (length (cs_tokens st)) (cs_size st) (x :: g)).
    assert (L : length toks' = length (cs_tokens st) + length (x :: g)).
    { unfold toks'. now rewrite app_length, layout_by_length. }
    unfold sub_usize, checked_sub. rewrite L.
    rewrite (proj2 (Nat.leb_le 1 (length (cs_tokens st) + length (x :: g)))) by (simpl; lia).
    cbn [expect bind]. unfold place_all in IH. rewrite (IH groups).
    + cbn [cs_attrs cs_tokens cs_size]. f_equal. f_equal.
      * rewrite <- app_assoc. simpl app. rewrite L. reflexivity.
      * rewrite L. unfold toks'. rewrite <- app_assoc. f_equal.
        change (concat ((x :: g) :: groups)) with ((x :: g) ++ concat groups). rewrite layout_by_app. reflexivity.
      * change (concat ((x :: g) :: groups)) with ((x :: g) ++ concat groups). rewrite map_app, fold_left_app. reflexivity.
    + now injection HL.
    + auto.
    + cbn [cs_size]. destruct HF as [F|[F|F]]; [left; auto|discriminate|]. right; right.
      simpl concat in F. change (x :: g ++ concat groups) with ((x :: g) ++ concat groups) in F.
      rewrite total_app in F.
      destruct (wadd_fold_exact tg (x :: g) 0 (cs_size st)) as [_ E]; [lia|]. rewrite E. lia.
Qed.

Lemma place_all_inv tg : forall input groups cs cs', length groups = length input ->
  (cs_size cs < usize_mod tg)%N ->
  place_all tg cs input groups = Ok cs' ->
  Forall (fun g => g <> []) groups /\ fits tg (cs_size cs) (concat groups).
Proof.
  induction input as [|it input IH]; intros [|g groups] st st' HL Hs H; try discriminate HL.
  - split; [constructor|]. right; left; reflexivity.
  - unfold place_all in H. cbn [combine foldM fst snd] in H. inv_bind H. rename a into st1.
    unfold place_group in E. destruct g as [|x g]; [discriminate|]. inv_bind E. destruct a as [toks size].
    assert (HF : fits tg (cs_size st) (x :: g)).
    { destruct (N.ltb_spec (cs_size st + total (x :: g)) (usize_mod tg)) as [|Hge].
      - right; right; auto.
      - destruct (overflow_checks tg) eqn:C; [|left; auto].
        rewrite push_fold_panic in E0; auto; [discriminate|].
        intros [F|[F|F]]; [congruence|discriminate|lia]. }
    rewrite push_fold in E0 by exact HF. apply Ok_inj in E0. inversion E0; subst toks size. clear E0.
    inv_bind E. apply Ok_inj in E. subst st1.
    apply IH in H; [|now injection HL|cbn [cs_size]; apply (wadd_fold_lt tg (map snd (x :: g))); exact Hs].
    destruct H as (G2 & G3).
    split; [constructor; auto; discriminate|].
    change (fits tg (fold_left (wadd tg) (map snd (x :: g)) (cs_size st)) (concat groups)) in G3. destruct (overflow_checks tg) eqn:C; [|left; auto].
    right; right. simpl concat.
    change (x :: g ++ concat groups) with ((x :: g) ++ concat groups). rewrite total_app.
    destruct HF as [F|[F|F]]; [congruence|discriminate|].
    destruct (wadd_fold_exact tg (x :: g) 0 (cs_size st)) as [_ EW]; [lia|].
    rewrite EW in G3. destruct G3 as [G3|[G3|G3]]; [congruence| |lia].
    rewrite G3. simpl total at 2. lia.
Qed.

Lemma place_all_panic tg : forall input groups cs, length groups = length input ->
  Forall (fun g => g <> []) groups -> (cs_size cs < usize_mod tg)%N ->
  ~ fits tg (cs_size cs) (concat groups) -> place_all tg cs input groups = Panic POverflow.
Proof.
  induction input as [|it input IH]; intros [|g groups] st HL HN Hs HF; try discriminate HL.
  - elim HF. right; left; reflexivity.
  - inversion HN as [|? ? Hg0 HN']; subst. unfold place_all. cbn [combine foldM]. cbn [fst snd].
    destruct g as [|x g]; [easy|]. unfold place_group at 1.
    assert (C : overflow_checks tg = true) by (destruct (overflow_checks tg) eqn:C; auto; elim HF; left; auto).
    destruct (N.ltb_spec (cs_size st + total (x :: g)) (usize_mod tg)) as [Hlt|Hge].
    + rewrite (push_fold tg (x :: g)) by (right; right; exact Hlt). cbn [bind].
      unfold sub_usize, checked_sub. rewrite app_length, layout_by_length.
      rewrite (proj2 (Nat.leb_le 1 (length (cs_tokens st) + length (x :: g)))) by (cbn; lia).
      cbn [expect bind]. unfold place_all in IH. apply IH; auto; cbn [cs_size].
      * apply (wadd_fold_lt tg (map snd (x :: g))). exact Hs.
      * intros F. apply HF. right; right.
        change (concat ((x :: g) :: groups)) with ((x :: g) ++ concat groups). rewrite total_app.
        change (fits tg (fold_left (wadd tg) (map snd (x :: g)) (cs_size st)) (concat groups)) in F.
        destruct (wadd_fold_exact tg (x :: g) 0 (cs_size st)) as [_ EW]; [lia|]. rewrite EW in F.
        destruct F as [F|[F|F]]; [congruence| |lia]. rewrite F. change (total []) with 0%N. lia.
    + rewrite push_fold_panic; auto. intros [F|[F|F]]; [congruence|discriminate|lia].
Qed.

(** What is left to do once the tokens are laid out. *)
Lemma finish_ok (tokens : list LLToken) groups input :
  Forall wf_input input -> Forall (fun g => g <> []) groups -> map token tokens = map fst (concat groups) ->
  exists l, (l <- line_new tokens;; foldM (fun l x => let '(s, e, ats) := x in add_any_attrs l s e ats) (spans 0 groups input) l) = Ok l
    /\ ll_tokens l = tokens /\ Repr l (creation_log (map (map fst) groups) input).
Proof.
  intros HW HN HT. destruct (line_new_ok tokens) as (l & E & T & HR). rewrite E. cbn [bind].
  destruct (spans_fold_ok groups input 0 l _ HR HN HW) as (l' & E' & T' & HR').
  { rewrite T, <- (map_length token), HT, map_length. apply le_n. }
  exists l'. split; [exact E'|]. split; [congruence|].
  unfold creation_log. rewrite <- concat_map. rewrite HT in HR'. exact HR'.
Qed.

(** ** A line created with a size function that has memory *)

(** The tokens that one input token gives, sizes being free except for a custom token. *)
Definition shaped_as (it : InputToken) (g : list sized) : Prop :=
  match it with
  | InText _ _ => Forall (fun p => exists s tag, fst p = LText s tag) g
  | InCustom n _ => g = [(LValue, n)]
  end.

Lemma words_all_text (ts : list LToken) : Forall (fun t => exists s tag, t = LText s tag) ts -> words_of ts = map ltext ts.
Proof.
  unfold words_of. induction 1 as [|t ts (s & tag & ->) H IH]; [reflexivity|]. cbn. now rewrite IH.
Qed.
Lemma text_sizes_combine ts : forall ns, Forall (fun t => exists s tag, t = LText s tag) ts -> length ns = length ts ->
  text_sizes (combine ts ns) = ns.
Proof.
  unfold text_sizes. induction ts as [|t ts IH]; intros [|n ns] H E; try discriminate E; [reflexivity|].
  inversion H as [|? ? (s & tag & ->) H']; subst. cbn. now rewrite IH by (auto; injection E; auto).
Qed.
Lemma words_of_app xs ys : words_of (xs ++ ys) = words_of xs ++ words_of ys.
Proof. apply filter_map_app. Qed.
Lemma text_sizes_app xs ys : text_sizes (xs ++ ys) = text_sizes xs ++ text_sizes ys.
Proof. apply filter_map_app. Qed.
Lemma map_fst_combine {A B} (xs : list A) : forall ys : list B, length ys = length xs -> map fst (combine xs ys) = xs.
Proof. induction xs as [|x xs IH]; intros [|y ys] E; try discriminate E; [reflexivity|]. cbn. now rewrite IH by (injection E; auto). Qed.

Lemma zero_texts it g0 : input_ltokens size_zero it = Ok g0 ->
  match it with InText _ _ => Forall (fun t => exists s tag, t = LText s tag) (map fst g0) | InCustom n _ => g0 = [(LValue, n)] end.
Proof.
  destruct it as [text ats|n ats]; cbn [input_ltokens]; [|now intros [= <-]].
  intros H. apply create_tokens_inv in H. destruct H as (pss & _ & ->). rewrite map_map. apply Forall_map.
  apply Forall_forall. intros p _. cbn. eauto.
Qed.

Lemma place_group_fuel tg cs it g : place_group tg cs it g <> OutOfFuel.
Proof.
  unfold place_group. destruct g as [|x g]; [discriminate|].
  assert (X : forall xs s, foldM (push_lltoken tg) xs s <> OutOfFuel).
  { induction xs as [|[t n] xs IH]; intros [toks p]; [discriminate|]. cbn [foldM]. unfold push_lltoken at 1, add_usize.
    destruct (_ <? _)%N; [apply IH|]. destruct (overflow_checks tg); [discriminate|apply IH]. }
  specialize (X (x :: g) (cs_tokens cs, cs_size cs)).
  destruct (foldM (push_lltoken tg) (x :: g) (cs_tokens cs, cs_size cs)) as [[toks p]|q|]; [|discriminate|congruence].
  cbn [bind]. unfold sub_usize. destruct (checked_sub (length toks) 1); discriminate.
Qed.

Section Lines.
Context {M : Type} (size : str -> mem M N).

Lemma input_step it g0 : input_ltokens size_zero it = Ok g0 -> forall st, exists st' r,
  in_turn (calling size) (words_of (map fst g0)) st st' r
  /\ match r with
     | Ok ns => exists g, mem_input_ltokens size it st = (st', Ok g) /\ map fst g = map fst g0 /\ shaped_as it g /\ text_sizes g = ns
     | Panic p => mem_input_ltokens size it st = (st', Panic p)
     | OutOfFuel => mem_input_ltokens size it st = (st', OutOfFuel)
     end.
Proof.
  intros H st. destruct (input_tokens_ok size it g0 H st) as (st' & r & T & E). exists st', r.
  pose proof (zero_texts it g0 H) as Z. destruct it as [text ats|n ats].
  - rewrite words_all_text by exact Z. split; [exact T|]. rewrite E. destruct r as [ns|p|]; try reflexivity.
    pose proof (in_turn_length _ _ _ _ _ T ns eq_refl) as L. rewrite map_length in L.
    cbn [rmap bind]. eexists; split; [reflexivity|]. rewrite map_fst_combine by exact L. split; [reflexivity|]. split.
    + cbn [shaped_as]. apply Forall_forall. intros [t n] Hin. cbn. apply in_combine_l in Hin.
      rewrite Forall_forall in Z. now apply Z.
    + now apply text_sizes_combine.
  - subst g0. cbn. inversion T; subst. split; [constructor|]. exists [(LValue, n)]. auto.
Qed.

Lemma mem_fold tg : forall input groups0 cs st, Forall2 (fun it g => input_ltokens size_zero it = Ok g) input groups0 ->
  exists st' r, mem_foldM (mem_create_step size tg) input cs st = (st', r)
  /\ match r with
     | Ok cs' => exists groups, Forall2 shaped_as input groups /\ map (map fst) groups = map (map fst) groups0
         /\ in_turn (calling size) (words_of (map fst (concat groups))) st st' (Ok (text_sizes (concat groups)))
         /\ place_all tg cs input groups = Ok cs'
     | Panic p =>
         (exists asked unasked, words_of (map fst (concat groups0)) = asked ++ unasked /\ in_turn (calling size) asked st st' (Panic p))
         \/ exists before after groups rest, input = before ++ after
            /\ map (map fst) groups ++ rest = map (map fst) groups0 /\ Forall2 shaped_as before groups
            /\ in_turn (calling size) (words_of (map fst (concat groups))) st st' (Ok (text_sizes (concat groups)))
            /\ place_all tg cs before groups = Panic p
     | OutOfFuel =>
         exists asked unasked, words_of (map fst (concat groups0)) = asked ++ unasked /\ in_turn (calling size) asked st st' OutOfFuel
     end.
Proof.
  induction input as [|it input IH]; intros groups0 cs st HG; inversion HG as [|? g0 ? groups0' E0 HG']; subst.
  - exists st, (Ok cs). split; [reflexivity|]. exists []. split; [constructor|]. split; [reflexivity|]. split; [constructor|reflexivity].
  - destruct (input_step it g0 E0 st) as (st1 & r1 & T1 & R1). cbn [mem_foldM]. unfold mem_create_step at 1, mbind at 1 2.
    destruct r1 as [ns|p|].
    2: { rewrite R1. do 2 eexists. split; [reflexivity|]. left. cbn [concat]. rewrite map_app, words_of_app. eauto. }
    2: { rewrite R1. do 2 eexists. split; [reflexivity|]. cbn [concat]. rewrite map_app, words_of_app. eauto. }
    destruct R1 as (g & R1 & EF & HS & Hns). rewrite R1. unfold lift at 1.
    change (match g with [] => Panic PEmptyText | _ :: _ => _ end) with (place_group tg cs it g).
    destruct (place_group tg cs it g) as [cs1|p|] eqn:EP.
    + destruct (IH groups0' cs1 st1 HG') as (st2 & r2 & E2 & R2). rewrite E2. exists st2, r2. split; [reflexivity|].
      assert (X : forall groups a, in_turn (calling size) (words_of (map fst (concat groups))) st1 st2 a ->
         in_turn (calling size) (words_of (map fst (concat (g :: groups)))) st st2 (rmap (app (text_sizes g)) a)).
      { intros groups a T. cbn [concat]. rewrite map_app, words_of_app. rewrite EF, Hns.
        destruct (in_turn_app (calling size) _ (words_of (map fst (concat groups))) _ _ _ T1) as (A & _). exact (A ns eq_refl st2 a T). }
      destruct r2 as [cs'|p|].
      3: { destruct R2 as (asked & unasked & W & T2). exists (words_of (map fst g0) ++ asked), unasked.
           cbn [concat]. rewrite map_app, words_of_app, W, app_assoc. split; [reflexivity|].
           destruct (in_turn_app (calling size) _ asked _ _ _ T1) as (A & _). exact (A ns eq_refl st2 _ T2). }
      * destruct R2 as (groups & S2 & F2 & T2 & P2). exists (g :: groups). split; [now constructor|].
        split; [cbn [map]; congruence|]. split; [cbn [concat]; rewrite text_sizes_app; exact (X groups _ T2)|].
        unfold place_all. cbn [combine foldM fst snd]. rewrite EP. exact P2.
      * destruct R2 as [(asked & unasked & W & T2)|(before & after & groups & rst & EI & F2 & S2 & T2 & P2)].
        -- left. exists (words_of (map fst g0) ++ asked), unasked.
           cbn [concat]. rewrite map_app, words_of_app, W, app_assoc. split; [reflexivity|].
           destruct (in_turn_app (calling size) _ asked _ _ _ T1) as (A & _). exact (A ns eq_refl st2 _ T2).
        -- right. exists (it :: before), after, (g :: groups), rst. split; [now rewrite EI|].
           split; [cbn [map app]; congruence|]. split; [now constructor|].
           split; [cbn [concat]; rewrite text_sizes_app; exact (X groups _ T2)|].
           unfold place_all. cbn [combine foldM fst snd]. rewrite EP. exact P2.
    + do 2 eexists. split; [reflexivity|]. right. exists [it], input, [g], (map (map fst) groups0').
      split; [reflexivity|]. split; [cbn [map app]; congruence|]. split; [now repeat constructor|].
      cbn [concat]. rewrite !app_nil_r, EF, Hns. split; [exact T1|].
      unfold place_all. cbn [combine foldM fst snd]. now rewrite EP.
    + now elim (place_group_fuel tg cs it g).
Qed.

Lemma mem_fold_inv tg : forall input cs st st' cs', mem_foldM (mem_create_step size tg) input cs st = (st', Ok cs') ->
  exists groups0, Forall2 (fun it g => input_ltokens size_zero it = Ok g) input groups0.
Proof.
  induction input as [|it input IH]; intros cs st st' cs' H; [eexists; constructor|].
  cbn [mem_foldM] in H. unfold mbind at 1 in H. destruct (mem_create_step size tg cs it st) as [st1 [cs1|p|]] eqn:E1; try discriminate H.
  destruct (IH _ _ _ _ H) as (groups0 & HG).
  unfold mem_create_step, mbind in E1. destruct (mem_input_ltokens size it st) as [st2 [g|p|]] eqn:E2; try discriminate E1.
  destruct (input_tokens_inv size it st st2 g E2) as (g0 & E0). exists (g0 :: groups0). now constructor.
Qed.

Lemma Forall2_length_eq {A B} (R : A -> B -> Prop) xs ys : Forall2 R xs ys -> length ys = length xs.
Proof. induction 1; cbn; auto. Qed.

(** Everything known about a line created so. *)
Lemma mem_create_facts tg input st st' l :
  Forall wf_input input -> mem_create_line size tg input st = (st', Ok l) ->
  exists groups0 groups, Forall2 (fun it g => input_ltokens size_zero it = Ok g) input groups0
    /\ map (map fst) groups = map (map fst) groups0 /\ Forall2 shaped_as input groups
    /\ in_turn (calling size) (words_of (map fst (concat groups))) st st' (Ok (text_sizes (concat groups)))
    /\ Forall (fun g => g <> []) groups /\ fits tg 0 (concat groups)
    /\ ll_tokens l = layout_by (wadd tg) 0 0%N (concat groups)
    /\ Repr l (creation_log (map (map fst) groups) input).
Proof.
  intros HW H. unfold mem_create_line, mbind in H.
  destruct (mem_foldM (mem_create_step size tg) input (mkCS [] [] 0%N) st) as [st1 [cs|p|]] eqn:E; try discriminate H.
  destruct (mem_fold_inv tg _ _ _ _ _ E) as (groups0 & HG). exists groups0.
  destruct (mem_fold tg input groups0 (mkCS [] [] 0%N) st HG) as (st2 & r & E2 & R). rewrite E in E2. injection E2 as <- <-.
  destruct R as (groups & HS & HF & HT & HP). exists groups.
  pose proof (Forall2_length_eq _ _ _ HS) as L.
  destruct (place_all_inv tg input groups (mkCS [] [] 0%N) cs L (usize_mod_pos tg) HP) as (HN & Hfit).
  rewrite (place_all_ok tg input groups (mkCS [] [] 0%N) L HN Hfit) in HP. injection HP as <-.
  cbn [cs_tokens cs_attrs cs_size app length] in H. unfold lift in H. injection H as <- H.
  destruct (finish_ok (layout_by (wadd tg) 0 0%N (concat groups)) groups input HW HN) as (l' & E' & T & HR);
    [apply layout_by_tokens|].
  assert (l' = l) by congruence. subst l'. auto 10.
Qed.

(** ... and when it comes to be. *)
Lemma mem_create_run tg input groups0 st :
  Forall wf_input input -> Forall2 (fun it g => input_ltokens size_zero it = Ok g) input groups0 -> Forall (fun g => g <> []) groups0 ->
  exists st' r, mem_create_line size tg input st = (st', r)
  /\ match r with
     | Ok _ => True
     | Panic p =>
         (exists asked unasked, words_of (map fst (concat groups0)) = asked ++ unasked /\ in_turn (calling size) asked st st' (Panic p))
         \/ exists before after groups rest, input = before ++ after
            /\ map (map fst) groups ++ rest = map (map fst) groups0 /\ Forall2 shaped_as before groups
            /\ in_turn (calling size) (words_of (map fst (concat groups))) st st' (Ok (text_sizes (concat groups)))
            /\ p = POverflow /\ ~ fits tg 0 (concat groups)
     | OutOfFuel =>
         exists asked unasked, words_of (map fst (concat groups0)) = asked ++ unasked /\ in_turn (calling size) asked st st' OutOfFuel
     end.
Proof.
  intros HW HG HN0.
  destruct (mem_fold tg input groups0 (mkCS [] [] 0%N) st HG) as (st1 & r & E & R).
  assert (NE : forall (groups : list (list sized)) rest, map (map fst) groups ++ rest = map (map fst) groups0 -> Forall (fun g => g <> []) groups).
  { intros groups rest EQ. assert (X : Forall (fun g => g <> []) (map (map fst) groups ++ rest)).
    { rewrite EQ. apply Forall_map. eapply Forall_impl; [|exact HN0]. now intros [|x g]. }
    apply Forall_app in X. destruct X as (X & _). rewrite Forall_map in X. eapply Forall_impl; [|exact X]. now intros [|x g]. }
  unfold mem_create_line, mbind. rewrite E. destruct r as [cs|p|].
  - destruct R as (groups & HS & HF & HT & HP). pose proof (Forall2_length_eq _ _ _ HS) as L.
    destruct (place_all_inv tg input groups (mkCS [] [] 0%N) cs L (usize_mod_pos tg) HP) as (HN & Hfit).
    rewrite (place_all_ok tg input groups (mkCS [] [] 0%N) L HN Hfit) in HP. injection HP as <-.
    cbn [cs_tokens cs_attrs cs_size app length]. unfold lift.
    destruct (finish_ok (layout_by (wadd tg) 0 0%N (concat groups)) groups input HW HN) as (l & -> & _); [apply layout_by_tokens|].
    do 2 eexists. split; [reflexivity|]. exact I.
  - do 2 eexists. split; [reflexivity|]. destruct R as [R|(before & after & groups & rst & EI & F & HS & T & P)]; [left; exact R|].
    right. exists before, after, groups, rst. pose proof (Forall2_length_eq _ _ _ HS) as L. pose proof (NE _ _ F) as HN.
    assert (Hnf : ~ fits tg 0 (concat groups)).
    { intros HF. rewrite (place_all_ok tg before groups (mkCS [] [] 0%N) L HN HF) in P. discriminate P. }
    rewrite (place_all_panic tg before groups (mkCS [] [] 0%N) L HN (usize_mod_pos tg) Hnf) in P. injection P as <-. auto 10.
  - do 2 eexists. split; [reflexivity|]. exact R.
Qed.

End Lines.

End LemSize.
