(** Matchers written by users cannot leave the line (C71). *)

From Verif Require Export ThmSel SpecUser.

Section ThmUser.
Context {UC : Unicode} {U : UserTypes}.

(** ** The operations of a direction answer indexes of the line. *)
Section Answers.
Variables (l : LLLine) (lg : list entry).
Hypothesis HH : History l lg.
Let n := length (ll_tokens l).

Lemma answer_attr t d r j : dir_attr t d l = Ok r -> In j (map snd r) -> j < n.
Proof.
  intros H Hj. apply in_map_iff in Hj. destruct Hj as ([v i] & <- & Hin). cbn [snd].
  destruct (Nat.lt_ge_cases (dir_idx d) n) as [Hd|Hd].
  - exact (thm_C22_ends_in_line l lg any_ty false _ (x_attr t) d r v i HH (LM_attr any_ty t I) Hd H Hin).
  - rewrite (dir_attr_run l lg t d (history_repr _ _ HH)) in H. apply Nat.ltb_ge in Hd. unfold n in Hd. rewrite Hd in H. discriminate.
Qed.

Lemma answer_attr_eq t eqT w d r j : dir_attr_eq t eqT w d l = Ok r -> In j (map snd r) -> j < n.
Proof.
  intros H Hj. apply in_map_iff in Hj. destruct Hj as ([v i] & <- & Hin). cbn [snd].
  destruct (Nat.lt_ge_cases (dir_idx d) n) as [Hd|Hd].
  - exact (thm_C22_ends_in_line l lg any_ty false _ (x_attr_eq t eqT w) d r v i HH (LM_attr_eq any_ty t eqT w I) Hd H Hin).
  - rewrite (dir_attr_eq_run l lg t eqT w d (history_repr _ _ HH)) in H. apply Nat.ltb_ge in Hd. unfold n in Hd. rewrite Hd in H. discriminate.
Qed.

Lemma answer_one_of t eqT set d r j : dir_token_attr_one_of t eqT set d l = Ok r -> In j (map snd r) -> j < n.
Proof.
  intros H Hj. apply in_map_iff in Hj. destruct Hj as ([v i] & <- & Hin). cbn [snd].
  destruct (Nat.lt_ge_cases (dir_idx d) n) as [Hd|Hd].
  - exact (thm_C22_ends_in_line l lg any_ty true _ (x_token_has_any t eqT set) d r v i HH (LM_token_has_any any_ty t eqT set I) Hd H Hin).
  - exfalso. destruct d as [k|k]; cbn [dir_idx] in Hd.
    + destruct (lib_panics_out l lg any_ty true _ (x_token_has_any t eqT set) (history_repr _ _ HH)
                 (LM_token_has_any any_ty t eqT set I) k Hd) as (p & E). unfold x_token_has_any in E. congruence.
    + cbn [dir_token_attr_one_of] in H. pose proof (rp_ends_len l lg (history_repr _ _ HH)) as HE.
      destruct (nth_error (ends_at (attrs l)) k) as [m|] eqn:E; [|discriminate].
      assert (k < length (ends_at (attrs l))) by (apply nth_error_Some; congruence). unfold n in Hd. lia.
Qed.

Lemma answer_text d r j : dir_text_token d l = Ok r -> In j (map snd (opt_list r)) -> j < n.
Proof.
  intros H Hj. assert (HT : forall k tok, nth_error (ll_tokens l) k = Some tok -> k < n).
  { intros k tok E. apply nth_error_Some. congruence. }
  destruct d as [k|k]; cbn [dir_text_token] in H.
  - destruct (nth_error (ll_tokens l) k) as [tok|] eqn:E; [|discriminate]. cbn [expect bind] in H. injection H as <-.
    destruct (token tok); cbn in Hj; [|easy]. destruct Hj as [<-|[]]. eauto.
  - destruct (nth_error (ll_tokens l) k) as [tok|] eqn:E; injection H as <-; [|easy].
    destruct (token tok); cbn in Hj; [|easy]. destruct Hj as [<-|[]]. eauto.
Qed.

(** ** So do honest programs. *)
Lemma honest_inside A (p : program A) I D : honest I D p -> (forall j, I j -> j < n) ->
  forall out a j, execute l p = Ok out -> In (a, j) out -> j < n.
Proof.
  intros HU. induction HU as [A I D out HO|A I D d t k HD HK IH|A I D d t eqT v k HD HK IH|A I D d t eqT set k HD HK IH
                             |A I D d k HD HK IH|A I D d idx k HD HK IH|A I D k HK IH|A I D t k HK IH|A I D B go k HG _ HK IH
                             |A I D tg incs k HK IH|A I D p]; intros HI o a j HE Hin; cbn [execute] in HE.
  - injection HE as <-. eauto.
  - inv_bind HE. eapply IH; eauto. intros i [Hi|Hi]; eauto using answer_attr.
  - inv_bind HE. eapply IH; eauto. intros i [Hi|Hi]; eauto using answer_attr_eq.
  - inv_bind HE. eapply IH; eauto. intros i [Hi|Hi]; eauto using answer_one_of.
  - inv_bind HE. eapply IH; eauto. intros i [Hi|Hi]; eauto using answer_text.
  - eapply IH; eauto.
  - eapply IH; eauto.
  - inv_bind HE. eapply IH; eauto.
  - inv_bind HE. eapply IH; eauto.
  - inv_bind HE. eapply IH; eauto.
  - discriminate.
Qed.

End Answers.

(** C71: whatever a user's matcher does, its matches end at tokens of the line ... *)
Lemma thm_C71_inside :
  forall l lg A (m : matcher A) d ms a j,
    History l lg -> user_matcher l A m -> m d l = Ok ms -> In (a, j) ms -> j < length (ll_tokens l).
Proof.
  intros l lg A m d ms a j H (go & HE & HG) Hm Hin. rewrite HE in Hm.
  eapply (honest_inside l lg H A (go d)); eauto.
Qed.

(** ** Library matchers are such programs. *)
Fixpoint pbind {A B} (p : program A) (f : list (A * nat) -> program B) : program B :=
  match p with
  | P_return _ out => f out
  | P_attr _ d t k => P_attr _ d t (fun r => pbind (k r) f)
  | P_attr_eq _ d t eqT v k => P_attr_eq _ d t eqT v (fun r => pbind (k r) f)
  | P_one_of _ d t eqT set k => P_one_of _ d t eqT set (fun r => pbind (k r) f)
  | P_text _ d k => P_text _ d (fun r => pbind (k r) f)
  | P_after _ d idx k => P_after _ d idx (fun o => pbind (k o) f)
  | P_tokens _ k => P_tokens _ (fun r => pbind (k r) f)
  | P_query _ t k => P_query _ t (fun r => pbind (k r) f)
  | P_find _ C go k => P_find _ C go (fun r => pbind (k r) f)
  | P_show _ tg incs k => P_show _ tg incs (fun r => pbind (k r) f)
  | P_panic _ p => P_panic _ p
  end.

Lemma execute_bind {A B} l (p : program A) (f : list (A * nat) -> program B) :
  execute l (pbind p f) = (out <- execute l p;; execute l (f out)).
Proof.
  revert f. induction p as [A out|A d t k IH|A d t eqT v k IH|A d t eqT set k IH|A d k IH|A d idx k IH|A k IH|A t k IH|A C go _ k IH|A tg incs k IH|A p];
    intros f; cbn [pbind execute]; auto.
  - destruct (dir_attr t d l); cbn [bind]; auto.
  - destruct (dir_attr_eq t eqT v d l); cbn [bind]; auto.
  - destruct (dir_token_attr_one_of t eqT set d l); cbn [bind]; auto.
  - destruct (dir_text_token d l); cbn [bind]; auto.
  - destruct (query l t); cbn [bind]; auto.
  - destruct (find l _); cbn [bind]; auto.
  - destruct (show tg l incs); cbn [bind]; auto.
Qed.

Lemma honest_more {A} (p : program A) I D : honest I D p -> forall I' D' : _ -> Prop,
  (forall j, I j -> I' j) -> (forall d, D d -> D' d) -> honest I' D' p.
Proof.
  intros H. induction H; intros I' D' HI HD; constructor; eauto.
  - intros r. eapply H1; auto. intros j [Hj|Hj]; auto.
  - intros r. eapply H1; auto. intros j [Hj|Hj]; auto.
  - intros r. eapply H1; auto. intros j [Hj|Hj]; auto.
  - intros r. eapply H1; auto. intros j [Hj|Hj]; auto.
  - intros o. eapply H1; auto. intros d' [Hd|Hd]; auto.
Qed.

Lemma honest_bind {A B} (p : program A) I D : honest I D p -> forall f : list (A * nat) -> program B,
  (forall (I' : nat -> Prop) (D' : direction -> Prop) out, (forall j, I j -> I' j) -> (forall d, D d -> D' d) ->
     (forall a j, In (a, j) out -> I' j) -> honest I' D' (f out)) ->
  honest I D (pbind p f).
Proof.
  intros H. induction H; intros f HF; cbn [pbind]; try (constructor; auto; fail).
  - apply HF; auto.
Qed.

(** Each element in turn, answers collected. *)
Fixpoint pflat {X B} (f : X -> program B) (xs : list X) : program B :=
  match xs with
  | [] => P_return _ []
  | x :: xs' => pbind (f x) (fun a => pbind (pflat f xs') (fun b => P_return _ (a ++ b)))
  end.

Lemma execute_flat {X B} l (f : X -> program B) xs :
  execute l (pflat f xs) = flat_mapM (fun x => execute l (f x)) xs.
Proof.
  induction xs as [|x xs IH]; [reflexivity|]. cbn [pflat]. rewrite execute_bind, flat_mapM_cons.
  destruct (execute l (f x)); cbn [bind]; auto. rewrite execute_bind, IH. reflexivity.
Qed.

Lemma honest_flat {X B} (f : X -> program B) xs I D : (forall x, In x xs -> honest I D (f x)) -> honest I D (pflat f xs).
Proof.
  revert I D. induction xs as [|x xs IH]; intros I D H; cbn [pflat]; [constructor; intros a j []|].
  apply honest_bind with (I := I) (D := D); [apply H; now left|]. intros I1 D1 o1 HI1 HD1 HO1.
  apply honest_bind with (I := I1) (D := D1).
  - apply IH. intros y Hy. eapply honest_more; [apply H; now right|auto|auto].
  - intros I2 D2 o2 HI2 HD2 HO2. constructor. intros a j Hin. apply in_app_or in Hin. destruct Hin; eauto.
Qed.

Definition none : nat -> Prop := fun _ => False.

Definition as_program (P : ty -> Prop) (h : bool) {A} (m : matcher A) (go : direction -> program A) : Prop :=
  (forall d l, m d l = execute l (go d)) /\ (forall d, honest none (eq d) (go d)) /\ forall d, asks P h (go d).

Lemma asks_more {A} (P : ty -> Prop) h h' (p : program A) : asks P h p -> (h = true -> h' = true) -> asks P h' p.
Proof. intros H HI. induction H; constructor; auto. Qed.
Lemma asks_bind {A B} (P : ty -> Prop) h (p : program A) (f : list (A * nat) -> program B) :
  asks P h p -> (forall out, asks P h (f out)) -> asks P h (pbind p f).
Proof.
  intros H HF. revert f HF. induction H; intros f HF; cbn [pbind]; auto; constructor; auto.
  all: intros r r' E; match goal with K : forall r r', _ -> _ = _ |- _ => now rewrite (K r r' E) end.
Qed.
Lemma asks_flat {X B} (P : ty -> Prop) h (f : X -> program B) xs : (forall x, asks P h (f x)) -> asks P h (pflat f xs).
Proof.
  intros H. induction xs as [|x xs IH]; cbn [pflat]; [constructor|].
  apply asks_bind; auto. intros a. apply asks_bind; auto. intros b. constructor.
Qed.

Lemma go_any P h {A} (m : matcher A) go d (I : nat -> Prop) (D : direction -> Prop) : as_program P h m go -> D d -> honest I D (go d).
Proof. intros (_ & H & _) HD. eapply honest_more; [apply H|intros j []|intros d' <-; auto]. Qed.

Definition pafter {B} (gb : direction -> program B) (d : direction) (i : nat) : program B :=
  P_after _ d i (fun o => match o with Some d' => gb d' | None => P_return _ [] end).

Lemma execute_after P h l {B} (mb : matcher B) gb d i : as_program P h mb gb -> execute l (pafter gb d i) = go_after mb d i l.
Proof.
  intros (H & _). cbn [pafter execute]. unfold go_after. destruct (dir_after d i l); auto.
Qed.

Lemma honest_after P h {B} (mb : matcher B) gb d i (I : nat -> Prop) (D : direction -> Prop) : as_program P h mb gb -> D d -> honest I D (pafter gb d i).
Proof.
  intros H HD. constructor; auto. intros [d'|]; [|constructor; intros a j []].
  eapply go_any; eauto.
Qed.

Lemma asks_after P h h' {B} (mb : matcher B) gb d i : as_program P h mb gb -> (h = true -> h' = true) -> asks P h' (pafter gb d i).
Proof.
  intros (_ & _ & H) HI. constructor. intros [d'|]; [|constructor]. eapply asks_more; eauto.
Qed.
Lemma asks_any P h h' {A} (m : matcher A) go d : as_program P h m go -> (h = true -> h' = true) -> asks P h' (go d).
Proof. intros (_ & _ & H) HI. eapply asks_more; eauto. Qed.

Lemma bind_ext {A B} (x : res A) (f g : A -> res B) : (forall a, f a = g a) -> bind x f = bind x g.
Proof. intros H. destruct x; cbn [bind]; auto. Qed.

Ltac bools := cbn; intros; subst; rewrite ?orb_true_r; auto using orb_true_r, orb_true_l.

Lemma library_program P has A (m : matcher A) : lib_matcher P has A m -> exists go, as_program P has m go.
Proof.
  intros H. induction H as [t Ht|t eqT v Ht|t eqT set Ht| |h1 h2 A B ma mb _ (ga & Ga) _ (gb & Gb)
    |h1 h2 h3 A B C ma mb mc _ (ga & Ga) _ (gb & Gb) _ (gc & Gc)|h1 h2 A B ma mb _ (ga & Ga) _ (gb & Gb)
    |h1 h2 h3 A B C ma mb mc _ (ga & Ga) _ (gb & Gb) _ (gc & Gc)|h1 h2 A B ma mb _ (ga & Ga) _ (gb & Gb)
    |h1 h2 h3 A B C ma mb mc _ (ga & Ga) _ (gb & Gb) _ (gc & Gc)].
  - exists (fun d => P_attr _ d t (fun r => P_return _ r)). split; [intros d l|split; intros d].
    + cbn [execute]. unfold x_attr. destruct (dir_attr t d l); auto.
    + constructor; auto. intros r. constructor. intros a j Hin. right. apply in_map_iff. exists (a, j). auto.
    + cbn beta. repeat first [apply asks_bind; [first [eapply asks_any; [eassumption|bools]|eapply asks_after; [eassumption|bools]]|intros]
                    |apply asks_flat; intros [] |match goal with |- asks _ _ (match ?x with _ => _ end) => destruct x end|constructor; auto].
  - exists (fun d => P_attr_eq _ d t eqT v (fun r => P_return _ r)). split; [intros d l|split; intros d].
    + cbn [execute]. unfold x_attr_eq. destruct (dir_attr_eq t eqT v d l); auto.
    + constructor; auto. intros r. constructor. intros a j Hin. right. apply in_map_iff. exists (a, j). auto.
    + cbn beta. repeat first [apply asks_bind; [first [eapply asks_any; [eassumption|bools]|eapply asks_after; [eassumption|bools]]|intros]
                    |apply asks_flat; intros [] |match goal with |- asks _ _ (match ?x with _ => _ end) => destruct x end|constructor; auto].
  - exists (fun d => P_one_of _ d t eqT set (fun r => P_return _ r)). split; [intros d l|split; intros d].
    + cbn [execute]. unfold x_token_has_any. destruct (dir_token_attr_one_of t eqT set d l); auto.
    + constructor; auto. intros r. constructor. intros a j Hin. right. apply in_map_iff. exists (a, j). auto.
    + cbn beta. repeat first [apply asks_bind; [first [eapply asks_any; [eassumption|bools]|eapply asks_after; [eassumption|bools]]|intros]
                    |apply asks_flat; intros [] |match goal with |- asks _ _ (match ?x with _ => _ end) => destruct x end|constructor; auto].
  - exists (fun d => P_text _ d (fun r => P_return _ (opt_list r))). split; [intros d l|split; intros d].
    + cbn [execute]. unfold x_token_text. destruct (dir_text_token d l); auto.
    + constructor; auto. intros r. constructor. intros a j Hin. right. apply in_map_iff. exists (a, j). auto.
    + cbn beta. repeat first [apply asks_bind; [first [eapply asks_any; [eassumption|bools]|eapply asks_after; [eassumption|bools]]|intros]
                    |apply asks_flat; intros [] |match goal with |- asks _ _ (match ?x with _ => _ end) => destruct x end|constructor; auto].
  - exists (fun d => pbind (gb d) (fun bs => pbind (ga d) (fun al => P_return _
      (flat_map (fun '(a, ai) => filter_map (fun '(b, bi) => if Nat.eqb ai bi then Some ((a, b), ai) else None) bs) al)))).
    split; [intros d l|split; intros d].
    + unfold x_all2. rewrite execute_bind, <- (proj1 Gb). apply bind_ext. intros bs. rewrite execute_bind, <- (proj1 Ga). reflexivity.
    + apply honest_bind with (I := none) (D := eq d); [apply Gb|]. intros I1 D1 bs HI1 HD1 HO1.
      apply honest_bind with (I := I1) (D := D1); [eapply go_any; eauto|]. intros I2 D2 al HI2 HD2 HO2.
      constructor. intros x j Hin. apply in_flat_map in Hin. destruct Hin as ([a ai] & Ha & Hin).
      apply in_filter_map in Hin. destruct Hin as ([b bi] & Hb & Hin). destruct (Nat.eqb ai bi); [|discriminate].
      injection Hin as _ <-. eauto.
    + cbn beta. repeat first [apply asks_bind; [first [eapply asks_any; [eassumption|bools]|eapply asks_after; [eassumption|bools]]|intros]
                    |apply asks_flat; intros [] |match goal with |- asks _ _ (match ?x with _ => _ end) => destruct x end|constructor; auto].
  - exists (fun d => pbind (gb d) (fun bs => pbind (gc d) (fun cs => pbind (ga d) (fun al => P_return _
      (flat_map (fun '(a, ai) => flat_map (fun '(b, bi) => filter_map (fun '(c, ci) =>
              if Nat.eqb ai bi && Nat.eqb ai ci then Some ((a, b, c), ai) else None) cs) bs) al))))).
    split; [intros d l|split; intros d].
    + unfold x_all3. rewrite execute_bind, <- (proj1 Gb). apply bind_ext. intros bs. rewrite execute_bind, <- (proj1 Gc).
      apply bind_ext. intros cs. rewrite execute_bind, <- (proj1 Ga). reflexivity.
    + apply honest_bind with (I := none) (D := eq d); [apply Gb|]. intros I1 D1 bs HI1 HD1 HO1.
      apply honest_bind with (I := I1) (D := D1); [eapply go_any; eauto|]. intros I2 D2 cs HI2 HD2 HO2.
      apply honest_bind with (I := I2) (D := D2); [eapply go_any; eauto|]. intros I3 D3 al HI3 HD3 HO3.
      constructor. intros x j Hin. apply in_flat_map in Hin. destruct Hin as ([a ai] & Ha & Hin).
      apply in_flat_map in Hin. destruct Hin as ([b bi] & Hb & Hin).
      apply in_filter_map in Hin. destruct Hin as ([c ci] & Hc & Hin). destruct (Nat.eqb ai bi && Nat.eqb ai ci); [|discriminate].
      injection Hin as _ <-. eauto.
    + cbn beta. repeat first [apply asks_bind; [first [eapply asks_any; [eassumption|bools]|eapply asks_after; [eassumption|bools]]|intros]
                    |apply asks_flat; intros [] |match goal with |- asks _ _ (match ?x with _ => _ end) => destruct x end|constructor; auto].
  - exists (fun d => pbind (ga d) (fun al => match al with
      | _ :: _ => P_return _ (map (fun '(a, i) => (A2_A a, i)) al)
      | [] => pbind (gb d) (fun bl => P_return _ (map (fun '(b, i) => (A2_B b, i)) bl)) end)).
    split; [intros d l|split; intros d].
    + unfold x_any_of2. rewrite execute_bind, <- (proj1 Ga). apply bind_ext. intros [|x al]; auto.
      rewrite execute_bind, <- (proj1 Gb). reflexivity.
    + apply honest_bind with (I := none) (D := eq d); [apply Ga|]. intros I1 D1 al HI1 HD1 HO1. destruct al as [|x al].
      * apply honest_bind with (I := I1) (D := D1); [eapply go_any; eauto|]. intros I2 D2 bl HI2 HD2 HO2.
        constructor. intros y j Hin. apply in_map_iff in Hin. destruct Hin as ([b i] & E & Hin). injection E as _ <-. eauto.
      * constructor. intros y j Hin. apply in_map_iff in Hin. destruct Hin as ([b i] & E & Hin). injection E as _ <-. eauto.
    + cbn beta. repeat first [apply asks_bind; [first [eapply asks_any; [eassumption|bools]|eapply asks_after; [eassumption|bools]]|intros]
                    |apply asks_flat; intros [] |match goal with |- asks _ _ (match ?x with _ => _ end) => destruct x end|constructor; auto].
  - exists (fun d => pbind (ga d) (fun al => match al with
      | _ :: _ => P_return _ (map (fun '(a, i) => (A3_A a, i)) al)
      | [] => pbind (gb d) (fun bl => match bl with
          | _ :: _ => P_return _ (map (fun '(b, i) => (A3_B b, i)) bl)
          | [] => pbind (gc d) (fun cl => P_return _ (map (fun '(c, i) => (A3_C c, i)) cl)) end) end)).
    split; [intros d l|split; intros d].
    + unfold x_any_of3. rewrite execute_bind, <- (proj1 Ga). apply bind_ext. intros [|x al]; auto.
      rewrite execute_bind, <- (proj1 Gb). apply bind_ext. intros [|y bl]; auto. rewrite execute_bind, <- (proj1 Gc). reflexivity.
    + apply honest_bind with (I := none) (D := eq d); [apply Ga|]. intros I1 D1 al HI1 HD1 HO1. destruct al as [|x al].
      * apply honest_bind with (I := I1) (D := D1); [eapply go_any; eauto|]. intros I2 D2 bl HI2 HD2 HO2. destruct bl as [|y bl].
        -- apply honest_bind with (I := I2) (D := D2); [eapply go_any; eauto|]. intros I3 D3 cl HI3 HD3 HO3.
           constructor. intros z j Hin. apply in_map_iff in Hin. destruct Hin as ([b i] & E & Hin). injection E as _ <-. eauto.
        -- constructor. intros z j Hin. apply in_map_iff in Hin. destruct Hin as ([b i] & E & Hin). injection E as _ <-. eauto.
      * constructor. intros y j Hin. apply in_map_iff in Hin. destruct Hin as ([b i] & E & Hin). injection E as _ <-. eauto.
    + cbn beta. repeat first [apply asks_bind; [first [eapply asks_any; [eassumption|bools]|eapply asks_after; [eassumption|bools]]|intros]
                    |apply asks_flat; intros [] |match goal with |- asks _ _ (match ?x with _ => _ end) => destruct x end|constructor; auto].
  - exists (fun d => pbind (ga d) (pflat (fun '(a, i) => pbind (pafter gb d i)
      (fun bl => P_return _ (map (fun '(b, j) => ((a, b), j)) bl))))).
    split; [intros d l|split; intros d].
    + unfold x_seq2. rewrite execute_bind, <- (proj1 Ga). apply bind_ext. intros al. rewrite execute_flat.
      apply flat_mapM_ext. intros [a i] _. erewrite execute_bind, (execute_after _ _ l mb) by eauto. reflexivity.
    + apply honest_bind with (I := none) (D := eq d); [apply Ga|]. intros I1 D1 al HI1 HD1 HO1.
      apply honest_flat. intros [a i] Ha. apply honest_bind with (I := I1) (D := D1); [eapply honest_after; eauto|].
      intros I2 D2 bl HI2 HD2 HO2. constructor. intros y j Hin. apply in_map_iff in Hin.
      destruct Hin as ([b k] & E & Hin). injection E as _ <-. eauto.
    + cbn beta. repeat first [apply asks_bind; [first [eapply asks_any; [eassumption|bools]|eapply asks_after; [eassumption|bools]]|intros]
                    |apply asks_flat; intros [] |match goal with |- asks _ _ (match ?x with _ => _ end) => destruct x end|constructor; auto].
  - exists (fun d => pbind (ga d) (pflat (fun '(a, i) => pbind (pafter gb d i)
      (pflat (fun '(b, j) => pbind (pafter gc d j) (fun cl => P_return _ (map (fun '(c, k) => ((a, b, c), k)) cl))))))).
    split; [intros d l|split; intros d].
    + unfold x_seq3. rewrite execute_bind, <- (proj1 Ga). apply bind_ext. intros al. rewrite execute_flat.
      apply flat_mapM_ext. intros [a i] _. erewrite execute_bind, (execute_after _ _ l mb) by eauto. apply bind_ext.
      intros bl. rewrite execute_flat. apply flat_mapM_ext. intros [b j] _.
      erewrite execute_bind, (execute_after _ _ l mc) by eauto. reflexivity.
    + apply honest_bind with (I := none) (D := eq d); [apply Ga|]. intros I1 D1 al HI1 HD1 HO1.
      apply honest_flat. intros [a i] Ha. apply honest_bind with (I := I1) (D := D1); [eapply honest_after; eauto|].
      intros I2 D2 bl HI2 HD2 HO2. apply honest_flat. intros [b k] Hb.
      apply honest_bind with (I := I2) (D := D2); [eapply honest_after; eauto|].
      intros I3 D3 cl HI3 HD3 HO3. constructor. intros y j Hin. apply in_map_iff in Hin.
      destruct Hin as ([c q] & E & Hin). injection E as _ <-. eauto.
    + cbn beta. repeat first [apply asks_bind; [first [eapply asks_any; [eassumption|bools]|eapply asks_after; [eassumption|bools]]|intros]
                    |apply asks_flat; intros [] |match goal with |- asks _ _ (match ?x with _ => _ end) => destruct x end|constructor; auto].
Qed.

Lemma thm_C71_library :
  forall l P has A (m : matcher A), lib_matcher P has A m -> user_matcher l A m.
Proof.
  intros l P has A m H. destruct (library_program P has A m H) as (go & H1 & H2 & _). exists go. split; auto.
  intros d. eapply honest_more; [apply H2|intros j []|auto].
Qed.

(** ** Selections made with such matchers *)
Section Reached.
Variable rc : RcLine.
Let n := length (ll_tokens (rc_line rc)).

Lemma reached_fine aft s : reached (onward_matcher (rc_line rc)) aft rc s -> fine rc aft s.
Proof.
  assert (HB : forall A (m : matcher A), onward_matcher (rc_line rc) A m -> bounded m (rc_line rc)) by auto.
  assert (FB : forall s A (m : matcher A) fs s' a, fine rc aft s -> onward_matcher (rc_line rc) A m ->
     find_by s m = Ok fs -> In (s', a) fs -> fine rc aft s').
  { intros s0 A m fs s' a IH HM H Hin. destruct (fine_bounds rc _ _ IH) as (L & N & Hn & He & Hs & Hc). fold n in N, Hn, He, Hs.
    apply (find_by_In _ _ _ _ _ H) in Hin. destruct Hin as (H1 & H2 & ms & H3 & H4).
    rewrite L in H3. unfold covers in H2. pose proof (HB _ _ HM (Fwd (start_idx s')) ms a (end_idx s')) as HI.
    simpl in HI. fold n in HI. specialize (HI ltac:(lia) H3 H4).
    destruct IH as [E _]. split; [congruence|]. left. unfold sel_ok, line_len, line_of. rewrite H1, E. fold n. lia. }
  assert (MF : forall s A (m : matcher A) fs s' a, fine rc aft s -> onward_matcher (rc_line rc) A m ->
     match_forwards s m = Ok fs -> In (s', a) fs -> fine rc aft s').
  { intros s0 A m fs s' a IH HM H Hin. destruct (fine_bounds rc _ _ IH) as (L & N & Hn & He & Hs & Hc). fold n in N, Hn, He, Hs.
    unfold match_forwards in H. rewrite N, L in H. destruct (Nat.eqb (S (end_idx s0)) n) eqn:E.
    - injection H as <-. destruct Hin.
    - apply Nat.eqb_neq in E. inv_bind H. injection H as <-. apply in_map_iff in Hin.
      destruct Hin as ([b j] & E1 & H1). injection E1 as <- <-.
      pose proof (HB _ _ HM (Fwd (S (end_idx s0))) a0 b j) as HI. simpl in HI. fold n in HI.
      specialize (HI ltac:(lia) E0 H1). destruct IH as [E2 _]. rewrite E2. apply (fine_mk rc). lia. }
  assert (MB : forall s A (m : matcher A) fs s' a, fine rc aft s -> onward_matcher (rc_line rc) A m ->
     match_backwards s m = Ok fs -> In (s', a) fs -> fine rc aft s').
  { intros s0 A m fs s' a IH HM H Hin. destruct (fine_bounds rc _ _ IH) as (L & N & Hn & He & Hs & Hc). fold n in N, Hn, He, Hs.
    unfold match_backwards in H. rewrite L in H. destruct (Nat.eqb (start_idx s0) 0) eqn:E.
    - injection H as <-. destruct Hin.
    - apply Nat.eqb_neq in E. inv_bind H. injection H as <-. apply in_map_iff in Hin.
      destruct Hin as ([b j] & E1 & H1). injection E1 as <- <-.
      pose proof (HB _ _ HM (Bwd (start_idx s0 - 1)) a0 b j) as HI. simpl in HI. fold n in HI.
      specialize (HI ltac:(lia) E0 H1). destruct IH as [E2 _]. rewrite E2. apply (fine_mk rc). lia. }
  assert (SF : forall s a b p, fine rc aft s -> selection_from s a b = Some p -> fine rc aft p).
  { intros s0 a b p IH H. destruct (fine_bounds rc _ _ IH) as (L & N & Hn & He & Hs & Hc). fold n in N, Hn, He, Hs.
    destruct (selection_from_ok _ _ _ _ H) as [E1 E2]; [lia|]. destruct IH as [E _]. split; [congruence|auto]. }
  assert (TR : forall s A (m : matcher A) f1 f2 s', fine rc aft s -> onward_matcher (rc_line rc) A m ->
     trim_selection s m f1 f2 = Ok (Some s') -> fine rc aft s').
  { intros s0 A m f1 f2 s' IH HM H. destruct (fine_bounds rc _ _ IH) as (L & N & Hn & He & Hs & Hc). fold n in N, Hn, He, Hs.
    unfold trim_selection in H. rewrite L in H. inv_bind H. inv_bind H. rename a into ns, a0 into ne.
    destruct ((start_idx s0 <=? ne) && (ns <=? ne)) eqn:C; [|discriminate].
    apply andb_true_iff in C. destruct C as [C1 C2]. apply Nat.leb_le in C1, C2.
    injection H as <-. assert (ne <= end_idx s0).
    { destruct f2; [|inversion E0; lia]. inv_bind E0. destruct a as [|[x j] a]; [inversion E0; lia|].
      pose proof (HB _ _ HM (Bwd (end_idx s0)) _ x j He E1 (or_introl eq_refl)) as HI. simpl in HI.
      unfold checked_sub in E0. destruct (1 <=? j); inversion E0; lia. }
    destruct IH as [E2 _]. rewrite E2. apply (fine_mk rc). lia. }
  intros HD. induction HD.
  - unfold from_line in H. destruct (0 <? length (ll_tokens (rc_line rc))) eqn:E; [|discriminate].
    apply Nat.ltb_lt in E. injection H as <-. apply (fine_mk rc). unfold n. lia.
  - destruct (split_by_pieces _ _ _ _ H0 H1) as [->|(a & b & Hp)]; [exact IHHD|]. eapply SF; eauto.
  - eapply FB; eauto.
  - unfold find_first_by in H0. apply rmap_ok_inv in H0. destruct H0 as (fs & E & E2). symmetry in E2.
    apply hd_opt_In in E2. eapply FB; eauto.
  - destruct (fine_bounds rc _ _ IHHD) as (L & N & Hn & He & Hs & Hc). fold n in N, Hn, He, Hs.
    apply (both_In _ _ _ _ _ H0) in H1. destruct H1 as (E1 & H1). rewrite L in H1. unfold covers in H1.
    assert (sel_line s' = rc) by (destruct IHHD; congruence).
    split; auto. left. unfold sel_ok, line_len, line_of. rewrite H2. fold n.
    destruct H1 as [(H3 & ms & H4 & H5)|(H3 & ms & H4 & H5)].
    + pose proof (HB _ _ H (Fwd (start_idx s')) ms a (end_idx s')) as HI. simpl in HI. fold n in HI.
      specialize (HI ltac:(lia) H4 H5). lia.
    + pose proof (HB _ _ H (Bwd (end_idx s')) ms a (start_idx s')) as HI. simpl in HI. fold n in HI.
      specialize (HI ltac:(lia) H4 H5). lia.
  - eapply MF; eauto.
  - unfold match_first_forwards in H0. apply rmap_ok_inv in H0. destruct H0 as (fs & E & E2). symmetry in E2.
    apply hd_opt_In in E2. eapply MF; eauto.
  - eapply MB; eauto.
  - unfold match_first_backwards in H0. apply rmap_ok_inv in H0. destruct H0 as (fs & E & E2). symmetry in E2.
    apply hd_opt_In in E2. eapply MB; eauto.
  - unfold split_with in H. destruct (N.eqb _ _); [|discriminate]. destruct (0 <? start_idx o); inversion H.
    eapply SF; [exact IHHD1|eassumption].
  - unfold split_with in H. destruct (N.eqb _ _); [|discriminate]. destruct (0 <? start_idx o); inversion H;
    (eapply SF; [exact IHHD1|eassumption]).
  - exact (TR s A m true true s' IHHD H H0).
  - exact (TR s A m true false s' IHHD H H0).
  - exact (TR s A m false true s' IHHD H H0).
  - destruct (fine_bounds rc _ _ IHHD) as (L & N & Hn & He & Hs & Hc). fold n in N, Hn, He, Hs.
    unfold sel_after in H0. inv_bind H0. rewrite N in E. unfold sub_usize, checked_sub in E.
    destruct (1 <=? n) eqn:E1; [|discriminate]. injection E as <-.
    destruct (Nat.eqb _ _) eqn:E2; [discriminate|]. injection H0 as <-. destruct IHHD as [E3 _].
    rewrite E3. split; auto. unfold sel_ok, sel_past_end, line_len, line_of. cbn [sel_line start_idx end_idx]. fold n.
    destruct (Nat.eq_dec (S (end_idx s)) n); [right; split; [exact H|lia]|left; lia].
Qed.

Variable lg : list entry.
Hypothesis HH : History (rc_line rc) lg.

(** Both ends are tokens of the line; with [after] the start may be just past the last one. *)
Definition ends_in_line (aft : bool) (s : LLSelection) : Prop :=
  sel_line s = rc /\ end_idx s < n /\ (start_idx s < n \/ (aft = true /\ start_idx s = n)).

Lemma ends_bounds aft s : ends_in_line aft s ->
  line_of s = rc_line rc /\ line_len s = n /\ 0 < n /\ end_idx s < n /\ start_idx s <= n.
Proof.
  intros (H1 & H2 & H3). unfold line_len, line_of. rewrite H1. fold n. repeat split; auto; lia.
Qed.

Lemma ends_mk aft i j : i < n -> j < n -> ends_in_line aft (mkSel rc i j).
Proof. intros Hi Hj. split; auto. Qed.

Lemma reached_ends aft s : reached (user_matcher (rc_line rc)) aft rc s -> ends_in_line aft s.
Proof.
  assert (HB : forall A (m : matcher A) d ms a j, user_matcher (rc_line rc) A m -> m d (rc_line rc) = Ok ms -> In (a, j) ms -> j < n).
  { intros A m d ms a j HM H Hin. exact (thm_C71_inside _ _ _ m d ms a j HH HM H Hin). }
  assert (FB : forall s A (m : matcher A) fs s' a, ends_in_line aft s -> user_matcher (rc_line rc) A m ->
     find_by s m = Ok fs -> In (s', a) fs -> ends_in_line aft s').
  { intros s0 A m fs s' a IH HM H Hin. destruct (ends_bounds _ _ IH) as (L & N & Hn & He & Hs).
    apply (find_by_In _ _ _ _ _ H) in Hin. destruct Hin as (H1 & H2 & ms & H3 & H4).
    rewrite L in H3. unfold covers in H2. pose proof (HB _ _ _ _ _ _ HM H3 H4) as HI.
    destruct IH as [E _]. split; [congruence|]. split; auto. left. lia. }
  assert (MF : forall s A (m : matcher A) fs s' a, ends_in_line aft s -> user_matcher (rc_line rc) A m ->
     match_forwards s m = Ok fs -> In (s', a) fs -> ends_in_line aft s').
  { intros s0 A m fs s' a IH HM H Hin. destruct (ends_bounds _ _ IH) as (L & N & Hn & He & Hs).
    unfold match_forwards in H. rewrite N, L in H. destruct (Nat.eqb (S (end_idx s0)) n) eqn:E.
    - injection H as <-. destruct Hin.
    - inv_bind H. injection H as <-. apply in_map_iff in Hin.
      destruct Hin as ([b j] & E1 & H1). injection E1 as <- <-.
      pose proof (HB _ _ _ _ _ _ HM E0 H1) as HI. destruct IH as (E2 & _ & E3). split; [exact E2|]. split; auto. }
  assert (MB : forall s A (m : matcher A) fs s' a, ends_in_line aft s -> user_matcher (rc_line rc) A m ->
     match_backwards s m = Ok fs -> In (s', a) fs -> ends_in_line aft s').
  { intros s0 A m fs s' a IH HM H Hin. destruct (ends_bounds _ _ IH) as (L & N & Hn & He & Hs).
    unfold match_backwards in H. rewrite L in H. destruct (Nat.eqb (start_idx s0) 0) eqn:E.
    - injection H as <-. destruct Hin.
    - inv_bind H. injection H as <-. apply in_map_iff in Hin.
      destruct Hin as ([b j] & E1 & H1). injection E1 as <- <-.
      pose proof (HB _ _ _ _ _ _ HM E0 H1) as HI. destruct IH as (E2 & _ & _). split; [exact E2|]. split; auto. }
  assert (SF : forall s a b p, ends_in_line aft s -> selection_from s a b = Some p -> ends_in_line aft p).
  { intros s0 a b p IH H. destruct (ends_bounds _ _ IH) as (L & N & Hn & He & Hs).
    apply selection_from_spec in H. destruct H as (H1 & H2 & H3 & H4). destruct IH as (E & _ & _).
    split; [congruence|]. split; [lia|]. left. lia. }
  assert (TR : forall s A (m : matcher A) f1 f2 s', ends_in_line aft s -> user_matcher (rc_line rc) A m ->
     trim_selection s m f1 f2 = Ok (Some s') -> ends_in_line aft s').
  { intros s0 A m f1 f2 s' IH HM H. destruct (ends_bounds _ _ IH) as (L & N & Hn & He & Hs).
    unfold trim_selection in H. rewrite L in H. inv_bind H. inv_bind H. rename a into ns, a0 into ne.
    destruct ((start_idx s0 <=? ne) && (ns <=? ne)) eqn:C; [|discriminate].
    apply andb_true_iff in C. destruct C as [C1 C2]. apply Nat.leb_le in C1, C2.
    injection H as <-. assert (ne < n).
    { destruct f2; [|injection E0 as <-; lia]. inv_bind E0. destruct a as [|[x j] a]; [injection E0 as <-; lia|].
      pose proof (HB _ _ _ _ _ _ HM E1 (or_introl eq_refl)) as HI.
      unfold checked_sub in E0. destruct (1 <=? j); injection E0 as <-; lia. }
    destruct IH as (E2 & _ & _). rewrite E2. apply ends_mk; lia. }
  intros HD. induction HD.
  - unfold from_line in H. destruct (0 <? length (ll_tokens (rc_line rc))) eqn:E; [|discriminate].
    apply Nat.ltb_lt in E. injection H as <-. apply ends_mk; unfold n; lia.
  - destruct (split_by_pieces _ _ _ _ H0 H1) as [->|(a & b & Hp)]; [exact IHHD|]. eapply SF; eauto.
  - eapply FB; eauto.
  - unfold find_first_by in H0. apply rmap_ok_inv in H0. destruct H0 as (fs & E & E2). symmetry in E2.
    apply hd_opt_In in E2. eapply FB; eauto.
  - destruct (ends_bounds _ _ IHHD) as (L & N & Hn & He & Hs).
    apply (both_In _ _ _ _ _ H0) in H1. destruct H1 as (E1 & H1). rewrite L in H1. unfold covers in H1.
    split; [destruct IHHD; congruence|].
    destruct H1 as [(H3 & ms & H4 & H5)|(H3 & ms & H4 & H5)]; pose proof (HB _ _ _ _ _ _ H H4 H5) as HI; split; lia.
  - eapply MF; eauto.
  - unfold match_first_forwards in H0. apply rmap_ok_inv in H0. destruct H0 as (fs & E & E2). symmetry in E2.
    apply hd_opt_In in E2. eapply MF; eauto.
  - eapply MB; eauto.
  - unfold match_first_backwards in H0. apply rmap_ok_inv in H0. destruct H0 as (fs & E & E2). symmetry in E2.
    apply hd_opt_In in E2. eapply MB; eauto.
  - unfold split_with in H. destruct (N.eqb _ _); [|discriminate]. destruct (0 <? start_idx o); inversion H.
    eapply SF; [exact IHHD1|eassumption].
  - unfold split_with in H. destruct (N.eqb _ _); [|discriminate]. destruct (0 <? start_idx o); inversion H;
    (eapply SF; [exact IHHD1|eassumption]).
  - exact (TR s A m true true s' IHHD H H0).
  - exact (TR s A m true false s' IHHD H H0).
  - exact (TR s A m false true s' IHHD H H0).
  - destruct (ends_bounds _ _ IHHD) as (L & N & Hn & He & Hs).
    unfold sel_after in H0. inv_bind H0. rewrite N in E. unfold sub_usize, checked_sub in E.
    destruct (1 <=? n) eqn:E1; [|discriminate]. injection E as <-.
    destruct (Nat.eqb _ _) eqn:E2; [discriminate|]. injection H0 as <-. destruct IHHD as (E3 & _ & _).
    split; [exact E3|]. cbn [end_idx start_idx]. split; [lia|].
    destruct (Nat.eq_dec (S (end_idx s)) n); [right; auto|left; lia].
Qed.
End Reached.

Lemma thm_C71_ends :
  forall rc lg aft s,
    History (rc_line rc) lg -> reached (user_matcher (rc_line rc)) aft rc s ->
    sel_line s = rc /\ end_idx s < line_len s
    /\ (start_idx s < line_len s \/ (aft = true /\ start_idx s = line_len s)).
Proof.
  intros rc lg aft s H HR. destruct (reached_ends rc lg H aft s HR) as (H1 & H2 & H3).
  unfold line_len, line_of. rewrite H1. auto.
Qed.

(** With matchers that only match onwards they are not reversed either. *)
Lemma thm_C71_onward :
  forall rc aft s,
    reached (onward_matcher (rc_line rc)) aft rc s ->
    sel_line s = rc /\ (sel_ok s \/ (aft = true /\ sel_past_end s)).
Proof. intros rc aft s HR. exact (reached_fine rc aft s HR). Qed.

(** Finishing selections made with matchers of users never makes [run] panic. *)
Lemma thm_C71_run :
  forall t l lg id (r : Resolver t) g,
    History l lg -> ll_tokens l <> [] ->
    r (whole id l) = Ok g -> finishes (user_matcher l) id l g ->
    exists l', run id l r = Ok l' /\ History l' (lg ++ map assignment_entry (go_assignments g)).
Proof.
  intros t l lg id r g H HN Hg [Hr Hs].
  assert (HR : exists l', run id l r = Ok l').
  { apply (thm_C14_run_ok_iff t id l lg r H HN). exists g. split; auto. split; auto. unfold assignments_in. apply Forall_forall.
    intros x Hx. destruct (Hs x Hx) as (s & v & HD & ->).
    destruct (thm_C71_ends (mkRc id l) lg false s H HD) as (E1 & E2 & [E3|[E3 _]]); [|discriminate].
    unfold line_len, line_of in E2, E3. rewrite E1 in E2, E3. cbn [rc_line] in E2, E3. cbn [finish_with_attr as_start as_end]. auto. }
  destruct HR as (l' & HR). exists l'. split; auto. eapply H_run; eauto.
Qed.

(** [find] panics only where the matcher does. *)
Lemma thm_C71_find :
  forall l lg A (m : matcher A),
    History l lg -> user_matcher l A m ->
    ((exists fs, find l m = Ok fs) <-> forall i, i < length (ll_tokens l) -> exists ms, m (Fwd i) l = Ok ms).
Proof.
  intros l lg A m H HM. unfold find. rewrite flat_mapM_ok_iff. split.
  - intros HF i Hi. destruct (HF i) as (r & Hr); [apply in_seq; lia|]. inv_bind Hr. eauto.
  - intros HF i Hi. apply in_seq in Hi. destruct (HF i ltac:(lia)) as (ms & Hm). rewrite Hm. cbn [bind].
    destruct (nth_error (ll_tokens l) i) as [ti|] eqn:Ei; [|apply nth_error_None in Ei; lia].
    exists (map (fun '(out, j) => mkFind (pos_starts_at ti) (match nth_error (ll_tokens l) j with Some tj => pos_ends_at tj | None => 0%N end) out) ms).
    apply mapM_ok. intros [out j] Hin. pose proof (thm_C71_inside l lg A m _ ms out j H HM Hm Hin) as Hj.
    unfold pos_start_at, pos_end_at. rewrite Ei. cbn [expect bind].
    destruct (nth_error (ll_tokens l) j) eqn:Ej; [reflexivity|apply nth_error_None in Ej; lia].
Qed.

(** ... and of any matcher at all, also one with indexes of another line. *)
Lemma thm_C71_find_any :
  forall l A (m : matcher A),
    (exists fs, find l m = Ok fs)
    <-> (forall i, i < length (ll_tokens l) ->
           exists ms, m (Fwd i) l = Ok ms /\ forall a j, In (a, j) ms -> j < length (ll_tokens l)).
Proof.
  intros l A m. unfold find. rewrite flat_mapM_ok_iff. split.
  - intros HF i Hi. destruct (HF i) as (r & Hr); [apply in_seq; lia|]. destruct (m (Fwd i) l) as [x| |]; try discriminate Hr. cbn [bind] in Hr. exists x. split; [reflexivity|].
    intros a j Hin. assert (HO : exists r, mapM (fun '(out, j) => s <- pos_start_at l i;; e <- pos_end_at l j;; Ok (mkFind s e out)) x = Ok r) by eauto.
    rewrite mapM_ok_iff in HO. specialize (HO _ Hin). destruct HO as (y & Ey).
    unfold pos_end_at in Ey. destruct (pos_start_at l i); try discriminate Ey. cbn [bind] in Ey.
    destruct (nth_error (ll_tokens l) j) eqn:Ej; [apply nth_error_Some; congruence|discriminate].
  - intros HF i Hi. apply in_seq in Hi. destruct (HF i ltac:(lia)) as (ms & Hm & HJ). rewrite Hm. cbn [bind].
    destruct (nth_error (ll_tokens l) i) as [ti|] eqn:Ei; [|apply nth_error_None in Ei; lia].
    exists (map (fun '(out, j) => mkFind (pos_starts_at ti) (match nth_error (ll_tokens l) j with Some tj => pos_ends_at tj | None => 0%N end) out) ms).
    apply mapM_ok. intros [out j] Hin. pose proof (HJ _ _ Hin) as Hj.
    unfold pos_start_at, pos_end_at. rewrite Ei. cbn [expect bind].
    destruct (nth_error (ll_tokens l) j) eqn:Ej; [reflexivity|apply nth_error_None in Ej; lia].
Qed.

(** [run] hands the resolver exactly the selection of all tokens, the one [from_line] makes. *)
Lemma thm_C71_whole :
  forall id l, ll_tokens l <> [] ->
    from_line (mkRc id l) = Some (whole id l)
    /\ (forall i, covers (whole id l) i <-> i < length (ll_tokens l))
    /\ forall t (r r' : Resolver t), (forall s, from_line (mkRc id l) = Some s -> r s = r' s) -> run id l r = run id l r'.
Proof.
  intros id l HN. assert (HL : 0 < length (ll_tokens l)) by (destruct (ll_tokens l); [easy|cbn; lia]).
  assert (HF : from_line (mkRc id l) = Some (whole id l)).
  { unfold from_line. cbn [rc_line]. apply Nat.ltb_lt in HL. rewrite HL. reflexivity. }
  split; auto. split.
  - intros i. unfold covers, whole. cbn [start_idx end_idx]. lia.
  - intros t r r' Hr. unfold run. destruct (ll_tokens l) eqn:E; [easy|]. rewrite (Hr _ HF). reflexivity.
Qed.

End ThmUser.
