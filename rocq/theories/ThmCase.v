(** Proofs about texts of the same shape and about case (C95). *)

From Verif Require Export SpecCase ThmKeys ThmScan ThmPass.

Local Open Scope list_scope.

(** ** Characters *)

Lemma kin_refl c : kin c c.
Proof. now left. Qed.
Lemma kin_sym c d : kin c d -> kin d c.
Proof. unfold kin. intuition. Qed.
Lemma kin_letter c d : kin c d -> (ascii_letter c <-> ascii_letter d).
Proof. intros [->|[[H1 H2]|[H1 H2]]]; [tauto|tauto|]. unfold ascii_letter, ascii_digit in *. lia. Qed.
Lemma kin_digit c d : kin c d -> (ascii_digit c <-> ascii_digit d).
Proof. intros [->|[[H1 H2]|[H1 H2]]]; [tauto| |tauto]. unfold ascii_letter, ascii_digit in *. lia. Qed.
Lemma kin_ascii c d : kin c d -> (c < 128)%N -> (d < 128)%N.
Proof. intros [->|[[H1 H2]|[H1 H2]]]; [easy| |]; unfold ascii_letter, ascii_digit in *; lia. Qed.
(** Other characters are themselves. *)
Lemma kin_other c d x : kin c d -> ~ ascii_letter x -> ~ ascii_digit x -> (c = x <-> d = x).
Proof. intros [->|[[H1 H2]|[H1 H2]]] Hx Hy; [tauto| |]; split; intros ->; contradiction. Qed.
Ltac not_alnum := unfold ascii_letter, ascii_digit; lia.
Lemma kin_mid_letter colon c d : kin c d -> (mid_letter colon c <-> mid_letter colon d).
Proof. intros [->|[[H1 H2]|[H1 H2]]]; [tauto| |]; unfold mid_letter, ascii_letter, ascii_digit in *; cbn [In]; lia. Qed.
Lemma kin_mid_number c d : kin c d -> (mid_number c <-> mid_number d).
Proof. intros [->|[[H1 H2]|[H1 H2]]]; [tauto| |]; unfold mid_number, ascii_letter, ascii_digit in *; cbn [In]; lia. Qed.
Lemma Forall2_app_inv_same {A B} (P : A -> B -> Prop) xs : forall xs' ys ys', length xs = length ys -> Forall2 P (xs ++ xs') (ys ++ ys') -> Forall2 P xs ys /\ Forall2 P xs' ys'.
Proof.
  induction xs as [|x xs IH]; intros xs' [|y ys] ys' L H; try discriminate L; [split; [constructor|exact H]|].
  injection L as L. inversion H as [|? ? ? ? H1 H2]; subst. destruct (IH _ _ _ L H2) as [H3 H4]. split; [now constructor|exact H4].
Qed.

Lemma lower_kin c d : (c < 128)%N -> ascii_lower c = ascii_lower d -> kin c d.
Proof.
  intros Hc. unfold ascii_lower, kin, ascii_letter. destruct ((65 <=? c) && (c <=? 90))%N eqn:E1, ((65 <=? d) && (d <=? 90))%N eqn:E2;
    rewrite ?andb_true_iff, ?andb_false_iff, ?N.leb_le, ?N.leb_gt in *; lia.
Qed.
Lemma lower_other c d : (c < 128)%N -> ascii_lower c = ascii_lower d -> ~ ascii_letter c -> c = d.
Proof. intros Hc H Hn. destruct (lower_kin c d Hc H) as [->|[[H1 _]|[H1 H2]]]; [reflexivity|contradiction|].
  revert H. unfold ascii_lower, ascii_digit in *. destruct ((65 <=? c) && (c <=? 90))%N eqn:E1, ((65 <=? d) && (d <=? 90))%N eqn:E2;
    rewrite ?andb_true_iff, ?andb_false_iff, ?N.leb_le, ?N.leb_gt in *; lia.
Qed.

Definition lower_eq (c d : char) : Prop := (c < 128)%N /\ ascii_lower c = ascii_lower d.
Lemma same_case_Forall2 s s' : ascii s -> same_case s s' -> Forall2 lower_eq s s'.
Proof.
  unfold same_case. revert s'. induction s as [|c s IH]; intros [|d s'] HA E; try discriminate; constructor.
  - injection E as E _. inversion HA; subst. now split.
  - injection E as _ E. inversion HA; subst. now apply IH.
Qed.
Lemma Forall2_same_case s s' : Forall2 lower_eq s s' -> same_case s s'.
Proof. unfold same_case. induction 1 as [|c d s s' [_ H] _ IH]; [reflexivity|]. cbn [map]. now rewrite H, IH. Qed.

Lemma shape_app p q p' q' : same_shape p p' -> same_shape q q' -> same_shape (p ++ q) (p' ++ q').
Proof. apply Forall2_app. Qed.
Lemma shape_sym s s' : same_shape s s' -> same_shape s' s.
Proof. induction 1; constructor; [now apply kin_sym|assumption]. Qed.
Lemma shape_ascii s s' : same_shape s s' -> ascii s -> ascii s'.
Proof. induction 1 as [|c d s s' H _ IH]; intros HA; [constructor|]. inversion HA; subst. constructor; [eapply kin_ascii; eauto|now apply IH]. Qed.

Lemma shape_starts s s' (P : char -> Prop) : (forall c d, kin c d -> (P c <-> P d)) -> same_shape s s' -> starts_in s P -> starts_in s' P.
Proof. intros HP H (c & r & -> & Hc). inversion H as [|? d ? r' Hk Hr]; subst. exists d, r'. split; [reflexivity|]. now apply (HP c d Hk). Qed.
Lemma shape_ends s s' (P : char -> Prop) : (forall c d, kin c d -> (P c <-> P d)) -> same_shape s s' -> ends_in s P -> ends_in s' P.
Proof.
  intros HP H (r & c & -> & Hc). apply Forall2_app_inv_l in H. destruct H as (r' & t & Hr & Ht & ->).
  inversion Ht as [|? d ? t' Hk Ht']; subst. inversion Ht'; subst. exists r', d. split; [reflexivity|]. now apply (HP c d Hk).
Qed.

(** ** Boundaries *)

Lemma shape_unbroken colon b a b' a' : same_shape b b' -> same_shape a a' -> unbroken colon b a -> unbroken colon b' a'.
Proof.
  intros Hb Ha HU. destruct (unbroken_ends colon _ _ HU) as [Nb Na]. destruct (exists_last Nb) as (p & c & ->). destruct a as [|d q]; [easy|].
  apply Forall2_app_inv_l in Hb. destruct Hb as (p' & t & Hp & Ht & ->). inversion Ht as [|? c' ? t' Hc Ht']; subst. inversion Ht'; subst.
  inversion Ha as [|? d' ? q' Hd Hq]; subst. apply unbroken_ub in HU. apply unbroken_ub. unfold ub, alnum in *.
  pose proof (shape_starts q q' ascii_letter kin_letter Hq). pose proof (shape_starts q q' ascii_digit kin_digit Hq).
  pose proof (shape_ends p p' ascii_letter kin_letter Hp). pose proof (shape_ends p p' ascii_digit kin_digit Hp).
  pose proof (kin_letter _ _ Hc). pose proof (kin_digit _ _ Hc). pose proof (kin_letter _ _ Hd). pose proof (kin_digit _ _ Hd).
  pose proof (kin_mid_letter colon _ _ Hc). pose proof (kin_mid_letter colon _ _ Hd). pose proof (kin_mid_number _ _ Hc). pose proof (kin_mid_number _ _ Hd).
  pose proof (kin_other c c' 13%N Hc ltac:(not_alnum) ltac:(not_alnum)). pose proof (kin_other c c' 32%N Hc ltac:(not_alnum) ltac:(not_alnum)). pose proof (kin_other c c' 95%N Hc ltac:(not_alnum) ltac:(not_alnum)).
  pose proof (kin_other d d' 10%N Hd ltac:(not_alnum) ltac:(not_alnum)). pose proof (kin_other d d' 32%N Hd ltac:(not_alnum) ltac:(not_alnum)). pose proof (kin_other d d' 95%N Hd ltac:(not_alnum) ltac:(not_alnum)).
  tauto.
Qed.

Section Case.
Context {UC : Unicode} {U : UserTypes}.

(** The two texts are cut in the same places. *)
Lemma shape_words_from (SL : SegmenterLaws) colon (AL : AsciiLaws colon) s s' : ascii s -> ascii s' ->
  forall ws ws' us us', u_words s = us ++ ws -> u_words s' = us' ++ ws' -> same_shape (concat us) (concat us') -> same_shape (concat ws) (concat ws') ->
  Forall2 same_shape ws ws'.
Proof.
  intros HA HA'.
  assert (NE : forall us ws, u_words s = us ++ ws -> Forall (fun w => w <> []) ws).
  { intros us ws E. apply Forall_forall. intros w Hw. apply (seg_nonempty SL s). rewrite E. apply in_or_app. now right. }
  assert (NE' : forall us ws, u_words s' = us ++ ws -> Forall (fun w => w <> []) ws).
  { intros us ws E. apply Forall_forall. intros w Hw. apply (seg_nonempty SL s'). rewrite E. apply in_or_app. now right. }
  induction ws as [|w ws IH]; intros ws' us us' E E' HU HW.
  - cbn in HW. inversion HW as [H1 H2|]. destruct ws' as [|w' ws']; [constructor|]. exfalso. pose proof (NE' _ _ E') as H. inversion H; subst.
    symmetry in H2. cbn in H2. apply app_eq_nil in H2. tauto.
  - destruct ws' as [|w' ws'].
    { exfalso. cbn in HW. inversion HW as [H1|]. pose proof (NE _ _ E) as H2. inversion H2; subst. symmetry in H1. apply app_eq_nil in H1. tauto. }
    pose proof (NE _ _ E) as N1. inversion N1 as [|? ? N2 N3]; subst. pose proof (NE' _ _ E') as N4. inversion N4 as [|? ? N5 N6]; subst.
    assert (L : length w = length w').
    { pose proof (Forall2_length_eq _ _ _ HW) as HL. cbn in HL. rewrite !app_length in HL.
      destruct (Nat.lt_trichotomy (length w) (length w')) as [L|[L|L]]; [|exact L|]; exfalso.
      - (* w' is longer *)
        rewrite <- (firstn_skipn (length w) w') in HW, E'. set (x := firstn (length w) w') in *. set (y := skipn (length w) w') in *.
        assert (Lx : length x = length w) by (unfold x; rewrite firstn_length; lia).
        assert (Ly : y <> []) by (intros C; apply (f_equal (@length _)) in C; unfold y in C; rewrite skipn_length in C; cbn in C; lia).
        assert (Nx : x <> []) by (intros C; rewrite C in Lx; destruct w; [easy|discriminate]).
        cbn [concat] in HW. rewrite <- app_assoc in HW. destruct (Forall2_app_inv_same _ _ _ _ _ (eq_sym Lx) HW) as [Hx Hy].
        pose proof (cut_wherever_allowed colon AL s' us' x y ws' HA' E' Nx Ly) as C.
        pose proof (cut_where_allowed colon AL s (us ++ [w]) ws HA ltac:(rewrite <- app_assoc; exact E)) as D. apply may_cut_iff in D. apply D.
        rewrite concat_app. cbn [concat]. rewrite app_nil_r.
        refine (shape_unbroken colon _ _ _ _ _ _ C); [apply shape_app; apply shape_sym; assumption|apply shape_sym; exact Hy].
      - rewrite <- (firstn_skipn (length w') w) in HW, E. set (x := firstn (length w') w) in *. set (y := skipn (length w') w) in *.
        assert (Lx : length x = length w') by (unfold x; rewrite firstn_length; lia).
        assert (Ly : y <> []) by (intros C; apply (f_equal (@length _)) in C; unfold y in C; rewrite skipn_length in C; cbn in C; lia).
        assert (Nx : x <> []) by (intros C; rewrite C in Lx; destruct w'; [easy|discriminate]).
        cbn [concat] in HW. rewrite <- app_assoc in HW. destruct (Forall2_app_inv_same _ _ _ _ _ Lx HW) as [Hx Hy].
        pose proof (cut_wherever_allowed colon AL s us x y ws HA E Nx Ly) as C.
        pose proof (cut_where_allowed colon AL s' (us' ++ [w']) ws' HA' ltac:(rewrite <- app_assoc; exact E')) as D. apply may_cut_iff in D. apply D.
        rewrite concat_app. cbn [concat]. rewrite app_nil_r.
        refine (shape_unbroken colon _ _ _ _ _ _ C); [apply shape_app; assumption|exact Hy]. }
    cbn [concat] in HW. destruct (Forall2_app_inv_same _ _ _ _ _ L HW) as [Hw Hws]. constructor; [exact Hw|].
    apply (IH ws' (us ++ [w]) (us' ++ [w'])); [now rewrite <- app_assoc|now rewrite <- app_assoc| |exact Hws].
    rewrite !concat_app. cbn [concat]. rewrite !app_nil_r. now apply shape_app.
Qed.

(** ** Tokens *)

Section Kind.
Context (SL : SegmenterLaws) (colon : bool) (AL : AsciiLaws colon).
Context (K : char -> char -> Prop) (HK : forall c d, K c d -> (c < 128)%N /\ kin c d).
Local Notation RK := (Forall2 K).

Lemma RK_shape s s' : RK s s' -> same_shape s s'.
Proof. induction 1; constructor; [now apply HK|assumption]. Qed.
Lemma RK_ascii s s' : RK s s' -> ascii s.
Proof. induction 1 as [|c d s s' H _ IH]; constructor; [now apply (HK c d)|assumption]. Qed.
Lemma RK_ascii' s s' : RK s s' -> ascii s'.
Proof. intros H. eapply shape_ascii; [eapply RK_shape; eauto|eapply RK_ascii; eauto]. Qed.

Lemma RK_words s s' : RK s s' -> Forall2 RK (u_words s) (u_words s').
Proof.
  intros H.
  assert (HS : Forall2 same_shape (u_words s) (u_words s')).
  { apply (shape_words_from SL colon AL s s' (RK_ascii _ _ H) (RK_ascii' _ _ H) _ _ [] []); [reflexivity|reflexivity|constructor|].
    rewrite !(seg_concat SL). now apply RK_shape. }
  rewrite <- (seg_concat SL s), <- (seg_concat SL s') in H. revert HS H. generalize (u_words s), (u_words s'). clear.
  intros ws ws' HS. induction HS as [|w w' ws ws' Hw HS IH]; intros H; constructor.
  - cbn [concat] in H. apply Forall2_app_inv_same in H; [apply H|]. symmetry. now apply Forall2_length_eq in Hw.
  - apply IH. cbn [concat] in H. apply Forall2_app_inv_same in H; [apply H|]. symmetry. now apply Forall2_length_eq in Hw.
Qed.

Lemma K_alphabetic c d : K c d -> u_alphabetic c = u_alphabetic d.
Proof.
  intros H. destruct (HK c d H) as [Hc Hk]. apply eq_iff_eq_true. rewrite (ascii_alphabetic colon AL c Hc), (ascii_alphabetic colon AL d (kin_ascii _ _ Hk Hc)). now apply kin_letter.
Qed.
Lemma kin_space c d : kin c d -> (ascii_space c <-> ascii_space d).
Proof. intros [->|[[H1 H2]|[H1 H2]]]; [tauto| |]; unfold ascii_space, ascii_letter, ascii_digit in *; cbn [In]; lia. Qed.
Lemma K_whitespace c d : K c d -> u_whitespace c = u_whitespace d.
Proof.
  intros H. destruct (HK c d H) as [Hc Hk]. apply eq_iff_eq_true. rewrite (ascii_whitespace colon AL c Hc), (ascii_whitespace colon AL d (kin_ascii _ _ Hk Hc)). now apply kin_space.
Qed.
Lemma K_digit c d : K c d -> is_ascii_digit c = is_ascii_digit d.
Proof.
  intros H. destruct (HK c d H) as [Hc Hk]. apply kin_digit in Hk. unfold ascii_digit in Hk. apply eq_iff_eq_true. unfold is_ascii_digit. now rewrite !andb_true_iff, !N.leb_le.
Qed.
Lemma K_eqb c d x : K c d -> ~ ascii_letter x -> ~ ascii_digit x -> N.eqb c x = N.eqb d x.
Proof. intros H Hx Hy. destruct (HK c d H) as [_ Hk]. apply eq_iff_eq_true. rewrite !N.eqb_eq. now apply kin_other. Qed.

Lemma RK_spaces s s' : RK s s' -> is_spaces s = is_spaces s'.
Proof. induction 1 as [|c d s s' H _ IH]; [reflexivity|]. cbn [is_spaces]. now rewrite (K_whitespace _ _ H), IH. Qed.
Lemma RK_word_rest s s' : RK s s' -> is_word_rest s = is_word_rest s'.
Proof.
  induction 1 as [|c d s s' H _ IH]; [reflexivity|]. cbn [is_word_rest].
  rewrite (K_alphabetic _ _ H), IH, (K_eqb c d 39%N H), (K_eqb c d 45%N H), (K_eqb c d 8211%N H) by not_alnum. reflexivity.
Qed.
Lemma RK_word s s' : RK s s' -> is_word s = is_word s'.
Proof. intros [|c d t t' H HR]; [reflexivity|]. cbn [is_word]. now rewrite (K_alphabetic _ _ H), (RK_word_rest _ _ HR). Qed.
Lemma K_punctuation c d : K c d -> existsb (N.eqb c) PUNCTUATION = existsb (N.eqb d) PUNCTUATION.
Proof. intros H. cbn [existsb PUNCTUATION]. rewrite !(K_eqb c d) by (first [exact H|not_alnum]). reflexivity. Qed.
Lemma ascii_len s : ascii s -> str_len s = N.of_nat (length s).
Proof.
  induction 1 as [|c s H _ IH]; [reflexivity|]. cbn [str_len length]. unfold char_len_utf8. apply N.ltb_lt in H. rewrite H, IH. lia.
Qed.
Lemma RK_len s s' : RK s s' -> str_len s = str_len s'.
Proof. intros H. rewrite (ascii_len s), (ascii_len s') by (first [eapply RK_ascii; eassumption|eapply RK_ascii'; eassumption]). apply Forall2_length_eq in H. now rewrite H. Qed.
Lemma RK_tag s s' : RK s s' -> get_unicode_word_tag s = get_unicode_word_tag s'.
Proof.
  intros H. unfold get_unicode_word_tag. rewrite (RK_spaces _ _ H), (RK_len _ _ H), (RK_word _ _ H).
  destruct H as [|c d t t' H HR]; [reflexivity|]. now rewrite (K_punctuation _ _ H).
Qed.

Section Sizes.
Context (Q : Prop) (sz sz' : str -> N) (HZ : Q -> forall t t', RK t t' -> sz t = sz' t').
Definition sized_like (x x' : LToken * N) : Prop := token_like RK (fst x) (fst x') /\ (Q -> snd x = snd x').
Local Notation RL := (Forall2 sized_like).

Lemma like_text t t' tag : RK t t' -> sized_like (LText t tag, sz t) (LText t' tag, sz' t').
Proof. intros H. split; [now split|]. intros HQ. cbn [snd]. now apply HZ. Qed.
Lemma like_digits acc acc' g g' : RL acc acc' -> RK g g' -> RL (flush_digits sz acc g) (flush_digits sz' acc' g').
Proof. intros H HG. pose proof HG as HG'. destruct HG as [|c d t t' Hc HT]; [exact H|]. cbn [flush_digits]. apply Forall2_app; [exact H|]. constructor; [now apply like_text|constructor]. Qed.
Lemma like_letters acc acc' g g' : RL acc acc' -> RK g g' -> RL (flush_letters sz acc g) (flush_letters sz' acc' g').
Proof. intros H HG. pose proof HG as HG'. destruct HG as [|c d t t' Hc HT]; [exact H|]. cbn [flush_letters]. apply Forall2_app; [exact H|]. constructor; [now apply like_text|constructor]. Qed.
Lemma like_split cs cs' : RK cs cs' -> forall dg dg' lt lt' acc acc', RK dg dg' -> RK lt lt' -> RL acc acc' ->
  RL (split_digit_word sz cs dg lt acc) (split_digit_word sz' cs' dg' lt' acc').
Proof.
  induction 1 as [|c d cs cs' H HR IH]; intros dg dg' lt lt' acc acc' HD HL HA.
  - cbn [split_digit_word]. apply like_digits; [|exact HD]. now apply like_letters.
  - cbn [split_digit_word]. rewrite <- (K_digit _ _ H), <- (K_alphabetic _ _ H).
    assert (H1 : RK [c] [d]) by (constructor; [exact H|constructor]).
    destruct (is_ascii_digit c); [|destruct (u_alphabetic c)].
    + apply IH; [now apply Forall2_app|constructor|now apply like_letters].
    + apply IH; [constructor|now apply Forall2_app|now apply like_digits].
    + apply IH; [constructor|constructor|]. apply Forall2_app; [apply like_digits; [now apply like_letters|exact HD]|].
      constructor; [now apply like_text|constructor].
Qed.
Lemma is_ascii_ok s : ascii s -> str_is_ascii s = true.
Proof. intros H. apply forallb_forall. intros c Hc. apply N.ltb_lt. unfold ascii in H. rewrite Forall_forall in H. now apply H. Qed.
Lemma like_segment w w' acc acc' : RK w w' -> w <> [] -> RL acc acc' ->
  exists g g', tokens_of_segment sz acc w = Ok g /\ tokens_of_segment sz' acc' w' = Ok g' /\ RL g g'.
Proof.
  intros H N HA. unfold tokens_of_segment. rewrite (RK_tag _ _ H), (is_ascii_ok w (RK_ascii _ _ H)), (is_ascii_ok w' (RK_ascii' _ _ H)).
  pose proof H as H'. destruct H as [|c d t t' Hc HR]; [easy|]. rewrite <- (K_digit _ _ Hc). destruct (is_ascii_digit c).
  - do 2 eexists. split; [reflexivity|]. split; [reflexivity|]. apply like_split; [exact H'|constructor|constructor|exact HA].
  - do 2 eexists. split; [reflexivity|]. split; [reflexivity|]. apply Forall2_app; [exact HA|]. constructor; [now apply like_text|constructor].
Qed.
Lemma like_segments ws ws' : Forall2 RK ws ws' -> Forall (fun w => w <> []) ws -> forall acc acc', RL acc acc' ->
  exists g g', foldM (tokens_of_segment sz) ws acc = Ok g /\ foldM (tokens_of_segment sz') ws' acc' = Ok g' /\ RL g g'.
Proof.
  induction 1 as [|w w' ws ws' H HR IH]; intros HN acc acc' HA; [exists acc, acc'; auto|].
  inversion HN as [|? ? N1 N2]; subst. destruct (like_segment w w' acc acc' H N1 HA) as (g & g' & E & E' & HG).
  destruct (IH N2 g g' HG) as (k & k' & F & F' & HKK). exists k, k'. cbn [foldM]. rewrite E, E'. auto.
Qed.
Lemma like_string s s' : RK s s' -> exists g g', create_tokens_for_string sz s = Ok g /\ create_tokens_for_string sz' s' = Ok g' /\ RL g g'.
Proof.
  intros H. unfold create_tokens_for_string. apply like_segments; [now apply RK_words| |constructor].
  apply Forall_forall. intros w. apply (seg_nonempty SL).
Qed.
Lemma like_inputs input input' : Forall2 (input_like RK) input input' -> (Q -> Forall2 (fun it it' => forall n m ats ats', it = InCustom n ats -> it' = InCustom m ats' -> n = m) input input') ->
  exists gs gs', Forall2 (fun it g => input_ltokens sz it = Ok g) input gs /\ Forall2 (fun it g => input_ltokens sz' it = Ok g) input' gs' /\ Forall2 RL gs gs'.
Proof.
  induction 1 as [|it it' input input' H HR IH]; intros HQ; [exists [], []; auto|].
  destruct IH as (gs & gs' & H1 & H2 & H3); [intros q; specialize (HQ q); now inversion HQ|].
  assert (exists g g', input_ltokens sz it = Ok g /\ input_ltokens sz' it' = Ok g' /\ RL g g') as (g & g' & E & E' & HG).
  { destruct it as [s ats|n ats], it' as [s' ats'|n' ats']; cbn in H; try contradiction; cbn [input_ltokens].
    - now apply like_string.
    - do 2 eexists. split; [reflexivity|]. split; [reflexivity|]. constructor; [|constructor]. split; [exact I|]. intros q. specialize (HQ q). inversion HQ; subst. cbn. eauto. }
  exists (g :: gs), (g' :: gs'). repeat split; constructor; assumption.
Qed.
End Sizes.

Lemma like_created tg tg' sz sz' input input' l l' : Forall2 (input_like RK) input input' -> Forall wf_input input -> Forall wf_input input' ->
  create_line_from_input_tokens tg input sz = Ok l -> create_line_from_input_tokens tg' input' sz' = Ok l' ->
  Forall2 (token_like RK) (map token (ll_tokens l)) (map token (ll_tokens l')).
Proof.
  intros HI HW HW' HC HC'. destruct (like_inputs False sz sz' ltac:(contradiction) input input' HI ltac:(contradiction)) as (gs & gs' & H1 & H2 & H3).
  destruct (create_facts tg sz input l HW HC) as (ks & K1 & _ & _ & HT & _). destruct (create_facts tg' sz' input' l' HW' HC') as (ks' & K1' & _ & _ & HT' & _).
  assert (U1 : forall i a b (z : str -> N), Forall2 (fun it g => input_ltokens z it = Ok g) i a -> Forall2 (fun it g => input_ltokens z it = Ok g) i b -> a = b).
  { clear. intros i a b z H. revert b. induction H as [|x y xs ys E H IH]; intros b HB; inversion HB as [|? y' ? ys' E' HB']; subst; [reflexivity|]. f_equal; [congruence|now apply IH]. }
  rewrite <- (U1 _ _ _ _ H1 K1) in HT. rewrite <- (U1 _ _ _ _ H2 K1') in HT'. rewrite HT, HT', !layout_by_tokens.
  clear -H3. induction H3 as [|g g' gs gs' H H3 IH]; [constructor|]. cbn [concat]. rewrite !map_app. apply Forall2_app; [|exact IH].
  clear -H. induction H as [|x x' g g' [H _] HG IH]; constructor; assumption.
Qed.

Lemma like_layout add g g' : Forall2 (sized_like True) g g' -> forall i p,
  Forall2 (fun t t' => same_place t t' /\ token_like RK (token t) (token t')) (layout_by add i p g) (layout_by add i p g').
Proof.
  induction 1 as [|[x n] [x' n'] g g' [H1 H2] HG IH]; intros i p; [constructor|]. cbn [fst snd] in *. rewrite <- (H2 I). cbn [layout_by]. constructor; [|apply IH].
  split; [repeat split|exact H1].
Qed.
Lemma like_total g g' : Forall2 (sized_like True) g g' -> total g = total g'.
Proof. induction 1 as [|[x n] [x' n'] g g' [H1 H2] HG IH]; [reflexivity|]. cbn [fst snd] in *. cbn [total]. now rewrite (H2 I), IH. Qed.

Lemma like_from_string tg s s' l : RK s s' -> create_line_from_string tg s = Ok l ->
  exists l', create_line_from_string tg s' = Ok l' /\ Forall2 (fun t t' => same_place t t' /\ token_like RK (token t) (token t')) (ll_tokens l) (ll_tokens l').
Proof.
  intros H HC. unfold create_line_from_string in *. assert (HW : forall s : str, Forall wf_input [InText s []]) by (intros; repeat constructor).
  destruct (like_string True str_len str_len (fun _ => RK_len) s s' H) as (g & g' & E & E' & HG).
  destruct (create_facts tg str_len _ l (HW s) HC) as (ks & K1 & K2 & K3 & HT & _). inversion K1 as [|? k ? ks' E1 K1']; subst. inversion K1'; subst. cbn [input_ltokens] in E1. rewrite E in E1. injection E1 as <-.
  cbn [concat] in *. rewrite app_nil_r in *. inversion K2 as [|? ? K4 _]; subst.
  destruct (create_ok tg str_len [InText s' []] [g'] (HW s')) as (l' & E2 & HT' & _).
  - constructor; [exact E'|constructor].
  - constructor; [|constructor]. intros ->. inversion HG; subst. now apply K4.
  - cbn [concat]. rewrite app_nil_r. unfold fits in *. rewrite <- (like_total _ _ HG). destruct K3 as [K3|[K3|K3]]; [now left| |now right; right]. right. left. subst g. now inversion HG.
  - exists l'. split; [exact E2|]. cbn [concat] in HT'. rewrite app_nil_r in HT'. rewrite HT, HT'. now apply like_layout.
Qed.
End Kind.

Lemma input_like_impl (R R' : str -> str -> Prop) input input' : Forall ascii_input input -> (forall s s', ascii s -> R s s' -> R' s s') -> Forall2 (input_like R) input input' -> Forall2 (input_like R') input input'.
Proof.
  intros HA HR H. induction H as [|it it' input input' H HF IH]; constructor; inversion HA; subst; auto.
  destruct it, it'; cbn in *; auto.
Qed.
Lemma token_like_impl (R R' : str -> str -> Prop) ts ts' : (forall s s', R s s' -> R' s s') -> Forall2 (token_like R) ts ts' -> Forall2 (token_like R') ts ts'.
Proof.
  intros HR H. induction H as [|t t' ts ts' H HF IH]; constructor; auto. destruct t, t'; cbn in *; auto. destruct H; auto.
Qed.

(** the two relations, with the ASCII bound *)
Definition kin_ascii_char (c d : char) : Prop := (c < 128)%N /\ kin c d.
Lemma kin_ascii_ok c d : kin_ascii_char c d -> (c < 128)%N /\ kin c d.
Proof. easy. Qed.
Lemma lower_eq_ok c d : lower_eq c d -> (c < 128)%N /\ kin c d.
Proof. intros [H1 H2]. split; [exact H1|now apply lower_kin]. Qed.
Lemma shape_kin s s' : ascii s -> same_shape s s' -> Forall2 kin_ascii_char s s'.
Proof. intros HA H. induction H as [|c d s s' H HF IH]; constructor; inversion HA; subst; [now split|now apply IH]. Qed.
Lemma kin_shape s s' : Forall2 kin_ascii_char s s' -> same_shape s s'.
Proof. induction 1 as [|c d s s' [_ H] HF IH]; constructor; assumption. Qed.

Lemma shape_lines (SL : SegmenterLaws) colon (AL : AsciiLaws colon) ts l l' : lines_like same_shape ts l l' ->
  Forall2 (token_like (Forall2 kin_ascii_char)) (map token (ll_tokens l)) (map token (ll_tokens l')).
Proof.
  intros (tg & tg' & sz & sz' & input & input' & HC & HC' & HL & HA & HW & HW' & _).
  eapply (like_created SL colon AL kin_ascii_char kin_ascii_ok); [|exact HW|exact HW'|exact HC|exact HC'].
  revert HL. apply input_like_impl; [exact HA|]. apply shape_kin.
Qed.
Lemma case_lines (SL : SegmenterLaws) colon (AL : AsciiLaws colon) ts l l' : lines_like same_case ts l l' ->
  Forall2 (token_like (Forall2 lower_eq)) (map token (ll_tokens l)) (map token (ll_tokens l')).
Proof.
  intros (tg & tg' & sz & sz' & input & input' & HC & HC' & HL & HA & HW & HW' & _).
  eapply (like_created SL colon AL lower_eq lower_eq_ok); [|exact HW|exact HW'|exact HC|exact HC'].
  revert HL. apply input_like_impl; [exact HA|]. apply same_case_Forall2.
Qed.
Lemma lower_eq_lower (LL : AsciiLower) s s' : Forall2 lower_eq s s' -> u_lower s = u_lower s'.
Proof.
  intros H. rewrite (LL s), (LL s').
  - now apply Forall2_same_case.
  - eapply RK_ascii'; [apply lower_eq_ok|exact H].
  - eapply RK_ascii; [apply lower_eq_ok|exact H].
Qed.

(** ** Rows *)

Lemma rows_like {V} (R : str -> str -> Prop) (f g : str -> TextTag -> list V) toks toks' :
  Forall2 (token_like R) (map token toks) (map token toks') -> (forall t t' tag, R t t' -> f t tag = g t' tag) ->
  Forall2 (row_like R) (rows_by toks f) (rows_by toks' g).
Proof.
  intros H HF. unfold rows_by. generalize 0. revert toks' H. induction toks as [|tok toks IH]; intros [|tok' toks'] H i; try (inversion H; fail); [constructor|].
  cbn [map] in H. inversion H as [|? ? ? ? H1 H2]; subst. specialize (IH toks' H2 (S i)). cbn [enumerate_from filter_map].
  destruct (token tok) as [t tag|], (token tok') as [t' tag'|]; cbn in H1; try contradiction; [|exact IH].
  destruct H1 as [H1 ->]. rewrite <- (HF t t' tag' H1). destruct (f t tag'); [exact IH|]. constructor; [|exact IH]. now repeat split.
Qed.
Lemma row_like_impl {V} (R R' : str -> str -> Prop) (xs ys : list (LRange * str * list V)) : (forall s s', R s s' -> R' s s') -> Forall2 (row_like R) xs ys -> Forall2 (row_like R') xs ys.
Proof. intros HR. apply Forall2_weaken. intros x y (H1 & H2 & H3). repeat split; auto. Qed.
Lemma text_like (K : char -> char -> Prop) toks toks' : Forall2 (token_like (Forall2 K)) (map token toks) (map token toks') ->
  forall a b, Forall2 K (text_between toks a b) (text_between toks' a b).
Proof.
  intros H a b. unfold text_between. induction (seq a (S b - a)) as [|i is IH]; [constructor|]. cbn [flat_map]. apply Forall2_app; [|exact IH]. clear IH.
  revert i toks' H. induction toks as [|tok toks IH]; intros i [|tok' toks'] H; try (inversion H; fail); [destruct i; constructor|].
  cbn [map] in H. inversion H as [|? ? ? ? H1 H2]; subst. destruct i as [|i]; cbn [nth_error]; [|now apply IH]. unfold token_str.
  destruct (token tok), (token tok'); cbn in H1; try contradiction; [apply H1|constructor].
Qed.

(** C95: the shape of the text decides the tokens. *)
Lemma thm_C95_shape :
  forall (SL : SegmenterLaws) colon (AL : AsciiLaws colon) l l',
    lines_like same_shape [] l l' -> Forall2 (token_like same_shape) (map token (ll_tokens l)) (map token (ll_tokens l')).
Proof. intros SL colon AL l l' H. apply (shape_lines SL colon AL) in H. revert H. apply token_like_impl. apply kin_shape. Qed.

Lemma thm_C95_string :
  forall (SL : SegmenterLaws) colon (AL : AsciiLaws colon) tg s s' l,
    ascii s -> same_shape s s' -> create_line_from_string tg s = Ok l ->
    exists l', create_line_from_string tg s' = Ok l'
      /\ Forall2 (fun t t' => same_place t t' /\ token_like same_shape (token t) (token t')) (ll_tokens l) (ll_tokens l').
Proof.
  intros SL colon AL tg s s' l HA HS HC. destruct (like_from_string SL colon AL kin_ascii_char kin_ascii_ok tg s s' l (shape_kin _ _ HA HS) HC) as (l' & E & H).
  exists l'. split; [exact E|]. revert H. apply Forall2_weaken. intros t t' [H1 H2]. split; [exact H1|]. destruct (token t), (token t'); cbn in *; auto. destruct H2. split; [now apply kin_shape|assumption].
Qed.

(** C95: case does not matter for the tags and the parts of speech... *)
Lemma thm_C95_parts_of_speech :
  forall (SL : SegmenterLaws) colon (AL : AsciiLaws colon) (LL : AsciiLower) l l' id id' dict noun,
    lines_like same_case [TTextTag; TPos] l l' ->
    exists l1 l1' rows rows', run id l (pos_go dict noun) = Ok l1 /\ run id' l' (pos_go dict noun) = Ok l1'
      /\ query l1 TPos = Ok rows /\ query l1' TPos = Ok rows' /\ Forall2 (row_like same_case) rows rows'.
Proof.
  intros SL colon AL LL l l' id id' dict noun H. pose proof (case_lines SL colon AL _ l l' H) as HT.
  destruct H as (tg & tg' & sz & sz' & input & input' & HC & HC' & HL & HA & HW & HW' & HN).
  destruct (HN TTextTag ltac:(cbn; tauto)) as [N1 N1']. destruct (HN TPos ltac:(cbn; tauto)) as [N2 N2'].
  destruct (thm_C50_created tg sz input l id dict noun HW N1 N2 HC) as (l1 & R1 & Q1).
  destruct (thm_C50_created tg' sz' input' l' id' dict noun HW' N1' N2' HC') as (l1' & R1' & Q1').
  do 4 eexists. split; [exact R1|]. split; [exact R1'|]. split; [exact Q1|]. split; [exact Q1'|].
  eapply row_like_impl; [apply Forall2_same_case|]. apply rows_like; [exact HT|]. intros t t' tag HR. cbv beta. now rewrite (lower_eq_lower LL _ _ HR).
Qed.

(** ... for matching that ignores it, ... *)
Lemma thm_C95_matches :
  forall (SL : SegmenterLaws) colon (AL : AsciiLaws colon) (LL : AsciiLower) t l l' id id' (table : list (str * list (den t))),
    lines_like same_case [t] l l' -> t <> TChar -> t <> TTextTag ->
    exists l1 l1' rows rows', run id l (text_match_go (text_match_new_ci table)) = Ok l1 /\ run id' l' (text_match_go (text_match_new_ci table)) = Ok l1'
      /\ query l1 t = Ok rows /\ query l1' t = Ok rows' /\ Forall2 (row_like same_case) rows rows'.
Proof.
  intros SL colon AL LL t l l' id id' table H T1 T2. pose proof (case_lines SL colon AL _ l l' H) as HT.
  destruct H as (tg & tg' & sz & sz' & input & input' & HC & HC' & HL & HA & HW & HW' & HN).
  destruct (HN t ltac:(cbn; tauto)) as [N1 N1'].
  destruct (thm_C38_created t tg sz input l id table HW N1 T1 T2 HC) as (l1 & R1 & Q1).
  destruct (thm_C38_created t tg' sz' input' l' id' table HW' N1' T1 T2 HC') as (l1' & R1' & Q1').
  do 4 eexists. split; [exact R1|]. split; [exact R1'|]. split; [exact Q1|]. split; [exact Q1'|].
  eapply row_like_impl; [apply Forall2_same_case|]. apply rows_like; [exact HT|]. intros u u' tag HR. cbv beta.
  unfold same_ignoring_case. now rewrite (lower_eq_lower LL _ _ HR).
Qed.

Lemma classified_like (LL : AsciiLower) r t t' k : Forall2 lower_eq t t' -> (classified r t k <-> classified r t' k).
Proof. intros H. unfold classified. now rewrite (lower_eq_lower LL _ _ H). Qed.

(** ... for the keywords and the clauses, ... *)
Lemma thm_C95_clauses :
  forall (SL : SegmenterLaws) colon (AL : AsciiLaws colon) (LL : AsciiLower) l l' r i1 i2 j1 j2,
    lines_like same_case [TKeyword; TTextTag; TClause] l l' ->
    exists rows rows', clauses_reported i1 i2 r l rows /\ clauses_reported j1 j2 r l' rows' /\ Forall2 (row_like same_case) rows rows'.
Proof.
  intros SL colon AL LL l l' r i1 i2 j1 j2 H. pose proof (case_lines SL colon AL _ l l' H) as HT.
  destruct H as (tg & tg' & sz & sz' & input & input' & HC & HC' & HL & HA & HW & HW' & HN).
  destruct (HN TKeyword ltac:(cbn; tauto)) as [N1 N1']. destruct (HN TTextTag ltac:(cbn; tauto)) as [N2 N2']. destruct (HN TClause ltac:(cbn; tauto)) as [N3 N3'].
  destruct (thm_C81_marks r (ll_tokens l)) as (ms & HM & _).
  assert (HM' : Forall2 (marked r) (ll_tokens l') ms).
  { revert HT HM. generalize (ll_tokens l), (ll_tokens l'), ms. clear -LL UC U. intros toks. induction toks as [|tok toks IH]; intros [|tok' toks'] ms HT HM; try (inversion HT; fail); inversion HM as [|? m ? ms' Hm HMs]; subst; constructor.
    - cbn [map] in HT. inversion HT as [|? ? ? ? Ht _]; subst. unfold marked in *. destruct (token tok) as [t tag|], (token tok') as [t' tag'|]; cbn in Ht; try contradiction; [|exact Hm].
      destruct Ht as [Ht <-]. assert (HK : forall k, classified r t k <-> classified r t' k) by (intros k; now apply classified_like).
      assert (HK' : (forall k, ~ classified r t k) <-> (forall k, ~ classified r t' k)) by (split; intros G k C; apply (G k), HK, C).
      destruct m; [now apply HK| | |]; rewrite <- HK'; exact Hm.
    - apply IH; [now inversion HT|exact HMs]. }
  do 2 eexists. split; [eapply thm_C81_scan; [exact HW|exact N1|exact N2|exact N3|exact HC|exact HM]|].
  split; [eapply thm_C81_scan; [exact HW'|exact N1'|exact N2'|exact N3'|exact HC'|exact HM']|].
  generalize (scanned ms). intros xs. induction xs as [|x xs IH]; constructor; [|exact IH]. unfold clause_row. repeat split; cbn [fst snd].
  apply Forall2_same_case. now apply text_like.
Qed.


(** ** Amounts *)

Definition mark_like (K : char -> char -> Prop) (m m' : NMark) : Prop :=
  match m, m' with NNumber t, NNumber t' => Forall2 K t t' | NNumber _, _ | _, NNumber _ => False | _, _ => m = m' end.
Definition reading_like (K : char -> char -> Prop) (st st' : Reading) : Prop :=
  match st, st' with
  | Idle, Idle => True
  | Digits s e t, Digits s' e' t' | Delimited s e t, Delimited s' e' t' | Pointed s e t, Pointed s' e' t' => s = s' /\ e = e' /\ Forall2 K t t'
  | _, _ => False
  end.
Definition done_like (K : char -> char -> Prop) (x x' : LRange * str) : Prop := fst x = fst x' /\ Forall2 K (snd x) (snd x').

Section Pass.
Context (K : char -> char -> Prop) (HP : Forall2 K point point).
Lemma read_like st st' i m m' : reading_like K st st' -> mark_like K m m' ->
  match read st i m, read st' i m' with
  | Some (d, s), Some (d', s') => Forall2 (done_like K) d d' /\ reading_like K s s'
  | None, None => True
  | _, _ => False
  end.
Proof.
  intros HS HM. destruct st, st'; cbn in HS; try contradiction; try (destruct HS as (<- & <- & HT)); destruct m, m'; cbn in HM; try contradiction; try discriminate HM; cbn [read];
    repeat split; auto; repeat constructor; cbn; auto using Forall2_app.
  apply Forall2_app; [exact HT|]. exact (Forall2_app HP HM).
Qed.
Lemma pass_like ms : forall ms' st st' i, Forall2 (mark_like K) ms ms' -> reading_like K st st' ->
  match pass st i ms, pass st' i ms' with
  | Some (d, s), Some (d', s') => Forall2 (done_like K) d d' /\ reading_like K s s'
  | None, None => True
  | _, _ => False
  end.
Proof.
  induction ms as [|m ms IH]; intros ms' st st' i HM HS; inversion HM as [|? m' ? ms1 H1 H2]; subst; cbn [pass]; [split; [constructor|exact HS]|].
  pose proof (read_like st st' i m m' HS H1) as HR. destruct (read st i m) as [[d s]|], (read st' i m') as [[d' s']|]; try contradiction; [|exact I].
  destruct HR as [HD HS']. specialize (IH _ s s' (S i) H2 HS'). destruct (pass s (S i) ms) as [[e u]|], (pass s' (S i) ms1) as [[e' u']|]; try contradiction; [|exact I].
  cbn. split; [now apply Forall2_app|apply IH].
Qed.
Lemma whole_like ms ms' : Forall2 (mark_like K) ms ms' ->
  match whole_pass Idle 0 ms, whole_pass Idle 0 ms' with Some d, Some d' => Forall2 (done_like K) d d' | None, None => True | _, _ => False end.
Proof.
  intros HM. unfold whole_pass. pose proof (pass_like ms ms' Idle Idle 0 HM I) as H. destruct (pass Idle 0 ms) as [[d s]|], (pass Idle 0 ms') as [[d' s']|]; try contradiction; [|exact I].
  destruct H as [HD HS]. cbn. apply Forall2_app; [exact HD|]. destruct s, s'; cbn in HS; try contradiction; [constructor|..]; destruct HS as (<- & <- & HT); repeat constructor; cbn; auto using Forall2_app.
Qed.
End Pass.

Lemma parsed_places parse parse' K xs : forall xs' out out', Forall2 (done_like K) xs xs' -> parsed parse xs = Some out -> parsed parse' xs' = Some out' -> map fst out = map fst out'.
Proof.
  induction xs as [|[rg t] xs IH]; intros xs' out out' H E E'; inversion H as [|? [rg' t'] ? xs1 H1 H2]; subst; cbn [parsed] in *.
  - injection E as <-. injection E' as <-. reflexivity.
  - destruct (parse t), (parsed parse xs) as [o|] eqn:P; try discriminate. destruct (parse' t'), (parsed parse' xs1) as [o'|] eqn:P'; try discriminate.
    injection E as <-. injection E' as <-. destruct H1 as [H1 _]. cbn in *. rewrite H1. f_equal. eapply IH; eauto.
Qed.

Lemma like_nth {A B} (P : A -> B -> Prop) xs : forall ys i y, Forall2 P xs ys -> nth_error ys i = Some y -> exists x, nth_error xs i = Some x /\ P x y.
Proof.
  induction xs as [|x xs IH]; intros ys i y H E; inversion H; subst; [destruct i; discriminate|]. destruct i; cbn in E.
  - injection E as <-. now exists x.
  - eapply IH; eauto.
Qed.

(** The marks of related lines are related. *)
Lemma marks_like (K : char -> char -> Prop) l l' r ms ms' : (forall c d x, K c d -> In x (signs r) -> (c = x <-> d = x)) -> all_text l ->
  Forall2 (token_like (Forall2 K)) (map token (ll_tokens l)) (map token (ll_tokens l')) ->
  number_marks l r ms -> number_marks l' r ms' -> Forall2 (mark_like K) ms ms'.
Proof.
  intros HK HV HT [L H] [L' H'].
  assert (LE : length ms = length ms') by (rewrite L, L'; apply Forall2_length_eq in HT; now rewrite !map_length in HT).
  assert (HP : forall i m m', nth_error ms i = Some m -> nth_error ms' i = Some m' -> mark_like K m m').
  { intros i m m' E E'.
    assert (exists tok', nth_error (ll_tokens l') i = Some tok') as (tok' & ET') by (destruct (nth_error (ll_tokens l') i) eqn:X; [eauto|]; apply nth_error_None in X; assert (i < length ms') by (apply nth_error_Some; congruence); lia).
    destruct (like_nth _ _ _ i (token tok') HT ltac:(rewrite nth_error_map, ET'; reflexivity)) as (t & E1 & HL). rewrite nth_error_map in E1.
    destruct (nth_error (ll_tokens l) i) as [tok|] eqn:ET; [|discriminate]. injection E1 as <-.
    pose proof (HV tok (nth_error_In _ _ ET)) as NV. specialize (H i m tok E ET). specialize (H' i m' tok' E' ET'). unfold number_mark in H, H'.
    destruct (token tok) as [u tag|]; [|contradiction]. destruct (token tok') as [u' tag'|]; [|contradiction]. destruct HL as [HU <-]. 
    assert (HX : forall x, In x (signs r) -> (u = [x] <-> u' = [x])).
    { intros x Hx. assert (HK' := fun c d k => HK c d x k Hx). clear -HU HK'. split; intros ->; inversion HU as [|c d ? ? Hc Hr]; subst; inversion Hr; subst; f_equal; apply (HK' _ _ Hc); reflexivity. }
    assert (D : In (decimal r) (signs r)) by (now left).
    assert (DD : forall c, In c (delimiters r) -> In c (signs r)) by (intros; now right).
    destruct m, m'; cbn [mark_like]; try contradiction; try reflexivity; try (exfalso; destruct H, H'; congruence).
    - destruct H as [_ ->], H' as [_ ->]. exact HU.
    - exfalso. destruct H as [_ (c & E1 & Hc)], H' as [_ [E2 Hn]]. apply (HX c (DD c Hc)) in E1. rewrite E1 in E2. injection E2 as ->. contradiction.
    - exfalso. destruct H as [_ (c & E1 & Hc)], H' as [_ Hn]. apply (Hn c); [now apply (HX c (DD c Hc))|]. auto.
    - exfalso. destruct H as [_ [E1 Hn]], H' as [_ (c & E2 & Hc)]. apply (HX c (DD c Hc)) in E2. rewrite E1 in E2. injection E2 as <-. contradiction.
    - exfalso. destruct H as [_ [E1 _]], H' as [_ Hn]. apply (Hn (decimal r)); [now apply (HX _ D)|]. auto.
    - exfalso. destruct H as [_ Hn], H' as [_ (c & E2 & Hc)]. apply (Hn c); [now apply (HX c (DD c Hc))|]. auto.
    - exfalso. destruct H as [_ Hn], H' as [_ [E2 _]]. apply (Hn (decimal r)); [now apply (HX _ D)|]. auto. }
  clear -LE HP. revert ms' LE HP. induction ms as [|m ms IH]; intros [|m' ms'] LE HP; try discriminate; constructor.
  - now apply (HP 0).
  - apply IH; [now injection LE|]. intros i x y E E'. now apply (HP (S i)).
Qed.

(** C95: ... the places of the amounts, ... *)
Lemma thm_C95_amount_places :
  forall (SL : SegmenterLaws) colon (AL : AsciiLaws colon) l l' id id' parse parse' r l1 l1',
    lines_like same_shape [TTextTag; TChar; TAmount] l l' -> all_text l -> no_digit_signs r -> (forall c, In c (signs r) -> ~ ascii_letter c) ->
    run id l (amount_go parse r) = Ok l1 -> run id' l' (amount_go parse' r) = Ok l1' ->
    exists rows rows', query l1 TAmount = Ok rows /\ query l1' TAmount = Ok rows' /\ Forall2 (row_placed same_shape) rows rows'.
Proof.
  intros SL colon AL l l' id id' parse parse' r l1 l1' H HV HD HS R1 R1'. pose proof (shape_lines SL colon AL _ l l' H) as HT.
  destruct H as (tg & tg' & sz & sz' & input & input' & HC & HC' & HL & HA & HW & HW' & HN).
  destruct (HN TTextTag ltac:(cbn; tauto)) as [N1 N1']. destruct (HN TChar ltac:(cbn; tauto)) as [N2 N2']. destruct (HN TAmount ltac:(cbn; tauto)) as [N3 N3'].
  destruct (thm_C82_marks tg sz input l r HW HC) as (ms & HM & _). destruct (thm_C82_marks tg' sz' input' l' r HW' HC') as (ms' & HM' & _).
  pose proof (thm_C82_pass tg sz input l parse r id ms HW N1 N2 N3 HC HD HM) as HP. pose proof (thm_C82_pass tg' sz' input' l' parse' r id' ms' HW' N1' N2' N3' HC' HD HM') as HP'.
  assert (HK : forall c d x, kin_ascii_char c d -> In x (signs r) -> (c = x <-> d = x)).
  { intros c d x [_ Hk] Hx. apply kin_other; [exact Hk|now apply HS|]. intros C. apply digit_iff in C. unfold no_digit_signs in HD. rewrite Forall_forall in HD. rewrite (HD x Hx) in C. discriminate. }
  pose proof (marks_like kin_ascii_char l l' r ms ms' HK HV HT HM HM') as HMM.
  assert (HPt : Forall2 kin_ascii_char point point) by (repeat constructor; apply kin_refl).
  pose proof (whole_like kin_ascii_char HPt ms ms' HMM) as HWh.
  destruct (whole_pass Idle 0 ms) as [xs|]; [|destruct HP; congruence]. destruct (whole_pass Idle 0 ms') as [xs'|]; [|contradiction].
  destruct (parsed parse xs) as [out|] eqn:P; [|destruct HP; congruence]. destruct (parsed parse' xs') as [out'|] eqn:P'; [|destruct HP'; congruence].
  destruct HP as (k & E & HQ). destruct HP' as (k' & E' & HQ'). assert (k = l1) by congruence. assert (k' = l1') by congruence. subst k k'.
  do 2 eexists. split; [exact HQ|]. split; [exact HQ'|]. pose proof (parsed_places parse parse' kin_ascii_char xs xs' out out' HWh P P') as HE.
  clear -HE HT. revert out' HE. induction out as [|[rg d] out IH]; intros [|[rg' d'] out'] HE; try discriminate; constructor; [|apply IH; now injection HE].
  cbn in HE. injection HE as -> HE. unfold amount_row. split; [reflexivity|]. cbn [fst snd]. apply kin_shape. now apply text_like.
Qed.

(** ... and, for case, the amounts. *)
Lemma thm_C95_amounts :
  forall (SL : SegmenterLaws) colon (AL : AsciiLaws colon) l l' id id' parse r,
    lines_like same_case [TTextTag; TChar; TAmount] l l' -> all_text l -> no_digit_signs r -> (forall c, In c (signs r) -> ~ ascii_letter c) ->
    (exists l1 l1' rows rows', run id l (amount_go parse r) = Ok l1 /\ run id' l' (amount_go parse r) = Ok l1'
       /\ query l1 TAmount = Ok rows /\ query l1' TAmount = Ok rows' /\ Forall2 (row_like same_case) rows rows')
    \/ (exists p p', run id l (amount_go parse r) = Panic p /\ run id' l' (amount_go parse r) = Panic p').
Proof.
  intros SL colon AL l l' id id' parse r H HV HD HS. pose proof (case_lines SL colon AL _ l l' H) as HT.
  destruct H as (tg & tg' & sz & sz' & input & input' & HC & HC' & HL & HA & HW & HW' & HN).
  destruct (HN TTextTag ltac:(cbn; tauto)) as [N1 N1']. destruct (HN TChar ltac:(cbn; tauto)) as [N2 N2']. destruct (HN TAmount ltac:(cbn; tauto)) as [N3 N3'].
  destruct (thm_C82_marks tg sz input l r HW HC) as (ms & HM & _). destruct (thm_C82_marks tg' sz' input' l' r HW' HC') as (ms' & HM' & _).
  pose proof (thm_C82_pass tg sz input l parse r id ms HW N1 N2 N3 HC HD HM) as HP. pose proof (thm_C82_pass tg' sz' input' l' parse r id' ms' HW' N1' N2' N3' HC' HD HM') as HP'.
  assert (HK : forall c d x, lower_eq c d -> In x (signs r) -> (c = x <-> d = x)).
  { intros c d x Hk Hx. apply lower_eq_ok in Hk. apply kin_other; [apply Hk|now apply HS|]. intros C. apply digit_iff in C. unfold no_digit_signs in HD. rewrite Forall_forall in HD. rewrite (HD x Hx) in C. discriminate. }
  pose proof (marks_like lower_eq l l' r ms ms' HK HV HT HM HM') as HMM.
  assert (EM : ms = ms').
  { destruct HM as [L HM]. clear -HMM HM L HW HC. assert (HI : forall i m t, nth_error ms i = Some m -> m = NNumber t -> Forall (fun c => ascii_digit c) t).
    { intros i m t E ->. assert (exists tok, nth_error (ll_tokens l) i = Some tok) as (tok & ET) by (destruct (nth_error (ll_tokens l) i) eqn:X; [eauto|]; apply nth_error_None in X; assert (i < length ms) by (apply nth_error_Some; congruence); lia).
      specialize (HM i _ tok E ET). unfold number_mark in HM. destruct (token tok) as [u tag|] eqn:EK; [|contradiction]. destruct HM as [-> ->].
      destruct (created_piece tg sz input l tok u NATN HW HC (nth_error_In _ _ ET) EK) as (text0 & ats0 & w & ps & _ & _ & Hw & Hin).
      pose proof (proj1 (segment_cut_natn w ps u NATN Hw Hin) eq_refl) as [_ Hd]. revert Hd. apply Forall_impl. intros c. apply digit_iff. }
    clear -HMM HI. revert HI. induction HMM as [|m m' ms ms' H HMM IH]; intros HI; [reflexivity|]. f_equal; [|apply IH; intros i; apply (HI (S i))].
    destruct m, m'; cbn in H; try contradiction; try exact H. f_equal. pose proof (HI 0 _ _ eq_refl eq_refl) as HDg. clear -H HDg.
    induction H as [|c d t t' [Hc Hl] HF IH]; [reflexivity|]. inversion HDg; subst. f_equal; [|now apply IH]. apply lower_other; [exact Hc|exact Hl|]. unfold ascii_letter, ascii_digit in *. lia. }
  subst ms'. destruct (whole_pass Idle 0 ms) as [xs|]; [destruct (parsed parse xs) as [out|]|].
  - left. destruct HP as (k & E & HQ). destruct HP' as (k' & E' & HQ'). do 4 eexists. split; [exact E|]. split; [exact E'|]. split; [exact HQ|]. split; [exact HQ'|].
    clear -HT. induction out as [|[rg d] out IH]; constructor; [|exact IH]. unfold amount_row. repeat split. cbn [fst snd]. apply Forall2_same_case. now apply text_like.
  - right. destruct HP as (p & E). destruct HP' as (p' & E'). eauto.
  - right. destruct HP as (p & E). destruct HP' as (p' & E'). eauto.
Qed.

End Case.
