(** Proofs about the clauses of written sentences (C91). *)

From Verif Require Export ThmScan ThmChars SpecSentence.

(** ** Words, gaps and marks *)
Inductive Item := IW (w : str) | IG | IP (c : char).

Definition digit_b (c : char) : bool := (48 <=? c)%N && (c <=? 57)%N.
Definition letter_b (c : char) : bool := ((65 <=? c)%N && (c <=? 90)%N) || ((97 <=? c)%N && (c <=? 122)%N).
Lemma digit_b_iff c : digit_b c = true <-> ascii_digit c.
Proof. unfold digit_b, ascii_digit. rewrite andb_true_iff, !N.leb_le. tauto. Qed.
Lemma letter_b_iff c : letter_b c = true <-> ascii_letter c.
Proof. unfold letter_b, ascii_letter. rewrite orb_true_iff, !andb_true_iff, !N.leb_le. tauto. Qed.

Definition word_tag (w : str) : TextTag :=
  if forallb digit_b w then NATN else if forallb (fun c => letter_b c || N.eqb c 39) w then WORD else SYMB.
Definition item_text (x : Item) : str := match x with IW w => w | IG => [32%N] | IP c => [c] end.
Definition item_tag (x : Item) : TextTag := match x with IW w => word_tag w | IG => SPACE | IP _ => PUNC end.
Definition text_of (xs : list Item) : str := concat (map item_text xs).

Lemma text_of_app xs ys : text_of (xs ++ ys) = text_of xs ++ text_of ys.
Proof. unfold text_of. now rewrite map_app, concat_app. Qed.
Lemma text_of_cons x xs : text_of (x :: xs) = item_text x ++ text_of xs.
Proof. reflexivity. Qed.

Definition next_ok (x y : Item) : Prop :=
  match x, y with
  | IW _, IG | IW _, IP _ | IP _, IG | IG, IW _ => True
  | _, _ => False
  end.
Fixpoint chain (xs : list Item) : Prop :=
  match xs with
  | x :: ((y :: _) as t) => next_ok x y /\ chain t
  | _ => True
  end.
Definition block (Q : Item -> Prop) (xs : list Item) : Prop :=
  chain xs /\ (exists w ys, xs = IW w :: ys) /\ exists ys y, xs = ys ++ [y] /\ Q y.

Lemma chain_next xs1 x y xs2 : chain (xs1 ++ x :: y :: xs2) -> next_ok x y.
Proof.
  induction xs1 as [|z xs1 IH]; [now intros [H _]|]. cbn [app chain]. destruct (xs1 ++ x :: y :: xs2) as [|u t] eqn:E; [now destruct xs1|]. intros [_ H]. apply IH, H.
Qed.
Lemma chain_glue xs1 x y xs2 : chain (xs1 ++ [x]) -> next_ok x y -> chain (y :: xs2) -> chain (xs1 ++ x :: y :: xs2).
Proof.
  intros H N H2. induction xs1 as [|z xs1 IH]; [split; assumption|]. cbn [app] in *.
  destruct xs1 as [|z' xs1]; cbn [app] in *; destruct H as [H H']; split; auto.
Qed.

Lemma block_glue (Q1 Q2 : Item -> Prop) xs ys : (forall y, Q1 y -> y <> IG) -> block Q1 xs -> block Q2 ys -> block Q2 (xs ++ IG :: ys).
Proof.
  intros HQ (C1 & (w & xs' & E1) & (zs & z & E2 & Hz)) (C2 & (w2 & ys' & E3) & (us & u & E4 & Hu)).
  split; [|split].
  - rewrite E2 in *. rewrite <- app_assoc. cbn [app]. apply chain_glue; [exact C1| |].
    + specialize (HQ _ Hz). destruct z; cbn; auto; congruence.
    + rewrite E3 in *. split; [exact I|exact C2].
  - exists w, (xs' ++ IG :: ys). now rewrite E1.
  - exists (xs ++ IG :: us), u. split; [rewrite E4; now rewrite <- app_assoc|exact Hu].
Qed.

Definition is_word_item (x : Item) : Prop := match x with IW _ => True | _ => False end.

Lemma block_close xs c : block is_word_item xs -> block (fun x => x <> IG) (xs ++ [IP c]).
Proof.
  intros (C1 & (w & xs' & E1) & (zs & z & E2 & Hz)). split; [|split].
  - rewrite E2 in *. rewrite <- app_assoc. cbn [app]. apply chain_glue; [exact C1| |exact I]. now destruct z.
  - exists w, (xs' ++ [IP c]). now rewrite E1.
  - exists xs, (IP c). split; [reflexivity|discriminate].
Qed.
Lemma block_one w : block is_word_item [IW w].
Proof. split; [exact I|]. split; [now exists w, []|]. now exists [], (IW w). Qed.
Lemma block_weak (Q1 Q2 : Item -> Prop) xs : (forall y, Q1 y -> Q2 y) -> block Q1 xs -> block Q2 xs.
Proof. intros H (C & HW & (ys & y & E & Hy)). split; [exact C|]. split; [exact HW|]. exists ys, y. auto. Qed.

(** ** They are lexemes *)
Section Lexemes.
Context (colon : bool).
Definition item_ok (x : Item) : Prop :=
  match x with IW w => proper_word colon w | IG => True | IP c => documented_punctuation c end.

Lemma dotted_ends w : dotted colon w -> w <> [] /\ starts_in w ascii_letter /\ ends_in w ascii_letter.
Proof.
  induction 1 as [c Hc|c s Hc _ (N & S & (p & e & -> & He))|c m s Hc Hm _ (N & S & (p & e & -> & He))].
  - split; [discriminate|]. split; [now exists c, []|now exists [], c].
  - split; [discriminate|]. split; [now exists c, (p ++ [e])|now exists (c :: p), e].
  - split; [discriminate|]. split; [now exists c, (m :: p ++ [e])|now exists (c :: m :: p), e].
Qed.
Lemma dotted_chars w : dotted colon w -> Forall (fun c => ascii_letter c \/ mid_letter colon c) w.
Proof. induction 1; repeat first [assumption|constructor; [tauto|]|apply Forall_nil]. Qed.
Definition alnum_char (c : char) : Prop := ascii_letter c \/ ascii_digit c.
Lemma word_ends w : proper_word colon w -> w <> [] /\ starts_in w alnum_char /\ ends_in w alnum_char.
Proof.
  intros [H|[N H]].
  - destruct (dotted_ends w H) as (N & (c & q & -> & Hc) & (p & e & E & He)). split; [exact N|]. split; [exists c, q|exists p, e]; (split; [auto|now left]).
  - split; [exact N|]. rewrite Forall_forall in H. split.
    + destruct w as [|c q]; [easy|]. exists c, q. split; [reflexivity|]. right. apply H. now left.
    + destruct (exists_last N) as (p & e & E). rewrite E in *. exists p, e. split; [reflexivity|]. right. apply H, in_or_app. right. now left.
Qed.
Lemma mid_letter_small c : mid_letter colon c -> In c [46; 39; 58]%N.
Proof. intros [[<-|[<-|[]]]|[-> _]]; cbn; tauto. Qed.

Context (xs : list Item) (HB : block (fun x => x <> IG) xs) (HO : Forall item_ok xs).

Lemma item_nonempty x : item_ok x -> item_text x <> [].
Proof. destruct x; cbn [item_ok item_text]; [|discriminate..]. intros H. apply word_ends in H. tauto. Qed.
Lemma item_starts x xs2 (P : char -> Prop) : item_ok x -> starts_in (text_of (x :: xs2)) P -> starts_in (item_text x) P.
Proof.
  intros Hx (c & q & E & Hc). rewrite text_of_cons in E. pose proof (item_nonempty x Hx) as N. destruct (item_text x) as [|d t]; [easy|]. injection E as -> _. now exists c, t.
Qed.
Lemma item_ends x xs1 (P : char -> Prop) : item_ok x -> ends_in (text_of (xs1 ++ [x])) P -> ends_in (item_text x) P.
Proof.
  intros Hx (p & c & E & Hc). rewrite text_of_app, text_of_cons in E. cbn in E. rewrite app_nil_r in E. pose proof (item_nonempty x Hx) as N. destruct (exists_last N) as (t & d & Et). rewrite Et in *.
  rewrite app_assoc in E. apply app_inj_tail in E. destruct E as [_ ->]. now exists t, c.
Qed.

Lemma ok_at xs1 x xs2 : xs = xs1 ++ x :: xs2 -> item_ok x.
Proof. intros E. rewrite E in HO. apply Forall_app in HO. destruct HO as [_ H]. now inversion H. Qed.

Lemma at_left xs1 x xs2 : xs = xs1 ++ x :: xs2 ->
  (xs1 = [] /\ is_word_item x) \/ exists ys y, xs1 = ys ++ [y] /\ next_ok y x /\ item_ok y.
Proof.
  intros E. destruct HB as (C & (w & ys & E1) & _). destruct xs1 as [|z xs1].
  - left. split; [reflexivity|]. rewrite E in E1. injection E1 as -> _. exact I.
  - right. assert (N : z :: xs1 <> []) by discriminate. destruct (exists_last N) as (zs & u & Eu). rewrite Eu in *. exists zs, u. split; [reflexivity|].
    rewrite <- app_assoc in E. cbn [app] in E. split; [rewrite E in C; exact (chain_next _ _ _ _ C)|]. exact (ok_at zs u (x :: xs2) E).
Qed.
Lemma at_right xs1 x xs2 : xs = xs1 ++ x :: xs2 ->
  (xs2 = [] /\ x <> IG) \/ exists y ys, xs2 = y :: ys /\ next_ok x y /\ item_ok y.
Proof.
  intros E. destruct HB as (C & _ & (ys & y & E1 & Hy)). destruct xs2 as [|z xs2].
  - left. split; [reflexivity|]. rewrite E in E1. apply app_inj_tail in E1. now destruct E1 as [_ ->].
  - right. exists z, xs2. split; [reflexivity|]. split; [rewrite E in C; exact (chain_next _ _ _ _ C)|].
    apply (ok_at (xs1 ++ [x]) z xs2). now rewrite <- app_assoc.
Qed.

Lemma punct_char c : documented_punctuation c -> ~ ascii_letter c /\ ~ ascii_digit c /\ c <> 32%N /\ c <> 95%N /\ (c < 128)%N.
Proof. unfold documented_punctuation, ascii_letter, ascii_digit. cbn [In]. intros H. repeat split; intuition (subst; lia || discriminate). Qed.

(** before a word *)
Lemma word_left xs1 w xs2 : xs = xs1 ++ IW w :: xs2 -> text_of xs1 = [] \/ exists p, text_of xs1 = p ++ [32%N].
Proof.
  intros E. destruct (at_left _ _ _ E) as [[-> _]|(ys & y & -> & Hn & _)]; [now left|right]. destruct y; try contradiction. exists (text_of ys). now rewrite text_of_app.
Qed.
(** after a word *)
Lemma word_right xs1 w xs2 : xs = xs1 ++ IW w :: xs2 ->
  text_of xs2 = [] \/ (exists q, text_of xs2 = 32%N :: q)
  \/ exists c, documented_punctuation c /\ (text_of xs2 = [c] \/ exists q, text_of xs2 = c :: 32%N :: q).
Proof.
  intros E. destruct (at_right _ _ _ E) as [[-> _]|(y & ys & -> & Hn & Hy)]; [now left|right]. destruct y as [w'| |c]; try contradiction.
  - left. now exists (text_of ys).
  - right. exists c. split; [exact Hy|]. assert (E' : xs = (xs1 ++ [IW w]) ++ IP c :: ys) by now rewrite <- app_assoc.
    destruct (at_right _ _ _ E') as [[-> _]|(z & zs & -> & Hz & _)]; [now left|right]. destruct z; try contradiction. now exists (text_of zs).
Qed.

Lemma word_lexeme xs1 w xs2 : xs = xs1 ++ IW w :: xs2 -> lexeme colon (text_of xs1) w (word_tag w) (text_of xs2).
Proof.
  intros E. pose proof (ok_at _ _ _ E) as Hw. pose proof (word_left _ _ _ E) as HL. pose proof (word_right _ _ _ E) as HR. cbn [item_ok] in Hw.
  assert (LB : forall P : char -> Prop, ~ P 32%N -> ~ ends_in (text_of xs1) P).
  { intros P HP (p & c & Ec & Hc). destruct HL as [HL|(q & HL)]; rewrite HL in Ec; [now destruct p|]. apply app_inj_tail in Ec. destruct Ec as [_ <-]. contradiction. }
  assert (RB : forall P : char -> Prop, ~ P 32%N -> (forall c, documented_punctuation c -> ~ P c) -> ~ starts_in (text_of xs2) P).
  { intros P HP HP2 (c & q & Ec & Hc). destruct HR as [HR|[(q' & HR)|(d & Hd & [HR|(q' & HR)])]]; rewrite HR in Ec; try discriminate; injection Ec as <- _; [contradiction|..]; now apply (HP2 d). }
  assert (LT : ~ ascii_letter 32%N) by (unfold ascii_letter; lia). assert (DT : ~ ascii_digit 32%N) by (unfold ascii_digit; lia).
  assert (LP : dotted colon w -> letters_piece colon (text_of xs1) w (text_of xs2)).
  { intros HD. split; [exact HD|]. split; [now apply LB|]. split; [|split].
    - intros (b & x & m & Eb & Hx & Hm). apply (LB (mid_letter colon)); [|exists (b ++ [x]), m; split; [now rewrite <- app_assoc|exact Hm]].
      intros C. apply mid_letter_small in C. cbn in C. intuition discriminate.
    - apply RB; [exact LT|]. intros c Hc. now apply punct_char.
    - intros (m & y & a & Ea & Hm & Hy). destruct HR as [HR|[(q & HR)|(d & Hd & [HR|(q & HR)])]]; rewrite HR in Ea; try discriminate.
      + injection Ea as <- _. apply mid_letter_small in Hm. cbn in Hm. intuition discriminate.
      + injection Ea as _ <- _. contradiction. }
  unfold word_tag. destruct (forallb digit_b w) eqn:ED.
  - assert (HD : Forall ascii_digit w).
    { apply Forall_forall. intros c Hc. rewrite forallb_forall in ED. now apply digit_b_iff, ED. }
    cbn [lexeme]. split; [now apply word_ends in Hw|]. split; [exact HD|]. split; [now apply LB|apply RB; [exact DT|]]. intros c Hc. now apply punct_char.
  - assert (HD : dotted colon w).
    { destruct Hw as [Hw|[_ Hw]]; [exact Hw|]. exfalso. assert (forallb digit_b w = true); [|congruence]. apply forallb_forall. intros c Hc. apply digit_b_iff. rewrite Forall_forall in Hw. now apply Hw. }
    destruct (forallb (fun c => letter_b c || N.eqb c 39) w) eqn:EW; cbn [lexeme].
    + split; [now apply LP|]. apply Forall_forall. intros c Hc. rewrite forallb_forall in EW. specialize (EW c Hc). apply orb_true_iff in EW. unfold word_char. now rewrite <- letter_b_iff, <- N.eqb_eq.
    + left. split; [now apply LP|]. intros C. assert (forallb (fun c => letter_b c || N.eqb c 39) w = true); [|congruence]. apply forallb_forall. intros c Hc. rewrite Forall_forall in C. specialize (C c Hc). unfold word_char in C.
      apply orb_true_iff. now rewrite letter_b_iff, N.eqb_eq.
Qed.

Lemma item_lexeme xs1 x xs2 : xs = xs1 ++ x :: xs2 -> lexeme colon (text_of xs1) (item_text x) (item_tag x) (text_of xs2).
Proof.
  intros E. destruct x as [w| |c]; [exact (word_lexeme _ _ _ E)|..]; cbn [item_text item_tag lexeme].
  - left. split; [discriminate|]. split; [repeat constructor|]. split.
    + destruct (at_left _ _ _ E) as [[_ []]|(ys & y & -> & Hn & Hy)]. intros C. apply item_ends in C; [|exact Hy]. destruct y as [w| |c]; try contradiction; cbn [item_text item_ok] in *.
      * destruct (word_ends w Hy) as (_ & _ & (p & e & -> & He)). destruct C as (p' & e' & E' & C). apply app_inj_tail in E'. destruct E' as [_ ->]. unfold is in C. subst. unfold alnum_char, ascii_letter, ascii_digit in He. lia.
      * destruct C as (p' & e' & E' & C). change [c] with ([] ++ [c]) in E'. apply app_inj_tail in E'. destruct E' as [_ ->]. unfold is in C. subst. now apply punct_char in Hy.
    + destruct (at_right _ _ _ E) as [[_ []]|(y & ys & -> & Hn & Hy)]; [reflexivity|]. intros C. apply item_starts in C; [|exact Hy]. destruct y as [w| |c]; try contradiction; cbn [item_text item_ok] in *.
      destruct (word_ends w Hy) as (_ & (e & p & -> & He) & _). destruct C as (e' & p' & E' & C). injection E' as <- _. unfold is in C. subst. unfold alnum_char, ascii_letter, ascii_digit in He. lia.
  - exists c. split; [reflexivity|]. split; [exact (ok_at _ _ _ E)|]. intros (_ & _ & C).
    destruct (at_right _ _ _ E) as [[-> _]|(y & ys & -> & Hn & Hy)]; [destruct C as (? & ? & C & _); discriminate|]. destruct y; try contradiction.
    destruct C as (e & p & C & He). cbn in C. injection C as <- _. unfold ascii_letter in He. lia.
Qed.

(** ** The text is plain *)
Definition pairs_ok (P : char -> char -> Prop) (s : str) : Prop := forall b x y a, s = b ++ x :: y :: a -> P x y.
Lemma pairs_ok_app P s1 s2 : pairs_ok P s1 -> pairs_ok P s2 ->
  (forall x y, ends_in s1 (is x) -> starts_in s2 (is y) -> P x y) -> pairs_ok P (s1 ++ s2).
Proof.
  intros H1 H2 H b x y a E. revert s1 H1 H E. induction b as [|c b IH]; intros s1 H1 H E.
  - destruct s1 as [|c1 [|c2 s1]]; cbn [app] in E.
    + exact (H2 [] x y a E).
    + injection E as -> E. apply H; [now exists [], x|]. rewrite E. now exists y, a.
    + injection E as -> -> E. exact (H1 [] x y s1 eq_refl).
  - destruct s1 as [|c1 s1]; [exact (H2 (c :: b) x y a E)|]. cbn [app] in E. injection E as -> E. apply (IH s1).
    + intros b' x' y' a' E'. apply (H1 (c :: b') x' y' a'). now rewrite E'.
    + intros x' y' (p & e & -> & He) Hy. apply H; [now exists (c :: p), e|exact Hy].
    + exact E.
Qed.
Definition apart (x y : char) : Prop := ~ (ascii_letter x /\ ascii_digit y) /\ ~ (ascii_digit x /\ ascii_letter y).
Lemma letter_not_digit c : ascii_letter c -> ascii_digit c -> False.
Proof. unfold ascii_letter, ascii_digit. lia. Qed.

Lemma item_pairs x : item_ok x -> pairs_ok apart (item_text x).
Proof.
  intros Hx b u v a E. destruct x as [w| |c]; cbn [item_text item_ok] in *; [|destruct b as [|? [|? ?]]; discriminate..].
  assert (Iu : In u w) by (rewrite E; apply in_or_app; right; now left). assert (Iv : In v w) by (rewrite E; apply in_or_app; right; right; now left).
  destruct Hx as [Hx|[_ Hx]].
  - assert (ND : forall c, In c w -> ~ ascii_digit c).
    { intros c Hc C. pose proof (dotted_chars w Hx) as F. rewrite Forall_forall in F. destruct (F c Hc) as [K|K]; [eapply letter_not_digit; eauto|]. apply mid_letter_small in K. unfold ascii_digit in C. cbn in K. intuition lia. }
    split; intros [A B]; [exact (ND v Iv B)|exact (ND u Iu A)].
  - rewrite Forall_forall in Hx. split; intros [A B]; [exact (letter_not_digit u A (Hx u Iu))|exact (letter_not_digit v B (Hx v Iv))].
Qed.

Lemma chain_pairs ys : chain ys -> Forall item_ok ys -> pairs_ok apart (text_of ys).
Proof.
  induction ys as [|x ys IH]; intros C F; [intros b u v a E; destruct b; discriminate|]. inversion F as [|? ? Hx F']; subst. rewrite text_of_cons.
  destruct ys as [|y ys].
  - cbn. rewrite app_nil_r. now apply item_pairs.
  - destruct C as [Hn C]. apply pairs_ok_app; [now apply item_pairs|now apply IH|]. intros u v Hu Hv. inversion F' as [|? ? Hy _]; subst.
    apply item_starts in Hv; [|exact Hy].
    assert (K : (~ ascii_letter u /\ ~ ascii_digit u) \/ (~ ascii_letter v /\ ~ ascii_digit v)).
    { assert (K32 : ~ ascii_letter 32%N /\ ~ ascii_digit 32%N) by (unfold ascii_letter, ascii_digit; lia).
      destruct x as [w| |c]; [right|left|left].
      - destruct y as [w'| |c']; try contradiction; cbn [item_text] in Hv; destruct Hv as (e & q & E & He); injection E as <- <-; unfold is in He; subst; [exact K32|]. cbn in Hy. apply punct_char in Hy. tauto.
      - destruct Hu as (q & e & E & He). cbn [item_text] in E. change [32%N] with ([] ++ [32%N]) in E. apply app_inj_tail in E. destruct E as [_ <-]. unfold is in He. now subst.
      - destruct Hu as (q & e & E & He). cbn [item_text] in E. change [c] with ([] ++ [c]) in E. apply app_inj_tail in E. destruct E as [_ <-]. unfold is in He. subst. cbn in Hx. apply punct_char in Hx. tauto. }
    unfold apart. tauto.
Qed.

Lemma item_chars x c : item_ok x -> In c (item_text x) -> (c < 128)%N /\ c <> 95%N.
Proof.
  destruct x as [w| |d]; cbn [item_ok item_text].
  - intros [H|[_ H]] Hc.
    + pose proof (dotted_chars w H) as F. rewrite Forall_forall in F. destruct (F c Hc) as [K|K]; [unfold ascii_letter in K; lia|]. apply mid_letter_small in K. cbn in K. intuition (subst; lia || discriminate).
    + rewrite Forall_forall in H. specialize (H c Hc). unfold ascii_digit in H. lia.
  - intros _ [<-|[]]. lia.
  - intros H [<-|[]]. apply punct_char in H. tauto.
Qed.

Lemma items_plain : plain_text (text_of xs).
Proof.
  assert (K : forall c, In c (text_of xs) -> (c < 128)%N /\ c <> 95%N).
  { intros c Hc. unfold text_of in Hc. apply in_concat in Hc. destruct Hc as (t & Ht & Hc). apply in_map_iff in Ht. destruct Ht as (x & <- & Hx). rewrite Forall_forall in HO. exact (item_chars x c (HO x Hx) Hc). }
  split; [apply Forall_forall; intros c Hc; now apply K|]. split; [intros C; now apply K in C|].
  intros b x y a E. exact (chain_pairs xs (proj1 HB) HO b x y a E).
Qed.
End Lexemes.

(** ** Sentences as items with marks *)
Fixpoint gapped (xss : list (list (Item * Mark))) : list (Item * Mark) :=
  match xss with
  | [] => []
  | [xs] => xs
  | xs :: xss => xs ++ (IG, MBlank) :: gapped xss
  end.
Definition opener_items (p : Saying) : list (Item * Mark) :=
  match opener p with Some (w, k) => [(IW w, MKey k); (IG, MBlank)] | None => [] end.
Definition word_items (ws : list str) : list (Item * Mark) := gapped (map (fun w => [(IW w, MOther)]) ws).
Definition closing_items (p : Saying) : list (Item * Mark) := match closing p with Some c => [(IP c, MStop)] | None => [] end.
Definition part_items (p : Saying) : list (Item * Mark) := opener_items p ++ word_items (said_words p) ++ closing_items p.
Definition sentence_items (ps : list Saying) : list (Item * Mark) := gapped (map part_items ps).

Lemma gapped_cons xs ys yss : gapped (xs :: ys :: yss) = xs ++ (IG, MBlank) :: gapped (ys :: yss).
Proof. reflexivity. Qed.

Lemma gapped_text xss : text_of (map fst (gapped xss)) = spaced (map (fun xs => text_of (map fst xs)) xss).
Proof.
  induction xss as [|xs [|ys xss] IH]; [reflexivity..|]. rewrite gapped_cons, map_app, text_of_app. cbn [map fst]. rewrite text_of_cons, IH. reflexivity.
Qed.
Lemma word_items_text ws : text_of (map fst (word_items ws)) = spaced ws.
Proof.
  unfold word_items. rewrite gapped_text, map_map. f_equal. rewrite <- (map_id ws) at 2. apply map_ext. intros w. cbn. now rewrite app_nil_r.
Qed.
Lemma opener_items_text p : text_of (map fst (opener_items p)) = opening p.
Proof. unfold opener_items, opening. destruct (opener p) as [[w k]|]; reflexivity. Qed.
Lemma part_items_text p : text_of (map fst (part_items p)) = written_part p.
Proof.
  unfold part_items, written_part. rewrite !map_app, !text_of_app, opener_items_text, word_items_text. do 2 f_equal. unfold closing_items, closing_mark. now destruct (closing p).
Qed.
Lemma sentence_items_text ps : text_of (map fst (sentence_items ps)) = sentence ps.
Proof. unfold sentence_items, sentence. rewrite gapped_text, map_map. f_equal. apply map_ext. intros p. apply part_items_text. Qed.

Lemma word_items_block ws : ws <> [] -> block is_word_item (map fst (word_items ws)).
Proof.
  unfold word_items. induction ws as [|w [|w' ws] IH]; intros N; [easy|apply block_one|]. cbn [map]. rewrite gapped_cons, map_app. cbn [map fst].
  apply (block_glue is_word_item); [now intros [] []| |apply IH; discriminate]. apply block_one.
Qed.
Lemma part_block p : said_words p <> [] -> block (fun x => x <> IG) (map fst (part_items p)).
Proof.
  intros N. unfold part_items. rewrite app_assoc, map_app.
  assert (K : block is_word_item (map fst (opener_items p ++ word_items (said_words p)))).
  { rewrite map_app. unfold opener_items. destruct (opener p) as [[w k]|]; [|now apply word_items_block]. cbn [map fst app].
    apply (block_glue is_word_item is_word_item [IW w]); [now intros [] []|apply block_one|now apply word_items_block]. }
  unfold closing_items. destruct (closing p) as [c|]; cbn [map fst]; [now apply block_close|]. rewrite app_nil_r. eapply block_weak; [|exact K]. intros [| |] H; easy.
Qed.
Lemma sentence_block ps : ps <> [] -> Forall (fun p => said_words p <> []) ps -> block (fun x => x <> IG) (map fst (sentence_items ps)).
Proof.
  unfold sentence_items. induction ps as [|p [|q ps] IH]; intros N F; [easy|inversion F; now apply part_block|]. inversion F; subst. cbn [map]. rewrite gapped_cons, map_app. cbn [map fst].
  apply (block_glue (fun x => x <> IG)); [easy|now apply part_block|apply IH; [discriminate|assumption]].
Qed.

(** ** The scan *)
Definition real (xs : list Stretch) : list (option ClauseKeyword * LRange) :=
  flat_map (fun x => match inner x with Some rg => [(fst (fst x), rg)] | None => [] end) xs.
Fixpoint kinds_of (sole earlier : bool) (ys : list (option ClauseKeyword * LRange)) : list (LRange * Clause) :=
  match ys with
  | [] => []
  | (k, rg) :: ys => (rg, kind_after sole earlier k) :: kinds_of sole (earlier || starts_condition k) ys
  end.
Lemma kinded_real sole : forall xs earlier, kinded sole earlier xs = kinds_of sole earlier (real xs).
Proof.
  induction xs as [|x xs IH]; intros earlier; [reflexivity|]. cbn [kinded real flat_map]. fold (real xs). destruct (inner x) as [rg|]; cbn [app]; [|apply IH]. cbn [kinds_of]. now rewrite IH.
Qed.
Lemma real_app xs ys : real (xs ++ ys) = real xs ++ real ys.
Proof. apply flat_map_app. Qed.

Definition soft (m : Mark) : Prop := m = MOther \/ m = MBlank.
Lemma cut_soft before i : forall ms body rest, Forall soft ms -> cut before i body (ms ++ rest) = cut before i (body ++ ms) rest.
Proof.
  induction ms as [|m ms IH]; intros body rest F; [now rewrite app_nil_r|]. inversion F as [|? ? [->| ->] F']; subst; cbn [app cut]; rewrite IH by assumption; now rewrite <- app_assoc.
Qed.

Definition kw_of (p : Saying) : option ClauseKeyword := match opener p with Some (_, k) => Some k | None => None end.
Notation marks xs := (map snd xs).
Definition size (p : Saying) : nat := length (word_items (said_words p)).
Lemma word_marks ws : ws <> [] -> Forall soft (marks (word_items ws)) /\ hd MOther (marks (word_items ws)) = MOther /\ last (marks (word_items ws)) MOther = MOther /\ word_items ws <> [].
Proof.
  unfold word_items. induction ws as [|w [|w' ws] IH]; intros N; [easy|repeat split; try discriminate; repeat constructor|]. cbn [map]. rewrite gapped_cons, map_app. cbn [map snd app]. cbn [map] in IH.
  destruct IH as (F & H & L & NN); [discriminate|]. split; [constructor; [now left|constructor; [now right|exact F]]|]. split; [reflexivity|]. split; [|discriminate].
  set (t := gapped _) in *. destruct t as [|y t]; [easy|]. cbn [map] in *. exact L.
Qed.

Lemma inner_stretch before i ms a b : Forall soft ms -> ms <> [] -> hd MOther ms = MOther -> last ms MOther = MOther -> (a = [] \/ a = [MBlank]) -> (b = [] \/ b = [MBlank]) ->
  inner (before, i, a ++ ms ++ b) = Some (i + length a, i + length a + length ms - 1).
Proof.
  intros F N H L Ha Hb. unfold inner.
  assert (E1 : blank (hd MOther (a ++ ms ++ b)) = length a).
  { destruct Ha as [->| ->]; [|reflexivity]. destruct ms as [|m ms]; [easy|]. cbn in *. now subst. }
  assert (E2 : blank (last (a ++ ms ++ b) MOther) = length b).
  { destruct Hb as [->| ->].
    - rewrite app_nil_r. destruct (exists_last N) as (q & e & E). rewrite E in *. rewrite last_last in L. rewrite app_assoc, last_last. now rewrite L.
    - rewrite !app_assoc, last_last. reflexivity. }
  rewrite E1, E2, !app_length.
  assert (length ms > 0) by (destruct ms; [easy|cbn; lia]).
  replace (i + (length a + (length ms + length b)) - length b) with (i + length a + length ms) by lia.
  destruct (Nat.ltb_spec (i + length a) (i + length a + length ms)); [reflexivity|lia].
Qed.

(** what is found, from token [n] on *)
Fixpoint ranges_from (n : nat) (ps : list Saying) : list (option ClauseKeyword * LRange) :=
  match ps with
  | [] => []
  | p :: ps => let i := n + length (opener_items p) in
      (kw_of p, (i, i + size p - 1)) :: ranges_from (S (n + length (part_items p))) ps
  end.

Definition closes (ps : list Saying) : Prop := forall ps1 p q ps2, ps = ps1 ++ p :: q :: ps2 -> closing p <> None \/ opener q <> None.
Lemma closes_tail p ps : closes (p :: ps) -> closes ps.
Proof. intros H ps1 x y ps2 ->. apply (H (p :: ps1) x y ps2). reflexivity. Qed.

Definition idle_ok (i : nat) (body : list Mark) (n : nat) : Prop := (body = [] /\ i = n) \/ (body = [MBlank] /\ S i = n).

Lemma scan_sentence : forall ps, ps <> [] -> Forall (fun p => said_words p <> []) ps -> closes ps -> forall n,
  (forall i body, idle_ok i body n ->
     real (cut None i body (marks (sentence_items ps))) = ranges_from n ps
     /\ length (cut None i body (marks (sentence_items ps))) >= length ps
     /\ (length ps = 1 -> body = [] -> length (cut None i body (marks (sentence_items ps))) = 1))
  /\ (forall w k, opener (hd (mkSaying None [] None) ps) = Some (w, k) ->
     forall before i body, i + length body = n ->
       exists xs, cut before i body (marks (sentence_items ps)) = closed before i body ++ xs
         /\ real xs = ranges_from n ps /\ length xs >= length ps /\ (length ps = 1 -> length xs = 1)).
Proof.
  induction ps as [|p ps IH]; intros N F C n; [easy|]. inversion F as [|? ? Np F']; subst.
  destruct (word_marks _ Np) as (WS & WH & WL & WN).
  (* the words of [p], with what is before and what comes after *)
  assert (KEY : forall before i a, (a = [] \/ a = [MBlank]) -> i + length a = n + length (opener_items p) ->
    real (cut before i (a ++ marks (word_items (said_words p))) (marks (closing_items p) ++ match ps with [] => [] | _ => MBlank :: marks (sentence_items ps) end))
    = (before, (n + length (opener_items p), n + length (opener_items p) + size p - 1)) :: ranges_from (S (n + length (part_items p))) ps
    /\ length (cut before i (a ++ marks (word_items (said_words p))) (marks (closing_items p) ++ match ps with [] => [] | _ => MBlank :: marks (sentence_items ps) end)) >= S (length ps)
    /\ (ps = [] -> length (cut before i (a ++ marks (word_items (said_words p))) (marks (closing_items p) ++ match ps with [] => [] | _ => MBlank :: marks (sentence_items ps) end)) = 1)).
  { intros before i a Ha Ei.
    assert (NM : marks (word_items (said_words p)) <> []) by (destruct (word_items (said_words p)); [easy|discriminate]).
    assert (ST : forall b, b = [] \/ b = [MBlank] -> real (closed before i (a ++ marks (word_items (said_words p)) ++ b)) = [(before, (n + length (opener_items p), n + length (opener_items p) + size p - 1))]
      /\ length (closed before i (a ++ marks (word_items (said_words p)) ++ b)) = 1).
    { intros b Hb. assert (NN : a ++ marks (word_items (said_words p)) ++ b <> []) by (destruct a; [destruct (marks (word_items (said_words p))); [easy|discriminate]|discriminate]).
      unfold closed. destruct (a ++ marks (word_items (said_words p)) ++ b) as [|m t] eqn:Em; [easy|]. rewrite <- Em. split; [|reflexivity]. cbn [real flat_map]. rewrite (inner_stretch _ _ _ a b) by assumption. cbn [fst app].
      unfold size. now rewrite map_length, Ei. }
    assert (LP : length (part_items p) = length (opener_items p) + size p + length (closing_items p)) by (unfold part_items, size; rewrite !app_length; lia).
    assert (LS : length (a ++ marks (word_items (said_words p))) = length a + size p) by (rewrite app_length, map_length; reflexivity).
    unfold closing_items in *. destruct (closing p) as [c|] eqn:Ecl; cbn [map snd app length] in *.
    - cbn [cut]. specialize (ST [] (or_introl eq_refl)). rewrite app_nil_r in ST. destruct ST as [ST1 ST2]. rewrite LS, real_app, ST1, app_length, ST2. destruct ps as [|q ps].
      + cbn. repeat split; lia.
      + cbn [cut]. destruct (IH ltac:(discriminate) F' (closes_tail _ _ C) (S (n + length (part_items p)))) as [IH1 _].
        destruct (IH1 (S (i + (length a + size p))) [MBlank]) as (R1 & R2 & _); [right; split; [reflexivity|lia]|].
        cbn [app]. rewrite R1. split; [reflexivity|]. split; [cbn [length] in *; lia|discriminate].
    - destruct ps as [|q ps].
      + specialize (ST [] (or_introl eq_refl)). rewrite app_nil_r in ST. destruct ST as [ST1 ST2]. cbn [cut]. rewrite ST1, ST2. cbn. repeat split; lia.
      + destruct (C [] p q ps eq_refl) as [K|K]; [congruence|]. destruct (opener q) as [[w k]|] eqn:Eo; [|easy]. clear K.
        destruct (IH ltac:(discriminate) F' (closes_tail _ _ C) (S (n + length (part_items p)))) as [_ IH2]. cbn [cut]. 
        destruct (IH2 w k Eo before i ((a ++ marks (word_items (said_words p))) ++ [MBlank])) as (xs & E & R1 & R2 & _); [rewrite app_length, LS; cbn; lia|].
        rewrite E. rewrite <- app_assoc. specialize (ST [MBlank] (or_intror eq_refl)). destruct ST as [ST1 ST2]. rewrite real_app, ST1, app_length, ST2, R1. split; [reflexivity|]. split; [cbn [length] in *; lia|discriminate]. }
  assert (SI : marks (sentence_items (p :: ps)) = marks (opener_items p) ++ marks (word_items (said_words p)) ++ (marks (closing_items p) ++ match ps with [] => [] | _ => MBlank :: marks (sentence_items ps) end)).
  { unfold sentence_items. destruct ps as [|q ps]; cbn [map].
    - cbn [gapped]. unfold part_items. now rewrite !map_app, app_nil_r.
    - rewrite gapped_cons. unfold part_items at 1. rewrite !map_app. cbn [map snd]. now rewrite <- !app_assoc. }
  rewrite SI. cbn [ranges_from length]. unfold kw_of, opener_items in *. destruct (opener p) as [[w k]|] eqn:Eo; cbn [map snd app length] in *.
  - assert (OPEN : forall before i body, i + length body = n ->
       exists xs, cut before i body (MKey k :: MBlank :: marks (word_items (said_words p)) ++ (marks (closing_items p) ++ match ps with [] => [] | _ => MBlank :: marks (sentence_items ps) end)) = closed before i body ++ xs
         /\ real xs = (Some k, (n + 2, n + 2 + size p - 1)) :: ranges_from (S (n + length (part_items p))) ps /\ length xs >= S (length ps) /\ (S (length ps) = 1 -> length xs = 1)).
    { intros before i body En. cbn [cut app]. eexists. split; [reflexivity|]. rewrite cut_soft by exact WS.
      destruct (KEY (Some k) (S (i + length body)) [MBlank] (or_intror eq_refl)) as (K1 & K2 & K3); [cbn; lia|]. split; [exact K1|]. split; [exact K2|]. intros E. apply K3. destruct ps; [reflexivity|discriminate]. }
    split.
    + intros i body HI. destruct (OPEN None i body) as (xs & E & R1 & R2 & R3); [destruct HI as [[-> ->]|[-> <-]]; cbn; lia|]. rewrite E, real_app, app_length.
      assert (RC : real (closed None i body) = []).
      { destruct HI as [[-> _]|[-> _]]; [reflexivity|]. cbn [closed real flat_map]. assert (X : inner (None, i, [MBlank]) = None) by (unfold inner; cbn [length hd last blank]; destruct (Nat.ltb_spec (i + 1) (i + 1 - 1)); [lia|reflexivity]). now rewrite X. }
      rewrite RC. split; [exact R1|]. split; [lia|]. intros E1 ->. cbn. now apply R3.
    + intros w' k' _. exact OPEN.
  - split; [|intros w k X; cbn in X; congruence]. intros i body HI. rewrite cut_soft by exact WS.
    destruct (KEY None i body) as (K1 & K2 & K3); [destruct HI as [[-> _]|[-> _]]; auto|destruct HI as [[-> ->]|[-> <-]]; cbn; lia|].
    split; [exact K1|]. split; [exact K2|]. intros E _. apply K3. destruct ps; [reflexivity|discriminate].
Qed.

(** ** The line *)
Section Line.
Context {UC : Unicode} {U : UserTypes}.

Lemma same_prefix (ts1 ts2 us1 us2 : list LToken) : Forall (fun t => ltext t <> []) (ts1 ++ ts2) -> ts1 ++ ts2 = us1 ++ us2 ->
  concat (map ltext ts1) = concat (map ltext us1) -> ts1 = us1 /\ ts2 = us2.
Proof.
  revert us1. induction ts1 as [|t ts1 IH]; intros [|u us1] F E C; cbn [app map concat] in *.
  - auto.
  - exfalso. rewrite E in F. inversion F as [|? ? Hu _]; subst. symmetry in C. apply app_eq_nil in C. tauto.
  - exfalso. inversion F as [|? ? Ht _]; subst. apply app_eq_nil in C. tauto.
  - injection E as -> E. inversion F as [|? ? _ F']; subst. apply app_inv_head in C. destruct (IH us1 F' E C) as [-> ->]. auto.
Qed.

Lemma tokens_are l ps : Forall (fun t => ltext (token t) <> []) (ll_tokens l) ->
  concat (token_texts l) = concat (map fst ps) ->
  (forall ps1 t tag ps2, ps = ps1 ++ (t, tag) :: ps2 -> token_at l (concat (map fst ps1)) t tag (concat (map fst ps2))) ->
  map token (ll_tokens l) = map (fun p => LText (fst p) (snd p)) ps.
Proof.
  intros F EC HT. set (ts := map token (ll_tokens l)).
  assert (F' : Forall (fun t => ltext t <> []) ts) by (unfold ts; apply Forall_map; exact F).
  assert (EC' : concat (map ltext ts) = concat (map fst ps)) by (unfold ts; rewrite map_map; exact EC).
  assert (G : forall ps2 ps1 ts2, ps = ps1 ++ ps2 -> ts = map (fun p => LText (fst p) (snd p)) ps1 ++ ts2 -> ts2 = map (fun p => LText (fst p) (snd p)) ps2).
  { induction ps2 as [|[t tag] ps2 IH]; intros ps1 ts2 E Et.
    - rewrite app_nil_r in E. subst ps1. rewrite Et, map_app, concat_app, ltext_pieces in EC'. apply (fun H => eq_trans H (eq_sym (app_nil_r _))) in EC'. apply app_inv_head in EC'.
      destruct ts2 as [|u ts2]; [reflexivity|]. rewrite Et in F'. apply Forall_app in F'. destruct F' as [_ F2]. inversion F2 as [|? ? Hu _]; subst. cbn in EC'. apply app_eq_nil in EC'. tauto.
    - destruct (HT ps1 t tag ps2 E) as (u1 & u2 & Eu & E1 & _). fold ts in Eu. rewrite Et in Eu.
      destruct (same_prefix (map (fun p => LText (fst p) (snd p)) ps1) ts2 u1 (LText t tag :: u2)) as [_ K]; [now rewrite <- Et|exact Eu|now rewrite ltext_pieces, E1|].
      subst ts2. cbn [map fst snd]. f_equal. apply (IH (ps1 ++ [(t, tag)])); [now rewrite <- app_assoc|]. rewrite Et, map_app, <- app_assoc. reflexivity. }
  apply (G ps [] ts); reflexivity.
Qed.

Definition item_marked (r : ClauseKeywordResolver) (xm : Item * Mark) : Prop :=
  match xm with
  | (IW w, MKey k) => classified r w k
  | (IW w, MOther) => no_keyword r w
  | (IG, MBlank) => no_keyword r [32%N]
  | (IP c, MStop) => no_keyword r [c]
  | _ => False
  end.
Lemma item_marked_ok r x m tok : item_marked r (x, m) -> token tok = LText (item_text x) (item_tag x) -> marked r tok m.
Proof.
  intros H E. unfold marked. rewrite E. destruct x as [w| |c], m; try contradiction; cbn [item_marked item_text item_tag] in *; auto.
  split; [exact H|]. unfold word_tag. destruct (forallb digit_b w); [split; discriminate|]. destruct (forallb _ w); split; discriminate.
Qed.

Lemma gapped_Forall (Q : Item * Mark -> Prop) xss : Q (IG, MBlank) -> Forall (Forall Q) xss -> Forall Q (gapped xss).
Proof.
  intros HG H. induction xss as [|xs [|ys xss] IH]; [constructor|now inversion H|]. inversion H; subst. rewrite gapped_cons. apply Forall_app. split; [assumption|]. constructor; [exact HG|auto].
Qed.
Lemma sentence_Forall (Q : Item * Mark -> Prop) colon r ps : Forall (proper_part colon r) ps -> Q (IG, MBlank) ->
  (forall w k, proper_word colon w -> classified r w k -> Q (IW w, MKey k)) ->
  (forall w, proper_word colon w -> no_keyword r w -> Q (IW w, MOther)) ->
  (forall c, documented_punctuation c -> no_keyword r [c] -> Q (IP c, MStop)) -> Forall Q (sentence_items ps).
Proof.
  intros F HG HK HW HP. apply gapped_Forall; [exact HG|]. apply Forall_map. eapply Forall_impl; [|exact F]. intros p (P1 & _ & P3 & P4).
  unfold part_items. apply Forall_app. split; [|apply Forall_app; split].
  - unfold opener_items. destruct (opener p) as [[w k]|]; [|constructor]. destruct (P1 w k eq_refl). constructor; [now apply HK|]. constructor; [exact HG|constructor].
  - apply gapped_Forall; [exact HG|]. apply Forall_map. eapply Forall_impl; [|exact P3]. intros w [A B]. constructor; [now apply HW|constructor].
  - unfold closing_items. destruct (closing p) as [c|]; [|constructor]. destruct (P4 c eq_refl). constructor; [now apply HP|constructor].
Qed.

Lemma firstn_length_app {A} (xs ys : list A) : firstn (length xs) (xs ++ ys) = xs.
Proof. rewrite firstn_app, Nat.sub_diag, firstn_all. now rewrite app_nil_r. Qed.

Lemma said_rows l sole all : token_texts l = map item_text (map fst all) -> length (ll_tokens l) = length all ->
  forall ps pre earlier, all = pre ++ sentence_items ps -> ps <> [] -> Forall (fun p => said_words p <> []) ps ->
  Forall2 (clause_on l) (said_from sole earlier (text_of (map fst pre)) ps)
    (map (clause_row (ll_tokens l)) (kinds_of sole earlier (ranges_from (length pre) ps))).
Proof.
  intros ET EL. induction ps as [|p ps IH]; intros pre earlier E N F; [easy|]. inversion F as [|? ? Np F']; subst.
  cbn [said_from ranges_from kinds_of map]. 
  assert (ES : sentence_items (p :: ps) = opener_items p ++ word_items (said_words p) ++ closing_items p ++ match ps with [] => [] | _ => (IG, MBlank) :: sentence_items ps end).
  { unfold sentence_items. destruct ps as [|q ps]; cbn [map]; [cbn [gapped]; unfold part_items; now rewrite app_nil_r|]. rewrite gapped_cons. unfold part_items at 1. now rewrite <- !app_assoc. }
  destruct (word_marks _ Np) as (_ & _ & _ & WN). assert (SP : size p > 0) by (unfold size; destruct (word_items (said_words p)); [easy|cbn; lia]).
  constructor.
  - set (i := length pre + length (opener_items p)).
    assert (Hij : i <= i + size p - 1 < length (ll_tokens l)).
    { rewrite EL, ES, !app_length. fold (size p). unfold i. lia. }
    assert (T1 : concat (firstn i (token_texts l)) = text_of (map fst pre) ++ opening p).
    { rewrite ET, ES, !firstn_map. rewrite app_assoc. unfold i. rewrite <- app_length, firstn_length_app. fold (text_of (map fst (pre ++ opener_items p))). now rewrite map_app, text_of_app, opener_items_text. }
    assert (T2 : concat (firstn (S (i + size p - 1)) (token_texts l)) = (text_of (map fst pre) ++ opening p) ++ spaced (said_words p)).
    { rewrite ET, ES, !firstn_map. replace (S (i + size p - 1)) with (length ((pre ++ opener_items p) ++ word_items (said_words p))) by (rewrite !app_length; unfold i, size in *; lia).
      set (tl := closing_items p ++ _). replace (pre ++ opener_items p ++ word_items (said_words p) ++ tl) with (((pre ++ opener_items p) ++ word_items (said_words p)) ++ tl) by now rewrite <- !app_assoc.
      rewrite firstn_length_app. fold (text_of (map fst ((pre ++ opener_items p) ++ word_items (said_words p)))). now rewrite !map_app, !text_of_app, opener_items_text, word_items_text. }
    unfold clause_on, clause_row. cbn [fst snd]. pose proof (text_between_firstn l i (i + size p - 1) Hij) as TB. rewrite T1, T2 in TB. apply app_inv_head in TB.
    split; [now symmetry|]. split; [|auto]. f_equal. unfold said_kind, kind_after, kw_of. destruct (opener p) as [[w []]|]; reflexivity.
  - destruct ps as [|q ps]; [constructor|].
    replace (starts_condition (kw_of p)) with (is_condition_part p) by (unfold is_condition_part, starts_condition, kw_of; now destruct (opener p) as [[w []]|]).
    replace (text_of (map fst pre) ++ written_part p ++ [32%N]) with (text_of (map fst (pre ++ part_items p ++ [(IG, MBlank)]))) by (rewrite !map_app, !text_of_app, part_items_text; reflexivity).
    replace (S (length pre + length (part_items p))) with (length (pre ++ part_items p ++ [(IG, MBlank)])) by (rewrite !app_length; cbn; lia).
    apply IH; [|discriminate|exact F']. unfold sentence_items. cbn [map]. rewrite gapped_cons. now rewrite <- !app_assoc.
Qed.

(** C91: the clauses of a written sentence. *)
Lemma thm_C91_clauses :
  forall (SL : SegmenterLaws) colon (AL : AsciiLaws colon) tg sz ps ats l r id id',
    proper_sentence colon r ps -> no_keyword r [32%N] -> Forall wf_attribute ats ->
    (forall t, In t [TKeyword; TTextTag; TClause] -> none_of t [InText (sentence ps) ats]) ->
    create_line_from_input_tokens tg [InText (sentence ps) ats] sz = Ok l ->
    exists rows, clauses_reported id id' r l rows /\ Forall2 (clause_on l) (clauses_said ps) rows.
Proof.
  intros SL colon AL tg sz ps ats l r id id' (N & FP & HCl) HG HW HN HC.
  assert (FW : Forall (fun p => said_words p <> []) ps) by (eapply Forall_impl; [|exact FP]; intros p H; apply H).
  pose proof (sentence_block ps N FW) as HB. set (its := map fst (sentence_items ps)) in *.
  assert (HO : Forall (item_ok colon) its).
  { apply Forall_map. apply (sentence_Forall _ colon r); cbn; auto. }
  assert (TX : text_of its = sentence ps) by apply sentence_items_text.
  pose proof (items_plain colon its HB HO) as HP. rewrite TX in HP.
  destruct (text_pieces SL tg sz (sentence ps) ats l HW HC) as (qs & ET0 & ES0 & HT0).
  assert (NE : Forall (fun t => ltext (token t) <> []) (ll_tokens l)).
  { apply (proj1 (Forall_map token (fun t => ltext t <> []) (ll_tokens l))). rewrite ET0. apply Forall_map. apply Forall_forall. intros [t tag] Hq. cbn. apply in_split in Hq. destruct Hq as (q1 & q2 & Eq).
    pose proof (HT0 q1 t tag q2 Eq) as K. apply (thm_C89_plain SL colon AL tg sz _ ats l _ _ _ _ HP HW HC) in K. destruct K as [_ K]. intros ->. destruct tag; cbn [lexeme] in K.
    - destruct K as [K _]. easy.
    - destruct K as (c & K & _). discriminate.
    - destruct K as [(K & _)|(c & K & _)]; [|discriminate]. destruct K as [K _]. inversion K.
    - destruct K as [[K _]|[K|[[K _]|[[K _]|(c & K & _)]]]]; [easy|discriminate..].
    - destruct K as [[K _] _]. inversion K. }
  assert (TK : map token (ll_tokens l) = map (fun p : str * TextTag => LText (fst p) (snd p)) (map (fun x => (item_text x, item_tag x)) its)).
  { apply tokens_are; [exact NE| |].
    - rewrite (token_texts_pieces l qs ET0), ES0, map_map. symmetry. exact TX.
    - intros ps1 t tag ps2 E. apply map_eq_app in E. destruct E as (i1 & i2' & Ei & <- & E2). apply map_eq_cons in E2. destruct E2 as (x & i2 & -> & Ex & <-). injection Ex as <- <-.
      rewrite !map_map. cbn [fst]. apply (thm_C89_plain SL colon AL tg sz _ ats l _ _ _ _ HP HW HC). split.
      + rewrite <- TX, Ei, text_of_app. reflexivity.
      + exact (item_lexeme colon its HB HO i1 x i2 Ei). }
  assert (HM : Forall2 (marked r) (ll_tokens l) (map snd (sentence_items ps))).
  { rewrite map_map in TK. cbn [fst snd] in TK. unfold its in TK. rewrite map_map in TK.
    assert (FM : Forall (item_marked r) (sentence_items ps)) by (apply (sentence_Forall _ colon r); cbn; auto).
    clear - TK FM. revert TK. generalize (ll_tokens l). induction FM as [|[x m] xs Hx _ IH]; intros [|tok toks] E; try discriminate; [constructor|]. cbn [map fst snd] in *. injection E as E1 E2. constructor; [now apply (item_marked_ok r x m tok)|now apply IH]. }
  assert (HW' : Forall wf_input [InText (sentence ps) ats]) by (constructor; [exact HW|constructor]).
  pose proof (thm_C81_scan tg sz _ l r id id' _ HW' (HN TKeyword ltac:(cbn; tauto)) (HN TTextTag ltac:(cbn; tauto)) (HN TClause ltac:(cbn; tauto)) HC HM) as HR.
  eexists. split; [exact HR|]. unfold scanned.
  destruct (scan_sentence ps N FW HCl 0) as [HS _]. destruct (HS 0 [] ltac:(left; auto)) as (R1 & R2 & R3).
  assert (ESole : (length (cut None 0 [] (map snd (sentence_items ps))) =? 1) = Nat.eqb (length ps) 1).
  { destruct (Nat.eqb_spec (length ps) 1) as [E|E].
    - rewrite (R3 E eq_refl). reflexivity.
    - apply Nat.eqb_neq. destruct ps; [easy|]. cbn [length] in *. lia. }
  cbv zeta. rewrite ESole, kinded_real, R1. unfold clauses_said.
  apply (said_rows l (Nat.eqb (length ps) 1) (sentence_items ps)) with (pre := []); auto.
  - rewrite (token_texts_pieces l _ TK), map_map. reflexivity.
  - rewrite <- (map_length token), TK, !map_length. unfold its. now rewrite map_length.
Qed.
End Line.
