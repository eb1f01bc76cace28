(** Proofs about keys and ASCII text (C92). *)

From Verif Require Export SpecKeys ThmChars ThmEnd.

Section Pieces.
Context (colon : bool).
Local Notation single_piece := (single_piece colon).

(** What holds a piece together lies inside it, if it is cut at both ends. *)
Lemma unbroken_inside b t a x y : may_cut colon b (t ++ a) -> may_cut colon (b ++ t) a -> t = x ++ y -> x <> [] -> y <> [] ->
  unbroken colon (b ++ x) (y ++ a) -> unbroken colon x y.
Proof.
  intros M1 M2 Et Nx Ny HU. apply may_cut_iff in M1, M2. destruct (exists_last Nx) as (x' & c & Ex). destruct y as [|d y']; [easy|]. subst x t.
  rewrite app_assoc in HU. cbn [app] in HU. apply unbroken_ub in HU. apply unbroken_ub. unfold ub in *.
  assert (KS : forall P, starts_in (y' ++ a) P -> starts_in y' P \/ (y' = [] /\ starts_in a P)).
  { intros P (e & q & E & He). destruct y' as [|e' y']; [right; split; [reflexivity|now exists e, q]|]. injection E as -> E. left. now exists e, y'. }
  assert (KE : forall P, ends_in (b ++ x') P -> ends_in x' P \/ (x' = [] /\ ends_in b P)).
  { intros P (q & e & E & He). destruct x' as [|e' x''] eqn:Ex'; [right; split; [reflexivity|rewrite app_nil_r in E; now exists q, e]|].
    left. assert (N : e' :: x'' <> []) by discriminate. destruct (exists_last N) as (z & f & Ez). rewrite Ez in *. rewrite app_assoc in E. apply app_inj_tail in E. destruct E as [_ ->]. now exists z, e. }
  destruct HU as [H|[H|[H|[(A & B & C)|[(A & B & C)|[(A & B & C)|[(A & B & C)|H]]]]]]]; try tauto.
  - apply KS in C. destruct C as [C|[-> (e & q & -> & He)]]; [tauto|]. exfalso. apply M2. rewrite <- app_assoc. cbn [app]. rewrite app_assoc. replace ((b ++ x') ++ [c; d]) with (((b ++ x') ++ [c]) ++ [d]) by now rewrite <- app_assoc.
    apply unbroken_ub. unfold ub. do 4 right. left. split; [exact B|]. split; [exact He|]. now exists (b ++ x'), c.
  - apply KE in C. destruct C as [C|[-> (q & e & -> & He)]]; [tauto|]. exfalso. apply M1. cbn [app]. apply unbroken_ub. unfold ub. do 3 right. left. split; [exact He|]. split; [exact A|]. now exists d, (y' ++ a).
  - apply KE in C. destruct C as [C|[-> (q & e & -> & He)]]; [tauto|]. exfalso. apply M1. cbn [app]. apply unbroken_ub. unfold ub. do 6 right. left. split; [exact He|]. split; [exact A|]. now exists d, (y' ++ a).
  - apply KS in C. destruct C as [C|[-> (e & q & -> & He)]]; [tauto|]. exfalso. apply M2. rewrite <- app_assoc. cbn [app]. rewrite app_assoc. replace ((b ++ x') ++ [c; d]) with (((b ++ x') ++ [c]) ++ [d]) by now rewrite <- app_assoc.
    apply unbroken_ub. unfold ub. do 5 right. left. split; [exact B|]. split; [exact He|]. now exists (b ++ x'), c.
Qed.

Lemma not_digit_start t : t <> [] -> Forall ascii_letter t -> ~ starts_in t ascii_digit.
Proof. intros N F (c & q & -> & Hc). inversion F as [|? ? Hl _]; subst. unfold ascii_letter, ascii_digit in *. lia. Qed.
Lemma letters_unbroken t : Forall ascii_letter t -> forall x y, x <> [] -> y <> [] -> t = x ++ y -> unbroken colon x y.
Proof.
  intros F x y Nx Ny ->. apply Forall_app in F. destruct F as [F1 F2]. destruct (exists_last Nx) as (x' & c & ->). destruct y as [|d y]; [easy|]. apply Forall_app in F1. destruct F1 as [_ F1]. inversion F1; subst. inversion F2; subst. now apply WB5.
Qed.

Lemma lexeme_single b t tag a : any_lexeme colon b t tag a -> single_piece t.
Proof.
  intros (b0 & x & y & a0 & -> & -> & (N & M1 & M2 & HI) & [[Hd HP]|(Nd & -> & -> & HW)]).
  - assert (KN : number_piece x t y -> single_piece t) by (intros (Nt & F & _); split; [exact Nt|now left]).
    assert (KW : t <> [] -> Forall ascii_letter t -> single_piece t) by (intros Nt F; split; [exact Nt|]; right; split; [now apply not_digit_start|now apply letters_unbroken]).
    assert (KP : forall c, t = [c] -> ~ ascii_digit c -> single_piece t).
    { intros c -> Hc. split; [discriminate|]. right. split; [intros (e & q & E & He); injection E as <- _; contradiction|].
      intros u v Nu Nv E. destruct u as [|? [|? ?]]; [easy| |discriminate]. injection E as _ <-. easy. }
    destruct tag; cbn [part_of_number] in HP; try contradiction; [exact (KN HP)|destruct HP as (c & E & Hc & _); exact (KP c E Hc)|destruct HP as (Nt & F & _); exact (KW Nt F)].
  - cbn [app] in *. rewrite app_nil_r in *. split; [exact N|]. right. split; [exact Nd|]. intros u v Nu Nv E. eapply unbroken_inside; eauto.
Qed.

Lemma space_or t : Forall ascii_space t \/ ~ Forall ascii_space t.
Proof.
  induction t as [|c t [IH|IH]]; [now left| |right; intros H; inversion H; auto].
  destruct (in_dec N.eq_dec c [9; 10; 11; 12; 13; 32]%N) as [H|H]; [left; now constructor|right; intros C; inversion C; auto].
Qed.
Lemma chars_or (P : char -> Prop) t : (forall c, P c \/ ~ P c) -> Forall P t \/ ~ Forall P t.
Proof. intros D. induction t as [|c t [IH|IH]]; [now left| |right; intros H; inversion H; auto]. destruct (D c); [left; now constructor|right; intros C; inversion C; auto]. Qed.
Lemma letter_or c : ascii_letter c \/ ~ ascii_letter c.
Proof. unfold ascii_letter. lia. Qed.
Lemma chunk_tagged t : t <> [] -> ~ starts_in t ascii_digit -> exists tag, whole_chunk t tag.
Proof.
  intros N Nd. destruct (space_or t) as [H|H]; [now exists SPACE|].
  destruct t as [|c q]; [easy|].
  assert (DP : (q = [] /\ documented_punctuation c) \/ ~ (exists d, c :: q = [d] /\ documented_punctuation d)).
  { destruct q as [|? ?]; [|right; intros (d & E & _); discriminate]. destruct (in_dec N.eq_dec c [44; 46; 33; 59; 58; 63; 39; 34]%N) as [K|K]; [left; auto|right]. intros (d & E & Hd). injection E as <-. contradiction. }
  destruct DP as [[-> HP]|HP]; [exists PUNC; now exists c|].
  destruct (letter_or c) as [HL|HL].
  - destruct (chars_or word_char (c :: q)) as [HW|HW].
    + intros d. unfold word_char. destruct (letter_or d); [tauto|]. destruct (N.eq_dec d 39); tauto.
    + exists WORD. split; [now exists c, q|exact HW].
    + exists SYMB. cbn. split; [exact H|]. split; [exact HP|]. tauto.
  - exists SYMB. cbn. split; [exact H|]. split; [exact HP|]. intros ((d & q' & E & Hd) & _). injection E as <- _. contradiction.
Qed.

Lemma single_lexeme t : single_piece t -> exists tag, any_lexeme colon [] t tag [].
Proof.
  intros (N & H).
  assert (C : chunk colon [] t []).
  { split; [exact N|]. split; [now left|]. split; [right; now left|]. intros x y Nx Ny E. cbn [app]. rewrite app_nil_r. destruct H as [F|[_ H]]; [|now apply H].
    rewrite E in F. apply Forall_app in F. destruct F as [F1 F2]. destruct (exists_last Nx) as (x' & c & ->). destruct y as [|d y]; [easy|]. apply Forall_app in F1. destruct F1 as [_ F1]. inversion F1; subst. inversion F2; subst. now apply WB8. }
  destruct H as [F|[Nd H]].
  - exists NATN, [], [], [], []. cbn [app]. rewrite app_nil_r. split; [reflexivity|]. split; [reflexivity|]. split; [exact C|]. left. split.
    + destruct t as [|c q]; [easy|]. inversion F; subst. now exists c, q.
    + split; [exact N|]. split; [exact F|]. split; [intros (p & c & E & _); now destruct p|intros (c & p & E & _); discriminate].
  - destruct (chunk_tagged t N Nd) as (tag & HT). exists tag, [], [], [], []. cbn [app]. rewrite app_nil_r. split; [reflexivity|]. split; [reflexivity|]. split; [exact C|]. right. auto.
Qed.

(** ** Lower case *)
Local Open Scope N_scope.
Lemma lower_letter c : ascii_letter (ascii_lower c) <-> ascii_letter c.
Proof. unfold ascii_lower, ascii_letter. destruct (N.leb_spec 65 c), (N.leb_spec c 90); cbn [andb]; lia. Qed.
Lemma lower_other c : ~ ascii_letter c -> ascii_lower c = c.
Proof. unfold ascii_lower, ascii_letter. intros H. destruct (N.leb_spec 65 c), (N.leb_spec c 90); cbn [andb]; lia. Qed.
Lemma lower_is c d : ~ ascii_letter d -> (ascii_lower c = d <-> c = d).
Proof.
  intros Hd. destruct (letter_or c) as [H|H]; [|now rewrite (lower_other c H)]. split; [|intros ->; contradiction]. intros E. apply lower_letter in H. rewrite E in H. contradiction.
Qed.
Lemma lower_digit c : ascii_digit (ascii_lower c) <-> ascii_digit c.
Proof.
  destruct (letter_or c) as [H|H]; [|now rewrite (lower_other c H)]. pose proof (proj2 (lower_letter c) H) as H'. unfold ascii_letter, ascii_digit in *. lia.
Qed.
Lemma lower_mid c : mid_letter colon (ascii_lower c) <-> mid_letter colon c.
Proof.
  destruct (letter_or c) as [H|H]; [|now rewrite (lower_other c H)]. pose proof (proj2 (lower_letter c) H) as H'. unfold ascii_letter, mid_letter in *. cbn [In]. lia.
Qed.
Lemma lower_midn c : mid_number (ascii_lower c) <-> mid_number c.
Proof.
  destruct (letter_or c) as [H|H]; [|now rewrite (lower_other c H)]. pose proof (proj2 (lower_letter c) H) as H'. unfold ascii_letter, mid_number in *. cbn [In]. lia.
Qed.
Local Close Scope N_scope.
Lemma lower_starts t (P : char -> Prop) : (forall c, P (ascii_lower c) <-> P c) -> (starts_in (map ascii_lower t) P <-> starts_in t P).
Proof.
  intros HP. destruct t as [|c t]; [split; intros (? & ? & E & _); discriminate|]. split; intros (d & q & E & Hd); injection E as <- <-; cbn [map]; [exists c, t|exists (ascii_lower c), (map ascii_lower t)]; (split; [reflexivity|]); now apply HP.
Qed.
Lemma lower_ends t (P : char -> Prop) : (forall c, P (ascii_lower c) <-> P c) -> (ends_in (map ascii_lower t) P <-> ends_in t P).
Proof.
  intros HP. split; intros (q & d & E & Hd).
  - apply map_eq_app in E. destruct E as (p & r & -> & _ & E). destruct r as [|c [|? ?]]; try discriminate. injection E as <-. exists p, c. split; [reflexivity|now apply HP].
  - subst t. exists (map ascii_lower q), (ascii_lower d). split; [now rewrite map_app|now apply HP].
Qed.
Lemma lower_ub p c d q : ub colon (map ascii_lower p) (ascii_lower c) (ascii_lower d) (map ascii_lower q) <-> ub colon p c d q.
Proof.
  unfold ub, alnum. rewrite !lower_letter, !lower_digit, !lower_mid, !lower_midn.
  rewrite !(lower_starts _ _ lower_letter), !(lower_starts _ _ lower_digit), !(lower_ends _ _ lower_letter), !(lower_ends _ _ lower_digit).
  rewrite !(lower_is _ 13%N), !(lower_is _ 10%N), !(lower_is _ 32%N), !(lower_is _ 95%N) by (unfold ascii_letter; lia). reflexivity.
Qed.
Lemma lower_unbroken x y : x <> [] -> y <> [] -> (unbroken colon (map ascii_lower x) (map ascii_lower y) <-> unbroken colon x y).
Proof.
  intros Nx Ny. destruct (exists_last Nx) as (x' & c & ->). destruct y as [|d y]; [easy|]. rewrite map_app. cbn [map]. rewrite !unbroken_ub. apply lower_ub.
Qed.
Lemma map_nil_iff {A B} (f : A -> B) l : map f l <> [] <-> l <> [].
Proof. destruct l; cbn; split; easy. Qed.
Lemma lower_single t : single_piece (map ascii_lower t) <-> single_piece t.
Proof.
  unfold SpecKeys.single_piece. rewrite (lower_starts _ _ lower_digit), Forall_map.
  assert (E0 : map ascii_lower t <> [] <-> t <> []) by (destruct t; cbn; split; easy).
  assert (E1 : Forall (fun x => ascii_digit (ascii_lower x)) t <-> Forall ascii_digit t) by (split; intros H; (eapply Forall_impl; [|exact H]); intros c; now apply lower_digit).
  rewrite E1.
  assert (E2 : (forall x y, x <> [] -> y <> [] -> map ascii_lower t = x ++ y -> unbroken colon x y) <-> (forall x y, x <> [] -> y <> [] -> t = x ++ y -> unbroken colon x y)).
  { split.
    - intros H x y Nx Ny ->. apply lower_unbroken; [exact Nx|exact Ny|]. apply H; [now apply map_nil_iff|now apply map_nil_iff|apply map_app].
    - intros H x y Nx Ny E. apply map_eq_app in E. destruct E as (x' & y' & -> & <- & <-). apply lower_unbroken; [now apply map_nil_iff in Nx|now apply map_nil_iff in Ny|]. apply H; [now apply map_nil_iff in Nx|now apply map_nil_iff in Ny|reflexivity]. }
  unfold str, char in *. tauto.
Qed.
End Pieces.

Section C92.
Context {UC : Unicode} {U : UserTypes}.

(** C92: the tokens of ASCII text are such pieces. *)
Lemma thm_C92_tokens :
  forall (SL : SegmenterLaws) colon (AL : AsciiLaws colon) tg sz s ats l tok,
    ascii s -> Forall wf_attribute ats -> create_line_from_input_tokens tg [InText s ats] sz = Ok l -> In tok (ll_tokens l) ->
    exists t tag, token tok = LText t tag /\ single_piece colon t.
Proof.
  intros SL colon AL tg sz s ats l tok HA HW HC Hin. destruct (text_pieces SL tg sz s ats l HW HC) as (ps & ET & _ & HT).
  assert (K : In (token tok) (map (fun p => LText (fst p) (snd p)) ps)) by (rewrite <- ET; now apply in_map).
  apply in_map_iff in K. destruct K as ([t tag] & E & Hp). cbn [fst snd] in E. exists t, tag. split; [now symmetry|].
  apply in_split in Hp. destruct Hp as (p1 & p2 & Ep). pose proof (HT p1 t tag p2 Ep) as K. apply (thm_C89_all SL colon AL tg sz s ats l _ _ _ _ HA HW HC) in K. destruct K as [_ K]. now apply lexeme_single in K.
Qed.

(** C92: such a piece alone is one token. *)
Lemma thm_C92_alone :
  forall (SL : SegmenterLaws) colon (AL : AsciiLaws colon) tg sz t ats l,
    ascii t -> single_piece colon t -> Forall wf_attribute ats -> create_line_from_input_tokens tg [InText t ats] sz = Ok l ->
    exists tag, map token (ll_tokens l) = [LText t tag].
Proof.
  intros SL colon AL tg sz t ats l HA HS HW HC. destruct (single_lexeme colon t HS) as (tag & HL). exists tag.
  assert (K : token_at l [] t tag []) by (apply (thm_C89_all SL colon AL tg sz t ats l _ _ _ _ HA HW HC); split; [now rewrite app_nil_r|exact HL]).
  destruct K as (ts1 & ts2 & E & E1 & E2).
  assert (NE : forall x, In x (map token (ll_tokens l)) -> ltext x <> []).
  { intros x Hx. apply in_map_iff in Hx. destruct Hx as (tok & <- & Hx). destruct (thm_C92_tokens SL colon AL tg sz t ats l tok HA HW HC Hx) as (t' & tag' & -> & (N & _)). exact N. }
  rewrite E in NE |- *. destruct ts1 as [|u ts1]; [|exfalso; cbn in E1; apply app_eq_nil in E1; apply (NE u); [now left|tauto]].
  destruct ts2 as [|u ts2]; [reflexivity|]. exfalso. cbn in E2. apply app_eq_nil in E2. apply (NE u); [right; now left|tauto].
Qed.

Lemma piece_characters :
  forall colon t c, single_piece colon t -> In c t ->
    (joining colon c \/ t = [c]) /\ (ascii_space c -> Forall (is 32%N) t \/ t = [13; 10]%N \/ t = [c])
    /\ (ends_in t (mid_letter colon) \/ ends_in t mid_number -> exists d, t = [d]).
Proof.
  intros colon t c (N & H) Hc.
  assert (PAIR : forall p d e q, t = p ++ d :: e :: q -> (ascii_digit d /\ ascii_digit e) \/ ub colon p d e q).
  { intros p d e q E. destruct H as [F|[_ H]].
    - left. rewrite E in F. apply Forall_app in F. destruct F as [_ F]. inversion F as [|? ? F1 F2]; subst. now inversion F2.
    - right. apply unbroken_ub. apply (H (p ++ [d]) (e :: q)); [now destruct p|discriminate|]. now rewrite <- app_assoc. }
  assert (NB : forall p q, t = p ++ c :: q -> t = [c] \/ (exists e q', q = e :: q') \/ exists p' d, p = p' ++ [d]).
  { intros p q E. destruct q as [|e q']; [|right; left; eauto]. destruct p as [|d0 p0]; [now left|]. right; right. assert (Np : d0 :: p0 <> []) by discriminate. destruct (exists_last Np) as (p' & d & ->). eauto. }
  split; [|split].
  - apply in_split in Hc. destruct Hc as (p & q & E). destruct (NB p q E) as [K|[(e & q' & ->)|(p' & d & ->)]]; [now right|left..].
    + destruct (PAIR p c e q' E) as [[A _]|A]; unfold joining, ub, alnum in *; cbn [In]; intuition.
    + rewrite <- app_assoc in E. cbn [app] in E. destruct (PAIR p' d c q E) as [[_ A]|A]; unfold joining, ub, alnum in *; cbn [In]; intuition.
  - intros HS. destruct (in_split _ _ Hc) as (p & q & E). destruct (NB p q E) as [K|K]; [tauto|].
    (* beside white space is white space of the same kind *)
    assert (SP : forall p d e q, t = p ++ d :: e :: q -> ascii_space d \/ ascii_space e -> (d = 32 /\ e = 32 \/ d = 13 /\ e = 10)%N).
    { intros p0 d e q0 E0 [A|A]; destruct (PAIR p0 d e q0 E0) as [[B1 B2]|B]; unfold ub, alnum, ascii_space, ascii_digit, ascii_letter, mid_letter, mid_number in *; cbn [In] in *; lia. }
    assert (ALL : forall q c0 p, t = p ++ c0 :: q -> c0 = 32%N -> Forall (is 32%N) q).
    { induction q0 as [|e q0 IHq]; intros c0 p0 E0 ->; [constructor|]. destruct (SP p0 32%N e q0 E0) as [[_ ->]|[C _]]; [left; cbn; tauto| |discriminate]. constructor; [reflexivity|]. apply (IHq 32%N (p0 ++ [32%N])); [now rewrite <- app_assoc|reflexivity]. }
    assert (BACK : forall p c0 q, t = p ++ c0 :: q -> c0 = 32%N -> Forall (is 32%N) p).
    { intros p0. induction p0 as [|d p0 IHp] using rev_ind; intros c0 q0 E0 ->; [constructor|]. rewrite <- app_assoc in E0. cbn [app] in E0. destruct (SP p0 d 32%N q0 E0) as [[-> _]|[_ C]]; [right; cbn; tauto| |discriminate].
      apply Forall_app. split; [now apply (IHp 32%N (32%N :: q0))|constructor; [reflexivity|constructor]]. }
    destruct (N.eq_dec c 32) as [->|Nc].
    + left. rewrite E. apply Forall_app. split; [eapply BACK; eauto|]. constructor; [reflexivity|eapply ALL; eauto].
    + right. left. destruct K as [(e & q' & ->)|(p' & d & ->)].
      * destruct (SP p c e q' E) as [[C _]|[-> ->]]; [now left|congruence|].
        destruct p as [|x p0] eqn:Ep.
        -- destruct q' as [|y q0]; [exact E|]. exfalso. destruct (SP [13%N] 10%N y q0 E) as [[C _]|[C _]]; [left; cbn; tauto|discriminate|discriminate].
        -- exfalso. assert (Np : x :: p0 <> []) by discriminate. destruct (exists_last Np) as (p1 & d & E1). rewrite E1 in E. rewrite <- app_assoc in E. cbn [app] in E. destruct (SP p1 d 13%N _ E) as [[_ C]|[_ C]]; [right; cbn; tauto|discriminate|discriminate].
      * rewrite <- app_assoc in E. cbn [app] in E. destruct (SP p' d c q E) as [[_ C]|[-> ->]]; [now right|congruence|].
        destruct p' as [|x p0] eqn:Ep.
        -- destruct q as [|y q0]; [exact E|]. exfalso. destruct (SP [13%N] 10%N y q0 E) as [[C _]|[C _]]; [left; cbn; tauto|discriminate|discriminate].
        -- exfalso. assert (Np : x :: p0 <> []) by discriminate. destruct (exists_last Np) as (p1 & d & E1). rewrite E1 in E. rewrite <- app_assoc in E. cbn [app] in E. destruct (SP p1 d 13%N _ E) as [[_ C]|[_ C]]; [right; cbn; tauto|discriminate|discriminate].
  - intros HE. assert (K : exists p d, t = p ++ [d] /\ (mid_letter colon d \/ mid_number d)) by (destruct HE as [(p & d & E & Hd)|(p & d & E & Hd)]; exists p, d; auto).
    destruct K as (p & d & E & Hd). destruct p as [|x p0] eqn:Ep; [now exists d|]. exfalso. assert (Np : x :: p0 <> []) by discriminate. destruct (exists_last Np) as (p1 & e & E1). rewrite E1 in E. rewrite <- app_assoc in E. cbn [app] in E.
    destruct (PAIR p1 e d [] E) as [[_ B]|B].
    + unfold mid_letter, mid_number, ascii_digit in *. cbn [In] in *. lia.
    + unfold ub, alnum in B. assert (NS : forall P, ~ starts_in [] P) by (intros P (? & ? & C & _); discriminate). pose proof (NS ascii_letter). pose proof (NS ascii_digit).
      assert (~ ascii_letter d /\ ~ ascii_digit d /\ d <> 10%N /\ d <> 32%N /\ d <> 95%N) by (unfold mid_letter, mid_number, ascii_letter, ascii_digit in *; cbn [In] in *; lia). tauto.
Qed.

(** C92: what a token can contain. *)
Lemma thm_C92_characters :
  forall (SL : SegmenterLaws) colon (AL : AsciiLaws colon) tg sz s ats l tok t tag c,
    ascii s -> Forall wf_attribute ats -> create_line_from_input_tokens tg [InText s ats] sz = Ok l -> In tok (ll_tokens l) ->
    token tok = LText t tag -> In c t ->
    (joining colon c \/ t = [c]) /\ (ascii_space c -> Forall (is 32%N) t \/ t = [13; 10]%N \/ t = [c])
    /\ (ends_in t (mid_letter colon) \/ ends_in t mid_number -> exists d, t = [d]).
Proof.
  intros SL colon AL tg sz s ats l tok t tag c HA HW HC Hin E Hc. destruct (thm_C92_tokens SL colon AL tg sz s ats l tok HA HW HC Hin) as (t' & tag' & E' & HS).
  rewrite E in E'. injection E' as <- _. now apply (piece_characters colon t c HS).
Qed.

Lemma filter_map_ext {A B} (f g : A -> option B) l : (forall x, In x l -> f x = g x) -> filter_map f l = filter_map g l.
Proof. induction l as [|x l IH]; intros H; [reflexivity|]. cbn. rewrite (H x (or_introl eq_refl)), IH; [reflexivity|]. intros y Hy. apply H. now right. Qed.
Lemma in_enumerate {A} (l : list A) : forall n i x, In (i, x) (enumerate_from n l) -> In x l.
Proof. induction l as [|y l IH]; intros n i x H; [destruct H|]. destruct H as [E|H]; [injection E as _ ->; now left|right; eauto]. Qed.
Lemma rows_by_ext {V} toks (f g : str -> TextTag -> list V) :
  (forall tok t tag, In tok toks -> token tok = LText t tag -> f t tag = g t tag) -> rows_by toks f = rows_by toks g.
Proof.
  intros H. unfold rows_by. apply filter_map_ext. intros [i tok] Hin. apply in_enumerate in Hin. destruct (token tok) as [t tag|] eqn:E; [|reflexivity]. now rewrite (H tok t tag Hin E).
Qed.

(** C92: an entry whose key is no such piece changes nothing. *)
Lemma thm_C92_useless :
  forall (SL : SegmenterLaws) colon (AL : AsciiLaws colon) t tg sz s ats l id (table1 table2 : list (str * list (den t))) k vs,
    ascii s -> Forall wf_attribute ats -> none_of t [InText s ats] -> t <> TChar -> t <> TTextTag ->
    create_line_from_input_tokens tg [InText s ats] sz = Ok l ->
    NoDup (map fst (table1 ++ (k, vs) :: table2)) -> ~ single_piece colon k ->
    exists l1 l2 rows, run id l (text_match_go (text_match_new (table1 ++ (k, vs) :: table2))) = Ok l1
      /\ run id l (text_match_go (text_match_new (table1 ++ table2))) = Ok l2
      /\ query l1 t = Ok rows /\ query l2 t = Ok rows.
Proof.
  intros SL colon AL t tg sz s ats l id table1 table2 k vs HA HW HN N1 N2 HC ND NS.
  assert (HW' : Forall wf_input [InText s ats]) by (constructor; [exact HW|constructor]).
  destruct (thm_C37_created t tg sz _ l id _ HW' HN N1 N2 HC ND) as (l1 & R1 & Q1).
  assert (ND2 : NoDup (map fst (table1 ++ table2))) by (rewrite map_app in *; cbn [map fst] in ND; now apply NoDup_remove_1 in ND).
  destruct (thm_C37_created t tg sz _ l id _ HW' HN N1 N2 HC ND2) as (l2 & R2 & Q2).
  exists l1, l2, (rows_by (ll_tokens l) (fun text _ => entry_values (fun k => str_eqb k text) (table1 ++ table2))). split; [exact R1|]. split; [exact R2|]. split; [|exact Q2]. rewrite Q1. f_equal.
  apply rows_by_ext. intros tok x tag Hin E. destruct (thm_C92_tokens SL colon AL tg sz s ats l tok HA HW HC Hin) as (x' & tag' & E' & HS). rewrite E in E'. injection E' as <- _.
  unfold entry_values. rewrite !flat_map_app. f_equal. cbn [flat_map]. destruct (str_eqb k x) eqn:EK; [|reflexivity]. apply str_eqb_spec in EK. subst. contradiction.
Qed.

(** C92: the same, without regard to case. *)
Lemma thm_C92_useless_ci :
  forall (SL : SegmenterLaws) colon (AL : AsciiLaws colon) (LL : AsciiLower) t tg sz s ats l id (table1 table2 : list (str * list (den t))) k vs,
    ascii s -> Forall wf_attribute ats -> none_of t [InText s ats] -> t <> TChar -> t <> TTextTag ->
    create_line_from_input_tokens tg [InText s ats] sz = Ok l ->
    ascii k -> ~ single_piece colon k ->
    exists l1 l2 rows, run id l (text_match_go (text_match_new_ci (table1 ++ (k, vs) :: table2))) = Ok l1
      /\ run id l (text_match_go (text_match_new_ci (table1 ++ table2))) = Ok l2
      /\ query l1 t = Ok rows /\ query l2 t = Ok rows.
Proof.
  intros SL colon AL LL t tg sz s ats l id table1 table2 k vs HA HW HN N1 N2 HC HK NS.
  assert (HW' : Forall wf_input [InText s ats]) by (constructor; [exact HW|constructor]).
  destruct (thm_C38_created t tg sz _ l id (table1 ++ (k, vs) :: table2) HW' HN N1 N2 HC) as (l1 & R1 & Q1).
  destruct (thm_C38_created t tg sz _ l id (table1 ++ table2) HW' HN N1 N2 HC) as (l2 & R2 & Q2).
  exists l1, l2, (rows_by (ll_tokens l) (fun text _ => last_entry_values (fun k => same_ignoring_case k text) (table1 ++ table2))). split; [exact R1|]. split; [exact R2|]. split; [|exact Q2]. rewrite Q1. f_equal.
  apply rows_by_ext. intros tok x tag Hin E. destruct (thm_C92_tokens SL colon AL tg sz s ats l tok HA HW HC Hin) as (x' & tag' & E' & HS). rewrite E in E'. injection E' as <- _.
  assert (Hx : ascii x).
  { destruct (text_pieces SL tg sz s ats l HW HC) as (ps & ET & ES & _). assert (K : In (token tok) (map (fun p => LText (fst p) (snd p)) ps)) by (rewrite <- ET; now apply in_map).
    apply in_map_iff in K. destruct K as ([u v] & Eu & Hu). rewrite E in Eu. injection Eu as -> _. apply Forall_forall. intros c Hc. unfold ascii in HA. rewrite Forall_forall in HA. apply HA. rewrite <- ES. apply in_concat. exists x. split; [|exact Hc]. now apply (in_map fst) in Hu. }
  unfold last_entry_values. rewrite !filter_app. cbn [filter fst]. replace (same_ignoring_case k x) with false; [reflexivity|]. symmetry. unfold same_ignoring_case. destruct (str_eqb (u_lower k) (u_lower x)) eqn:EK; [|reflexivity].
  exfalso. apply str_eqb_spec in EK. rewrite !LL in EK by assumption. apply NS, (lower_single colon k). rewrite EK. now apply lower_single.
Qed.

(** C92: an entry whose key is such a piece is found in the text that is the key. *)
Lemma thm_C92_useful :
  forall (SL : SegmenterLaws) colon (AL : AsciiLaws colon) t tg sz ats l id (table : list (str * list (den t))) k v vs,
    ascii k -> single_piece colon k -> Forall wf_attribute ats -> none_of t [InText k ats] -> t <> TChar -> t <> TTextTag ->
    create_line_from_input_tokens tg [InText k ats] sz = Ok l -> NoDup (map fst table) -> In (k, v :: vs) table ->
    exists l', run id l (text_match_go (text_match_new table)) = Ok l' /\ query l' t = Ok [((0, 0), k, v :: vs)].
Proof.
  intros SL colon AL t tg sz ats l id table k v vs HA HS HW HN N1 N2 HC ND Hin.
  assert (HW' : Forall wf_input [InText k ats]) by (constructor; [exact HW|constructor]).
  destruct (thm_C37_created t tg sz _ l id table HW' HN N1 N2 HC ND) as (l' & R & Q). exists l'. split; [exact R|]. rewrite Q. f_equal.
  destruct (thm_C92_alone SL colon AL tg sz k ats l HA HS HW HC) as (tag & E).
  destruct (ll_tokens l) as [|tok [|? ?]]; try discriminate. injection E as E. unfold rows_by. cbn [enumerate_from filter_map]. rewrite E.
  replace (entry_values (fun k0 => str_eqb k0 k) table) with (v :: vs); [reflexivity|]. symmetry. unfold entry_values. clear - ND Hin.
  assert (Z : forall tb : list (str * list (den t)), ~ In k (map fst tb) -> flat_map (fun '(k0, vs) => if str_eqb k0 k then vs else []) tb = []).
  { induction tb as [|[k0 vs0] tb IH]; intros H; [reflexivity|]. cbn [flat_map]. destruct (str_eqb k0 k) eqn:EK; [apply str_eqb_spec in EK; subst; exfalso; apply H; now left|]. apply IH. intros C. apply H. now right. }
  apply in_split in Hin. destruct Hin as (t1 & t2 & ->). rewrite map_app in ND. cbn [map fst] in ND. rewrite flat_map_app. cbn [flat_map].
  apply NoDup_remove_2 in ND. rewrite in_app_iff in ND. rewrite Z by tauto. rewrite Z by tauto. rewrite app_nil_r. cbn [app]. now rewrite (proj2 (str_eqb_spec k k) eq_refl).
Qed.

(** C92: clause keywords. *)
Lemma thm_C92_keywords :
  forall (SL : SegmenterLaws) colon (AL : AsciiLaws colon) (LL : AsciiLower) tg sz s ats l id r r',
    ascii s -> Forall wf_attribute ats -> none_of TKeyword [InText s ats] ->
    create_line_from_input_tokens tg [InText s ats] sz = Ok l -> same_keywords colon r r' ->
    exists l1 l2 rows, run id l (clause_keyword_go r) = Ok l1 /\ run id l (clause_keyword_go r') = Ok l2
      /\ query l1 TKeyword = Ok rows /\ query l2 TKeyword = Ok rows.
Proof.
  intros SL colon AL LL tg sz s ats l id r r' HA HW HN HC HS.
  assert (HW' : Forall wf_input [InText s ats]) by (constructor; [exact HW|constructor]).
  destruct (thm_C45_created tg sz _ l id r HW' HN HC) as (f1 & l1 & R1 & Q1 & F1).
  destruct (thm_C45_created tg sz _ l id r' HW' HN HC) as (f2 & l2 & R2 & Q2 & F2).
  exists l1, l2, (rows_by (ll_tokens l) (fun text _ => f2 text)). split; [exact R1|]. split; [exact R2|]. split; [|exact Q2]. rewrite Q1. f_equal.
  apply rows_by_ext. intros tok x tag Hin E. destruct (thm_C92_tokens SL colon AL tg sz s ats l tok HA HW HC Hin) as (x' & tag' & E' & Hx). rewrite E in E'. injection E' as <- _.
  assert (Hax : ascii x).
  { destruct (text_pieces SL tg sz s ats l HW HC) as (ps & ET & ES & _). assert (K : In (token tok) (map (fun p => LText (fst p) (snd p)) ps)) by (rewrite <- ET; now apply in_map).
    apply in_map_iff in K. destruct K as ([u v] & Eu & Hu). rewrite E in Eu. injection Eu as -> _. apply Forall_forall. intros c Hc. unfold ascii in HA. rewrite Forall_forall in HA. apply HA. rewrite <- ES. apply in_concat. exists x. split; [|exact Hc]. now apply (in_map fst) in Hu. }
  assert (HL : single_piece colon (u_lower x)) by (rewrite LL by exact Hax; now apply lower_single).
  destruct (HS _ HL) as (A & B & C).
  assert (EQ : forall k, classified r x k <-> classified r' x k) by (intros []; cbn [classified]; rewrite ?A, ?B, ?C; reflexivity).
  destruct (F1 x) as [(k & -> & Hk)|[-> N1]], (F2 x) as [(k' & -> & Hk')|[-> N2]]; try reflexivity.
  - f_equal. apply EQ in Hk. clear - Hk Hk'. destruct k, k'; cbn [classified] in *; try reflexivity; tauto.
  - exfalso. apply (N2 k). now apply EQ.
  - exfalso. apply (N1 k'). now apply EQ.
Qed.
End C92.
