(** ASCII text read character by character (C89), with concrete cases. *)

From Verif Require Export PropWritten ThmAscii.

Local Open Scope string_scope.
Local Open Scope list_scope.

(** The segmenter and the tables of the examples obey the laws (with the colon). *)
Definition wb_before (b : str) : option wb := match rev b with [] => None | c :: _ => Some (wb_of c) end.
Definition wb_after (a : str) : option wb := match a with [] => None | c :: _ => Some (wb_of c) end.

Lemma below128 (P : char -> bool) : forallb P (map N.of_nat (seq 0 128)) = true -> forall c, (c < 128)%N -> P c = true.
Proof.
  intros H c Hc. rewrite forallb_forall in H. apply H. apply in_map_iff. exists (N.to_nat c). split; [apply N2Nat.id|].
  apply in_seq. lia.
Qed.

Definition wb_eqb (a b : wb) : bool :=
  match a, b with
  | CR, CR | LF, LF | Newline, Newline | WSegSpace, WSegSpace | ALetter, ALetter | Numeric, Numeric
  | MidLetter, MidLetter | MidNum, MidNum | MidNumLetQ, MidNumLetQ | ExtendNumLet, ExtendNumLet | Other, Other => true
  | _, _ => false
  end.
Lemma wb_eqb_eq a b : wb_eqb a b = true <-> a = b.
Proof. split; [destruct a, b; easy|intros ->; now destruct b]. Qed.

Lemma wb_table (c : char) : (c < 128)%N ->
  (wb_of c = CR <-> c = 13%N) /\ (wb_of c = LF <-> c = 10%N) /\ (wb_of c = WSegSpace <-> c = 32%N)
  /\ (wb_of c = ALetter <-> ascii_letter c) /\ (wb_of c = Numeric <-> ascii_digit c)
  /\ (wb_of c = MidLetter \/ wb_of c = MidNumLetQ <-> mid_letter true c)
  /\ (wb_of c = MidNum \/ wb_of c = MidNumLetQ <-> mid_number c)
  /\ (wb_of c = ExtendNumLet <-> c = 95%N).
Proof.
  intros Hc.
  pose proof (below128 (fun c : char => Bool.eqb (wb_eqb (wb_of c) CR) (N.eqb c 13)
    && Bool.eqb (wb_eqb (wb_of c) LF) (N.eqb c 10)
    && Bool.eqb (wb_eqb (wb_of c) WSegSpace) (N.eqb c 32)
    && Bool.eqb (wb_eqb (wb_of c) ALetter) (ExUnicode.between 65 c 90 || ExUnicode.between 97 c 122)
    && Bool.eqb (wb_eqb (wb_of c) Numeric) (ExUnicode.between 48 c 57)
    && Bool.eqb (wb_eqb (wb_of c) MidLetter || wb_eqb (wb_of c) MidNumLetQ) (N.eqb c 46 || N.eqb c 39 || N.eqb c 58)
    && Bool.eqb (wb_eqb (wb_of c) MidNum || wb_eqb (wb_of c) MidNumLetQ) (N.eqb c 44 || N.eqb c 59 || N.eqb c 46 || N.eqb c 39)
    && Bool.eqb (wb_eqb (wb_of c) ExtendNumLet) (N.eqb c 95)) ltac:(vm_compute; reflexivity) c Hc) as H.
  cbv beta in H. rewrite !andb_true_iff in H. destruct H as (((((((H1 & H2) & H3) & H4) & H5) & H6) & H7) & H8).
  apply Bool.eqb_prop in H1, H2, H3, H4, H5, H6, H7, H8. unfold ExUnicode.between, ascii_letter, ascii_digit, mid_letter, mid_number in *. cbn [In].
  rewrite <- !wb_eqb_eq.
  split; [rewrite H1; apply N.eqb_eq|]. split; [rewrite H2; apply N.eqb_eq|]. split; [rewrite H3; apply N.eqb_eq|].
  split; [rewrite H4, orb_true_iff, !andb_true_iff, !N.leb_le; tauto|].
  split; [rewrite H5, andb_true_iff, !N.leb_le; tauto|].
  split; [rewrite <- orb_true_iff, H6, !orb_true_iff, !N.eqb_eq; clear; intuition congruence|].
  split; [rewrite <- orb_true_iff, H7, !orb_true_iff, !N.eqb_eq; clear; intuition congruence|].
  rewrite H8. apply N.eqb_eq.
Qed.

Lemma joined_iff p2 p n n2 : ExUnicode.joined p2 p n n2 = true <->
  (p = CR /\ n = LF) \/ (p = WSegSpace /\ n = WSegSpace) \/ ((p = ALetter \/ p = Numeric) /\ (n = ALetter \/ n = Numeric))
  \/ (p = ALetter /\ (n = MidLetter \/ n = MidNumLetQ) /\ n2 = Some ALetter)
  \/ ((p = MidLetter \/ p = MidNumLetQ) /\ n = ALetter /\ p2 = Some ALetter)
  \/ ((p = MidNum \/ p = MidNumLetQ) /\ n = Numeric /\ p2 = Some Numeric)
  \/ (p = Numeric /\ (n = MidNum \/ n = MidNumLetQ) /\ n2 = Some Numeric)
  \/ (((p = ALetter \/ p = Numeric) \/ p = ExtendNumLet) /\ n = ExtendNumLet)
  \/ (p = ExtendNumLet /\ (n = ALetter \/ n = Numeric)).
Proof.
  split.
  - destruct p, n; cbn [ExUnicode.joined]; intros H; try discriminate H; try (destruct p2 as [[]|]; discriminate H); try (destruct n2 as [[]|]; discriminate H); try tauto.
    all: try (destruct p2 as [[]|]; try discriminate H); try (destruct n2 as [[]|]; try discriminate H); tauto.
  - intros [[-> ->]|[[-> ->]|[[[->| ->] [->| ->]]|[(-> & [->| ->] & ->)|[([->| ->] & -> & ->)|[([->| ->] & -> & ->)|[(-> & [->| ->] & ->)|[([[->| ->]| ->] & ->)|[-> [->| ->]]]]]]]]]]; reflexivity.
Qed.

Lemma wb_before_last p c : wb_before (p ++ [c]) = Some (wb_of c).
Proof. unfold wb_before. now rewrite rev_app_distr. Qed.

Lemma wb_before_iff b k (P : char -> Prop) : ascii b -> (forall c, (c < 128)%N -> (wb_of c = k <-> P c)) -> (wb_before b = Some k <-> ends_in b P).
Proof.
  intros HA HK. split.
  - intros H. destruct b as [|c0 b0]; [discriminate|]. assert (N : c0 :: b0 <> []) by discriminate. destruct (exists_last N) as (p & c & E). rewrite E in *.
    rewrite wb_before_last in H. injection H as H. exists p, c. split; [reflexivity|]. apply HK; [|exact H]. unfold ascii in HA. rewrite Forall_forall in HA. apply HA, in_or_app. right. now left.
  - intros (p & c & -> & Hc). rewrite wb_before_last. f_equal. apply HK; [|exact Hc]. unfold ascii in HA. rewrite Forall_forall in HA. apply HA, in_or_app. right. now left.
Qed.

Lemma wb_after_iff a k (P : char -> Prop) : ascii a -> (forall c, (c < 128)%N -> (wb_of c = k <-> P c)) -> (wb_after a = Some k <-> starts_in a P).
Proof.
  intros HA HK. destruct a as [|c a]; [split; [discriminate|intros (? & ? & C & _); discriminate]|]. unfold ascii in HA. inversion HA as [|? ? Hc _]; subst. cbn [wb_after]. split.
  - intros H. injection H as H. exists c, a. split; [reflexivity|]. now apply HK.
  - intros (c' & a' & E & H). injection E as <- <-. f_equal. now apply HK.
Qed.

Lemma joined_ub b p n q : ascii b -> (p < 128)%N -> (n < 128)%N -> ascii q ->
  (ExUnicode.joined (wb_before b) (wb_of p) (wb_of n) (wb_after q) = true <-> ub true b p n q).
Proof.
  intros Hb Hp Hn Hq. rewrite joined_iff. unfold ub, alnum.
  assert (TL : forall c, (c < 128)%N -> (wb_of c = ALetter <-> ascii_letter c)) by (intros c Hc; apply (wb_table c Hc)).
  assert (TD : forall c, (c < 128)%N -> (wb_of c = Numeric <-> ascii_digit c)) by (intros c Hc; apply (wb_table c Hc)).
  rewrite (wb_before_iff b ALetter ascii_letter Hb TL), (wb_before_iff b Numeric ascii_digit Hb TD),
    (wb_after_iff q ALetter ascii_letter Hq TL), (wb_after_iff q Numeric ascii_digit Hq TD).
  destruct (wb_table p Hp) as (P1 & P2 & P3 & P4 & P5 & P6 & P7 & P8). destruct (wb_table n Hn) as (N1 & N2 & N3 & N4 & N5 & N6 & N7 & N8).
  rewrite P1, P3, P4, P5, P6, P7, P8, N2, N3, N4, N5, N6, N7, N8. clear. tauto.
Qed.

Lemma latin_cuts : forall rest p b, ascii b -> (p < 128)%N -> ascii rest ->
  (forall x y, latin_words_from (wb_before b) p rest = x ++ y -> x = [] \/ y = [] \/ ~ unbroken true (b ++ concat x) (concat y))
  /\ (forall x w1 w2 y, latin_words_from (wb_before b) p rest = x ++ (w1 ++ w2) :: y -> w1 <> [] -> w2 <> [] ->
        unbroken true (b ++ concat x ++ w1) (w2 ++ concat y)).
Proof.
  induction rest as [|n rest IH]; intros p b Hb Hp Hr.
  - cbn [latin_words_from]. split.
    + intros [|w x] y E; [now left|]. injection E as <- E. destruct x; [|discriminate]. right. left. symmetry. exact E.
    + intros [|w x] w1 w2 y E H1 H2; [|injection E as _ E; destruct x; discriminate]. injection E as E _.
      destruct w1 as [|c w1]; [easy|]. injection E as _ E. symmetry in E. apply app_eq_nil in E. tauto.
  - unfold ascii in Hr. inversion Hr as [|? ? Hn Hr']; subst.
    assert (Hb' : ascii (b ++ [p])) by (apply Forall_app; split; [exact Hb|constructor; [exact Hp|constructor]]).
    specialize (IH n (b ++ [p]) Hb' Hn Hr'). rewrite wb_before_last in IH. destruct IH as [IH1 IH2].
    destruct (latin_words_ok rest (Some (wb_of p)) n) as (EW & NW & FW).
    pose proof (joined_ub b p n rest Hb Hp Hn Hr') as HJ. rewrite <- unbroken_ub in HJ.
    cbn [latin_words_from]. fold (wb_after rest). set (ws := latin_words_from (Some (wb_of p)) n rest) in *.
    destruct (ExUnicode.joined (wb_before b) (wb_of p) (wb_of n) (wb_after rest)).
    + assert (HU : unbroken true (b ++ [p]) (n :: rest)) by now apply HJ. destruct ws as [|w ws']; [easy|]. split.
      * intros [|w' x] y E; [now left|]. injection E as <- E. right. specialize (IH1 (w :: x) y). cbn [app] in IH1. rewrite E in IH1.
        destruct (IH1 eq_refl) as [C|[C|C]]; [discriminate|now left|right]. cbn [concat] in *. now rewrite <- app_assoc in C.
      * intros [|w' x] w1 w2 y E H1 H2.
        -- injection E as E ->. cbn [concat app]. destruct w1 as [|c w1]; [easy|]. injection E as <- E. destruct w1 as [|c w1].
           ++ cbn [app] in E. rewrite <- E. cbn [concat] in EW. now rewrite EW.
           ++ specialize (IH2 [] (c :: w1) w2 y). cbn [app concat] in IH2. rewrite E in IH2.
              specialize (IH2 eq_refl ltac:(discriminate) H2). now rewrite <- app_assoc in IH2.
        -- injection E as <- E. specialize (IH2 (w :: x) w1 w2 y). cbn [app] in IH2. rewrite E in IH2. specialize (IH2 eq_refl H1 H2).
           cbn [concat app] in *. now rewrite <- app_assoc in IH2.
    + assert (HU : ~ unbroken true (b ++ [p]) (n :: rest)) by (intros C; apply HJ in C; discriminate). split.
      * intros [|w' x] y E; [now left|]. injection E as <- E. right. destruct x as [|w x].
        -- right. cbn [concat app] in *. rewrite <- E, EW. exact HU.
        -- destruct (IH1 (w :: x) y E) as [C|[C|C]]; [discriminate|now left|right]. cbn [concat app] in *. now rewrite <- app_assoc in C.
      * intros [|w' x] w1 w2 y E H1 H2.
        -- injection E as E _. destruct w1 as [|c w1]; [easy|]. injection E as _ E. symmetry in E. apply app_eq_nil in E. tauto.
        -- injection E as <- E. specialize (IH2 x w1 w2 y E H1 H2). cbn [concat app] in *. now rewrite <- app_assoc in IH2.
Qed.

Lemma latin_ascii : AsciiLaws true.
Proof.
  constructor.
  - intros [|p rest] x y HA E.
    + left. cbn in E. symmetry in E. apply app_eq_nil in E. now destruct E as [-> _].
    + unfold ascii in HA. inversion HA as [|? ? Hp Hr]; subst. destruct (latin_cuts rest p [] (Forall_nil _) Hp Hr) as [H _].
      destruct (H x y E) as [->|[->|C]]; [left; reflexivity|right; left; reflexivity|right; right; exact C].
  - intros [|p rest] x w1 w2 y HA E H1 H2.
    + cbn in E. destruct x; discriminate.
    + unfold ascii in HA. inversion HA as [|? ? Hp Hr]; subst. destruct (latin_cuts rest p [] (Forall_nil _) Hp Hr) as [_ H].
      apply (H x w1 w2 y E H1 H2).
  - intros c Hc. destruct (wb_table c Hc) as (_ & _ & _ & H & _). rewrite <- H. change (latin_alphabetic c = true <-> wb_of c = ALetter).
    pose proof (below128 (fun c => Bool.eqb (wb_eqb (wb_of c) ALetter) (latin_alphabetic c)) ltac:(vm_compute; reflexivity) c Hc) as K.
    apply Bool.eqb_prop in K. now rewrite <- wb_eqb_eq, K.
  - intros c Hc. change (latin_whitespace c = true <-> ascii_space c). unfold latin_whitespace, ExUnicode.between, ascii_space. cbn [In].
    rewrite !orb_true_iff, !andb_true_iff, !N.leb_le, !N.eqb_eq. lia.
Qed.
#[local] Hint Resolve latin_ascii : cases.

Lemma is_ascii s : forallb (fun c => (c <? 128)%N) s = true -> ascii s.
Proof. intros H. apply Forall_forall. intros c Hc. rewrite forallb_forall in H. apply N.ltb_lt. now apply H. Qed.

(** The line of a text, and its tokens. *)
Definition line89 (s : str) : LLLine := line_from [InText s []].
Definition is_line89 (s : str) : Prop := create_line_from_input_tokens tg64 [InText s []] str_len = Ok (line89 s).
Ltac nth_token k :=
  match goal with |- token_at ?l _ _ _ _ =>
    let ts := constr:(map token (ll_tokens l)) in
    exists (firstn k ts), (skipn (S k) ts); split; [vm_compute; reflexivity|split; vm_compute; reflexivity]
  end.
Ltac last_is_not := let p := fresh in let c := fresh in let E := fresh in let H := fresh in
  intros (p & c & E & H); first [destruct p; discriminate E | apply (f_equal (@rev N)) in E; rewrite rev_app_distr in E; cbn in E; injection E as E _;
    subst; unfold is, ascii_letter, ascii_digit in H; try discriminate H; lia].
Ltac first_is_not := let p := fresh in let c := fresh in let E := fresh in let H := fresh in
  intros (c & p & E & H); first [discriminate E | cbn in E; injection E as E _;
    subst; unfold is, ascii_letter, ascii_digit in H; try discriminate H; lia].

Theorem C89_accepted {UC : Unicode} {U : UserTypes} :
  forall (SL : SegmenterLaws) tg s, ascii s -> s <> [] ->
    overflow_checks tg = false \/ (N.of_nat (length s) < 2 ^ usize_bits tg)%N ->
    exists l, create_line_from_string tg s = Ok l.
Proof. exact thm_C89_accepted. Qed.
Definition text89 : str := of_string "Can't pay 1,500.25: e.g. U.S. dollars".
Example C89_case_accepted :
  ascii text89 /\ text89 <> [] /\ (N.of_nat (length text89) < 2 ^ usize_bits tg64)%N.
Proof. split; [apply is_ascii; reflexivity|]. split; [discriminate|vm_compute; reflexivity]. Qed.


Theorem C89_spaces {UC : Unicode} {U : UserTypes} :
  forall (SL : SegmenterLaws) colon (AL : AsciiLaws colon) tg sz s ats l b t a,
    ascii s -> Forall wf_attribute ats -> create_line_from_input_tokens tg [InText s ats] sz = Ok l ->
    (token_at l b t SPACE a <-> b ++ t ++ a = s /\ space_piece b t a).
Proof. exact thm_C89_spaces. Qed.
(** A space, a line end, a tab, two spaces. *)
Definition text89s : str := [97; 32; 13; 10; 9; 32; 32; 98]%N.
Example C89_case_spaces :
  ascii text89s /\ is_line89 text89s
  /\ (space_piece [97; 32]%N [13; 10]%N [9; 32; 32; 98]%N /\ token_at (line89 text89s) [97; 32]%N [13; 10]%N SPACE [9; 32; 32; 98]%N)
  /\ (space_piece [97; 32; 13; 10; 9]%N [32; 32]%N [98]%N /\ token_at (line89 text89s) [97; 32; 13; 10; 9]%N [32; 32]%N SPACE [98]%N)
  /\ ~ space_piece [97; 32; 13; 10; 9]%N [32]%N [32; 98]%N
  /\ ~ space_piece [97; 32; 13]%N [10]%N [9; 32; 32; 98]%N.
Proof.
  split; [apply is_ascii; reflexivity|]. split; [vm_compute; reflexivity|].
  split; [split; [right; left; reflexivity|nth_token 2]|]. split; [split|].
  - left. split; [discriminate|]. split; [repeat constructor|]. split; [last_is_not|first_is_not].
  - nth_token 4.
  - split.
    + intros [(_ & _ & _ & H)|[C|[[C _]|[[C _]|(c & C & Hc)]]]]; try discriminate C.
      * apply H. now exists 32%N, [98%N].
      * injection C as <-. cbn in Hc. intuition discriminate.
    + intros [(_ & H & _)|[C|[[C _]|[[_ H]|(c & C & Hc)]]]]; try discriminate C.
      * inversion H; discriminate.
      * apply H. now exists [97; 32]%N, 13%N.
      * injection C as <-. cbn in Hc. intuition discriminate.
Qed.

Theorem C89_numbers {UC : Unicode} {U : UserTypes} :
  forall (SL : SegmenterLaws) colon (AL : AsciiLaws colon) tg sz s ats l b t a,
    ascii s -> Forall wf_attribute ats -> create_line_from_input_tokens tg [InText s ats] sz = Ok l ->
    (token_at l b t NATN a -> b ++ t ++ a = s /\ number_piece b t a)
    /\ ((forall p x y q, s = p ++ x :: y :: q -> ascii_digit y -> ~ ascii_letter x /\ x <> 95%N) ->
        b ++ t ++ a = s -> number_piece b t a -> token_at l b t NATN a).
Proof. exact thm_C89_numbers. Qed.
(** Digits may be followed by letters; "x5" shows why they may not follow them. *)
Definition text89n : str := of_string "5th of 12-3".
Lemma no_pair (P : char -> char -> bool) s : forallb (fun xy => negb (P (fst xy) (snd xy))) (combine s (tl s)) = true ->
  forall p x y q, s = p ++ x :: y :: q -> P x y = false.
Proof.
  intros H p. revert s H. induction p as [|c p IH]; intros s H x y q ->.
  - cbn in H. apply andb_true_iff in H. destruct H as [H _]. now apply negb_true_iff.
  - refine (IH (p ++ x :: y :: q) _ x y q eq_refl). destruct p; cbn in H |- *; apply andb_true_iff in H; apply H.
Qed.
Definition letterb (c : char) : bool := ExUnicode.between 65 c 90 || ExUnicode.between 97 c 122.
Definition digitb (c : char) : bool := ExUnicode.between 48 c 57.
Lemma letterb_iff c : letterb c = true <-> ascii_letter c.
Proof. unfold letterb, ExUnicode.between, ascii_letter. rewrite orb_true_iff, !andb_true_iff, !N.leb_le. tauto. Qed.
Lemma digitb_iff c : digitb c = true <-> ascii_digit c.
Proof. unfold digitb, ExUnicode.between, ascii_digit. rewrite andb_true_iff, !N.leb_le. tauto. Qed.
Example C89_case_numbers :
  (ascii text89n /\ is_line89 text89n
   /\ (forall p x y q, text89n = p ++ x :: y :: q -> ascii_digit y -> ~ ascii_letter x /\ x <> 95%N)
   /\ (number_piece [] (of_string "5") (of_string "th of 12-3") /\ token_at (line89 text89n) [] (of_string "5") NATN (of_string "th of 12-3"))
   /\ (number_piece (of_string "5th of ") (of_string "12") (of_string "-3") /\ token_at (line89 text89n) (of_string "5th of ") (of_string "12") NATN (of_string "-3")))
  /\ (ascii (of_string "x5") /\ is_line89 (of_string "x5") /\ number_piece (of_string "x") (of_string "5") []
      /\ ~ token_at (line89 (of_string "x5")) (of_string "x") (of_string "5") NATN []).
Proof.
  split.
  - split; [apply is_ascii; reflexivity|]. split; [vm_compute; reflexivity|]. split.
    + intros p x y q E Hy. pose proof (no_pair (fun x y => (letterb x || (x =? 95)%N) && digitb y) text89n ltac:(vm_compute; reflexivity) p x y q E) as H.
      cbv beta in H. apply digitb_iff in Hy. rewrite Hy, andb_true_r in H. apply orb_false_iff in H. destruct H as [H1 H2]. split.
      * intros C. apply letterb_iff in C. congruence.
      * now apply N.eqb_neq.
    + split; (split; [split; [discriminate|]; split; [repeat constructor; discriminate|]; split; [last_is_not|first_is_not]|]).
      * nth_token 0.
      * nth_token 5.
  - split; [apply is_ascii; reflexivity|]. split; [vm_compute; reflexivity|]. split.
    + split; [discriminate|]. split; [repeat constructor; discriminate|]. split; [last_is_not|first_is_not].
    + intros (ts1 & ts2 & E & _ & _). revert E. vm_compute. destruct ts1 as [|? [|? ?]]; discriminate.
Qed.

Theorem C89_plain {UC : Unicode} {U : UserTypes} :
  forall (SL : SegmenterLaws) colon (AL : AsciiLaws colon) tg sz s ats l b t tag a,
    plain_text s -> Forall wf_attribute ats -> create_line_from_input_tokens tg [InText s ats] sz = Ok l ->
    (token_at l b t tag a <-> b ++ t ++ a = s /\ lexeme colon b t tag a).
Proof. exact thm_C89_plain. Qed.
(** The periods of "e.g." and "U.S." join letters, the last one does not; the comma and the
    point of the number are tokens of their own. *)
Lemma plain89 : plain_text text89.
Proof.
  split; [apply is_ascii; reflexivity|]. split.
  - intros H. assert (K : existsb (N.eqb 95) text89 = true) by (apply existsb_exists; exists 95%N; split; [exact H|reflexivity]). vm_compute in K. discriminate.
  - intros b x y a E. split; intros [H1 H2].
    + pose proof (no_pair (fun x y => letterb x && digitb y) text89 ltac:(vm_compute; reflexivity) b x y a E) as H. cbv beta in H.
      apply letterb_iff in H1. apply digitb_iff in H2. now rewrite H1, H2 in H.
    + pose proof (no_pair (fun x y => digitb x && letterb y) text89 ltac:(vm_compute; reflexivity) b x y a E) as H. cbv beta in H.
      apply digitb_iff in H1. apply letterb_iff in H2. now rewrite H1, H2 in H.
Qed.
Example C89_case_plain :
  plain_text text89 /\ is_line89 text89
  /\ token_at (line89 text89) [] (of_string "Can't") WORD (of_string " pay 1,500.25: e.g. U.S. dollars")
  /\ token_at (line89 text89) (of_string "Can't pay 1") (of_string ",") PUNC (of_string "500.25: e.g. U.S. dollars")
  /\ token_at (line89 text89) (of_string "Can't pay 1,") (of_string "500") NATN (of_string ".25: e.g. U.S. dollars")
  /\ token_at (line89 text89) (of_string "Can't pay 1,500.25: ") (of_string "e.g") SYMB (of_string ". U.S. dollars")
  /\ token_at (line89 text89) (of_string "Can't pay 1,500.25: e.g") (of_string ".") PUNC (of_string " U.S. dollars")
  /\ lexeme true [] (of_string "Can't") WORD (of_string " pay 1,500.25: e.g. U.S. dollars")
  /\ lexeme true (of_string "Can't pay 1,500.25: ") (of_string "e.g") SYMB (of_string ". U.S. dollars")
  /\ ~ lexeme true [] (of_string "Can") WORD (of_string "'t pay 1,500.25: e.g. U.S. dollars").
Proof.
  pose proof plain89 as HP. assert (HL : is_line89 text89) by (vm_compute; reflexivity).
  assert (T : forall b t tag a, token_at (line89 text89) b t tag a <-> b ++ t ++ a = text89 /\ lexeme true b t tag a)
    by (intros; now apply (C89_plain latin_segmenter true latin_ascii tg64 str_len text89 [])).
  split; [exact HP|]. split; [exact HL|].
  split; [nth_token 0|]. split; [nth_token 5|]. split; [nth_token 6|]. split; [nth_token 11|]. split; [nth_token 12|].
  split; [apply T; nth_token 0|]. split; [apply T; nth_token 11|].
  intros [(_ & _ & _ & _ & H) _]. apply H. exists 39%N, 116%N. eexists. split; [reflexivity|]. split; [left; now right; left|].
  right. lia.
Qed.

Theorem C89_all {UC : Unicode} {U : UserTypes} :
  forall (SL : SegmenterLaws) colon (AL : AsciiLaws colon) tg sz s ats l b t tag a,
    ascii s -> Forall wf_attribute ats -> create_line_from_input_tokens tg [InText s ats] sz = Ok l ->
    (token_at l b t tag a <-> b ++ t ++ a = s /\ any_lexeme colon b t tag a).
Proof. exact thm_C89_all. Qed.
(** Where letters touch digits: a chunk that starts with a digit is taken apart, one that starts
    with a letter or an underscore is not. *)
Definition text89a : str := of_string "v2 3rd_a 1.5x".
Example C89_case_all :
  ascii text89a /\ is_line89 text89a
  /\ token_at (line89 text89a) [] (of_string "v2") SYMB (of_string " 3rd_a 1.5x")
  /\ token_at (line89 text89a) (of_string "v2 ") (of_string "3") NATN (of_string "rd_a 1.5x")
  /\ token_at (line89 text89a) (of_string "v2 3") (of_string "rd") WORD (of_string "_a 1.5x")
  /\ token_at (line89 text89a) (of_string "v2 3rd") (of_string "_") PUNC (of_string "a 1.5x")
  /\ any_lexeme true (of_string "v2 3") (of_string "rd") WORD (of_string "_a 1.5x")
  /\ any_lexeme true [] (of_string "v2") SYMB (of_string " 3rd_a 1.5x")
  /\ ~ any_lexeme true [] (of_string "v") WORD (of_string "2 3rd_a 1.5x").
Proof.
  assert (HA : ascii text89a) by (apply is_ascii; reflexivity). assert (HL : is_line89 text89a) by (vm_compute; reflexivity).
  assert (T : forall b t tag a, token_at (line89 text89a) b t tag a <-> b ++ t ++ a = text89a /\ any_lexeme true b t tag a)
    by (intros; now apply (C89_all latin_segmenter true latin_ascii tg64 str_len text89a [])).
  split; [exact HA|]. split; [exact HL|].
  split; [nth_token 0|]. split; [nth_token 2|]. split; [nth_token 3|]. split; [nth_token 4|].
  split; [apply T; nth_token 3|]. split; [apply T; nth_token 0|].
  intros H. assert (K : token_at (line89 text89a) [] (of_string "v") WORD (of_string "2 3rd_a 1.5x")) by (apply T; split; [vm_compute; reflexivity|exact H]).
  destruct K as (ts1 & ts2 & E & E1 & _). revert E E1. vm_compute. destruct ts1 as [|? [|? ?]]; [discriminate| |]; intros E; injection E; intros; subst; discriminate.
Qed.

Theorem C89_compounds {UC : Unicode} {U : UserTypes} :
  forall (SL : SegmenterLaws) colon (AL : AsciiLaws colon) tg sz s ats l b t tag a,
    ascii s -> Forall wf_attribute ats -> create_line_from_input_tokens tg [InText s ats] sz = Ok l -> token_at l b t tag a ->
    (In 45%N t -> t = [45%N] /\ tag = SYMB) /\ (ends_in t (is 39%N) -> t = [39%N] /\ tag = PUNC).
Proof. exact thm_C89_compounds. Qed.
(** The documentation's own examples, "baseball-card" and "peoples'". *)
Definition text89c : str := of_string "baseball-card peoples'".
Example C89_case_compounds :
  ascii text89c /\ is_line89 text89c
  /\ token_at (line89 text89c) (of_string "baseball") (of_string "-") SYMB (of_string "card peoples'")
  /\ token_at (line89 text89c) (of_string "baseball-card peoples") (of_string "'") PUNC [].
Proof. split; [apply is_ascii; reflexivity|]. split; [vm_compute; reflexivity|]. split; [nth_token 1|nth_token 5]. Qed.

Theorem C89_written {UC : Unicode} {U : UserTypes} :
  forall (SL : SegmenterLaws) colon (AL : AsciiLaws colon) tg sz ats l parse r id l' w b a,
    ascii (b ++ concat (parts_of r w) ++ a) -> Forall wf_attribute ats ->
    (forall t, In t [TTextTag; TChar; TAmount] -> none_of t [InText (b ++ concat (parts_of r w) ++ a) ats]) ->
    create_line_from_input_tokens tg [InText (b ++ concat (parts_of r w) ++ a) ats] sz = Ok l ->
    well_written r w -> Forall mid_number (signs r) -> blank_before b -> blank_after a ->
    run id l (amount_go parse r) = Ok l' ->
    exists rows d k, query l' TAmount = Ok rows
      /\ In ((k, k + length (parts_of r w) - 1), concat (parts_of r w), [d]) rows /\ parse (denoted w) = Some d
      /\ concat (firstn k (token_texts l)) = b.
Proof. exact thm_C89_written. Qed.
Example C89_case_written :
  let b := of_string "pay " in let a := of_string " now" in
  let s := b ++ concat (parts_of amount_english number79) ++ a in
  s = of_string "pay 1,234,567.89 now" /\ ascii s
  /\ (forall t, In t [TTextTag; TChar; TAmount] -> none_of t [InText s []])
  /\ is_line89 s /\ well_written amount_english number79 /\ Forall mid_number (signs amount_english)
  /\ blank_before b /\ blank_after a
  /\ exists l', run 3 (line89 s) (amount_go parse_decimal amount_english) = Ok l'
     /\ query l' TAmount = Ok [((2, 8), of_string "1,234,567.89", [mkDecimal 123456789 2])].
Proof.
  split; [reflexivity|]. split; [apply is_ascii; reflexivity|]. split; [intros t _ it x [<-|[]] []|]. split; [vm_compute; reflexivity|].
  split.
  { split; [split; [discriminate|repeat constructor]|]. split; [repeat constructor; try discriminate|].
    split; [split; [discriminate|repeat constructor]|]. cbn. intros [C|[C|[]]]; discriminate. }
  split; [repeat constructor; unfold mid_number; cbn; tauto|].
  split; [right; exists (of_string "pay"), 32%N; split; [reflexivity|]; cbn; unfold ascii_space; cbn; tauto|].
  split; [right; exists 32%N, (of_string "now"); split; [reflexivity|]; cbn; unfold ascii_space; cbn; tauto|].
  eexists. split; [vm_compute; reflexivity|]. vm_compute. reflexivity.
Qed.

Theorem C89_determined {UC : Unicode} {U : UserTypes} :
  forall (U0 : UserTypes) (UC1 UC2 : Unicode) (S1 : @SegmenterLaws UC1) (S2 : @SegmenterLaws UC2) colon
         (A1 : @AsciiLaws UC1 colon) (A2 : @AsciiLaws UC2 colon) tg input sz,
    Forall (@ascii_input U0) input ->
    @create_line_from_input_tokens UC1 U0 tg input sz = @create_line_from_input_tokens UC2 U0 tg input sz.
Proof. exact thm_C89_determined. Qed.
(** Another segmenter: text that is not ASCII is a single segment. *)
Definition latin' : Unicode := {|
  u_alphabetic := fun c => (c <? 128)%N && latin_alphabetic c; u_whitespace := latin_whitespace; u_lower := fun s => s; u_width := latin_width;
  u_words := fun s => match s with [] => [] | _ => if forallb (fun c => (c <? 128)%N) s then latin_words s else [s] end |}.
Example C89_case_determined :
  @SegmenterLaws latin' /\ @AsciiLaws latin' true
  /\ @u_words latin' [233; 32; 233]%N <> @u_words latin [233; 32; 233]%N
  /\ Forall (@ascii_input users) [InText text89 []; InCustom 7%N []]
  /\ exists l, @create_line_from_input_tokens latin' users tg64 [InText text89 []; InCustom 7%N []] len68 = Ok l /\ length (ll_tokens l) = 19.
Proof.
  assert (HF : forall s : str, ascii s -> forallb (fun c => (c <? 128)%N) s = true).
  { intros s H. apply forallb_forall. intros c Hc. unfold ascii in H. rewrite Forall_forall in H. apply N.ltb_lt. now apply H. }
  assert (HU : forall s : str, ascii s -> @u_words latin' s = @u_words latin s).
  { intros s H. cbn. rewrite (HF s H). now destruct s. }
  split; [|split; [|split; [|split]]].
  - constructor.
    + intros [|c s]; [reflexivity|]. cbn [u_words latin']. destruct (forallb _ _); [apply (seg_concat latin_segmenter (c :: s))|cbn; now rewrite app_nil_r].
    + intros [|c s] w Hw; [destruct Hw|]. cbn [u_words latin'] in Hw. destruct (forallb _ _); [now apply (seg_nonempty latin_segmenter (c :: s))|].
      destruct Hw as [<-|[]]. discriminate.
  - constructor.
    + intros s x y H. rewrite HU by exact H. now apply (cut_where_allowed true latin_ascii).
    + intros s x w1 w2 y H. rewrite HU by exact H. now apply (cut_wherever_allowed true latin_ascii).
    + intros c Hc. cbn. replace (c <? 128)%N with true by (symmetry; now apply N.ltb_lt). now apply (ascii_alphabetic true latin_ascii).
    + intros c Hc. now apply (ascii_whitespace true latin_ascii).
  - vm_compute. discriminate.
  - constructor; [apply is_ascii; reflexivity|]. constructor; [exact I|constructor].
  - eexists. split; vm_compute; reflexivity.
Qed.
