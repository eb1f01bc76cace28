(** The amounts of an ASCII text, read character by character (C90), with concrete cases. *)

From Verif Require Export PropAscii PropPass ThmChars.

Local Open Scope string_scope.
Local Open Scope list_scope.

(** ** C90 Amounts of ASCII text *)
Theorem C90_amounts {UC : Unicode} {U : UserTypes} :
  forall (SL : SegmenterLaws) colon (AL : AsciiLaws colon) tg sz s ats l parse r id,
    ascii s -> digits_apart s -> no_digit_signs r -> plain_decimal r -> Forall wf_attribute ats ->
    (forall t, In t [TTextTag; TChar; TAmount] -> none_of t [InText s ats]) ->
    create_line_from_input_tokens tg [InText s ats] sz = Ok l ->
    (forall ds, all_parsed parse (numbers_in r s) ds ->
       exists l' rows, run id l (amount_go parse r) = Ok l' /\ query l' TAmount = Ok rows
         /\ Forall2 (row_for l) (combine (numbers_in r s) ds) rows)
    /\ ((exists x, In x (numbers_in r s) /\ parse (snd x) = None) -> exists p, run id l (amount_go parse r) = Panic p).
Proof. exact thm_C90_amounts. Qed.
Theorem C90_written {UC : Unicode} {U : UserTypes} :
  forall (SL : SegmenterLaws) colon (AL : AsciiLaws colon) tg sz s ats l parse r id l',
    ascii s -> digits_apart s -> no_digit_signs r -> plain_decimal r -> Forall wf_attribute ats ->
    (forall t, In t [TTextTag; TChar; TAmount] -> none_of t [InText s ats]) ->
    create_line_from_input_tokens tg [InText s ats] sz = Ok l ->
    run id l (amount_go parse r) = Ok l' ->
    exists rows, query l' TAmount = Ok rows
      /\ (forall i j text ds, In ((i, j), text, ds) rows ->
            let b := concat (firstn i (token_texts l)) in let a := concat (skipn (S j) (token_texts l)) in
            s = b ++ text ++ a /\ ~ ends_in b ascii_digit /\ ~ starts_in a ascii_digit
            /\ exists w d, well_written r w /\ text = concat (SpecWritten.parts_of r w) /\ ds = [d]
                 /\ (parse (denoted w) = Some d
                     \/ (fraction w = None /\ starts_in a (is (decimal r)) /\ parse (denoted w ++ point) = Some d)))
      /\ (forall p c q, s = p ++ c :: q -> ascii_digit c ->
            exists i j t1 t2 ds, In ((i, j), t1 ++ c :: t2, ds) rows /\ p = concat (firstn i (token_texts l)) ++ t1).
Proof. exact thm_C90_written. Qed.
Fixpoint apart_b (s : str) : bool :=
  match s with
  | x :: (y :: _) as s' => negb (digitb y && (letterb x || N.eqb x 95)) && apart_b s'
  | _ => true
  end.
Lemma apart_b_ok s : apart_b s = true -> digits_apart s.
Proof.
  intros H b x y a E Hy. subst s. induction b as [|c b IH].
  - cbn [app apart_b] in H. apply andb_true_iff in H. destruct H as [H _]. apply digitb_iff in Hy. rewrite Hy in H. cbn [andb] in H.
    apply negb_true_iff, orb_false_iff in H. destruct H as [H1 H2]. split; [intros C; apply letterb_iff in C; congruence|now apply N.eqb_neq].
  - apply IH. cbn [app apart_b] in H. destruct (b ++ x :: y :: a) as [|d t] eqn:E; [now destruct b|]. now apply andb_true_iff in H.
Qed.
Lemma plain_english : plain_decimal amount_english.
Proof. right. cbn. unfold ascii_letter, ascii_space. split; [lia|cbn [In]; lia]. Qed.

(** Groups, a fraction, a delimiter and a point that belong to no number, and a second point. *)
Definition text90 : str := of_string "Can't pay 1,500.25: 12, 7. or -1.5.6".
Definition found90 : list Found :=
  [(of_string "Can't pay ", of_string "1,500.25", of_string "1500.25");
   (of_string "Can't pay 1,500.25: ", of_string "12", of_string "12");
   (of_string "Can't pay 1,500.25: 12, ", of_string "7", of_string "7.");
   (of_string "Can't pay 1,500.25: 12, 7. or -", of_string "1.5", of_string "1.5");
   (of_string "Can't pay 1,500.25: 12, 7. or -1.5.", of_string "6", of_string "6")].
Example C90_case :
  ascii text90 /\ digits_apart text90 /\ no_digit_signs amount_english /\ plain_decimal amount_english
  /\ (forall t, In t [TTextTag; TChar; TAmount] -> none_of t [InText text90 []])
  /\ is_line89 text90
  /\ numbers_in amount_english text90 = found90
  /\ all_parsed parse_decimal found90 [mkDecimal 150025 2; mkDecimal 12 0; mkDecimal 7 0; mkDecimal 15 1; mkDecimal 6 0]
  /\ exists l', run 1 (line89 text90) (amount_go parse_decimal amount_english) = Ok l'
     /\ query l' TAmount = Ok [((4, 8), of_string "1,500.25", [mkDecimal 150025 2]); ((11, 11), of_string "12", [mkDecimal 12 0]);
          ((14, 14), of_string "7", [mkDecimal 7 0]); ((20, 22), of_string "1.5", [mkDecimal 15 1]); ((24, 24), of_string "6", [mkDecimal 6 0])].
Proof.
  split; [apply is_ascii; reflexivity|]. split; [apply apart_b_ok; reflexivity|]. split; [repeat constructor|]. split; [exact plain_english|].
  split; [intros t _ it a [<-|[]] []|]. split; [vm_compute; reflexivity|]. split; [vm_compute; reflexivity|]. split; [repeat constructor|].
  eexists. split; [vm_compute; reflexivity|]. vm_compute. reflexivity.
Qed.
(** A number that the parser refuses: the run panics. *)
(** A parser for numbers of 96 bits. *)
Definition parse90 (t : str) : option Decimal :=
  match parse_decimal t with Some d => if (dec_coeff d <? 2 ^ 96)%Z then Some d else None | None => None end.
Definition text90p : str := of_string "at 7, or 99,999,999,999,999,999,999,999,999,999,999".
Example C90_refused_case :
  ascii text90p /\ digits_apart text90p /\ is_line89 text90p
  /\ (exists x, In x (numbers_in amount_english text90p) /\ parse90 (snd x) = None)
  /\ exists p, run 1 (line89 text90p) (amount_go parse90 amount_english) = Panic p.
Proof.
  split; [apply is_ascii; reflexivity|]. split; [apply apart_b_ok; reflexivity|]. split; [vm_compute; reflexivity|].
  split; [exists (of_string "at 7, or ", of_string "99,999,999,999,999,999,999,999,999,999,999", of_string "99999999999999999999999999999999"); split; [right; left; vm_compute; reflexivity|vm_compute; reflexivity]|]. eexists. vm_compute. reflexivity.
Qed.
(** A digit after a letter: the digit is in no amount, so the hypothesis is needed. *)
Definition text90a : str := of_string "a1 b2".
Example C90_apart_needed :
  ascii text90a /\ ~ digits_apart text90a /\ is_line89 text90a
  /\ numbers_in amount_english text90a <> []
  /\ exists l', run 1 (line89 text90a) (amount_go parse_decimal amount_english) = Ok l' /\ query l' TAmount = Ok [].
Proof.
  split; [apply is_ascii; reflexivity|].
  split; [intros C; destruct (C [] 97%N 49%N (of_string " b2") eq_refl) as [H _]; [unfold ascii_digit; lia|apply H; unfold ascii_letter; lia]|].
  split; [vm_compute; reflexivity|]. split; [vm_compute; discriminate|].
  eexists. split; [vm_compute; reflexivity|]. vm_compute. reflexivity.
Qed.
