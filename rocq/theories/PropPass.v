(** The amounts of a line by one pass over its tokens (C82), with concrete cases. *)

From Verif Require Export PropScan ThmPass.

Local Open Scope string_scope.
Local Open Scope list_scope.

(** ** C82 Amounts by one pass *)
Theorem C82_marks {UC : Unicode} {U : UserTypes} :
  forall tg sz input l r,
    Forall wf_input input -> create_line_from_input_tokens tg input sz = Ok l -> exists! ms, number_marks l r ms.
Proof. exact thm_C82_marks. Qed.
Theorem C82_pass {UC : Unicode} {U : UserTypes} :
  forall tg sz input l parse r id ms,
    Forall wf_input input -> none_of TTextTag input -> none_of TChar input -> none_of TAmount input ->
    create_line_from_input_tokens tg input sz = Ok l -> no_digit_signs r -> number_marks l r ms ->
    match whole_pass Idle 0 ms with
    | Some xs =>
      match parsed parse xs with
      | Some out => exists l', run id l (amount_go parse r) = Ok l' /\ query l' TAmount = Ok (map (amount_row (ll_tokens l)) out)
      | None => exists p, run id l (amount_go parse r) = Panic p
      end
    | None => exists p, run id l (amount_go parse r) = Panic p
    end.
Proof. exact thm_C82_pass. Qed.
Theorem C82_parts {UC : Unicode} {U : UserTypes} :
  forall tg sz i1 i2 l l1 l2 parse r id ms1 ms2,
    Forall wf_input i1 -> Forall wf_input i2 ->
    none_of TTextTag (i1 ++ i2) -> none_of TChar (i1 ++ i2) -> none_of TAmount (i1 ++ i2) ->
    create_line_from_input_tokens tg (i1 ++ i2) sz = Ok l ->
    create_line_from_input_tokens tg i1 sz = Ok l1 -> create_line_from_input_tokens tg i2 sz = Ok l2 ->
    no_digit_signs r -> number_marks l1 r ms1 -> number_marks l2 r ms2 ->
    match pass Idle 0 ms1 with
    | Some (done, st) =>
      match whole_pass st (length (ll_tokens l1)) ms2 with
      | Some more =>
        match parsed parse (done ++ more) with
        | Some out => exists l', run id l (amount_go parse r) = Ok l' /\ query l' TAmount = Ok (map (amount_row (ll_tokens l)) out)
        | None => exists p, run id l (amount_go parse r) = Panic p
        end
      | None => exists p, run id l (amount_go parse r) = Panic p
      end
    | None => exists p, run id l (amount_go parse r) = Panic p
    end.
Proof. exact thm_C82_parts. Qed.
(** "pay 1," and "000.50 or 7." with a value token: the first amount goes over the seam, and the second
    has a dangling point. *)
Definition in82l : list InputToken := [InText (of_string "pay 1,") []].
Definition in82r : list InputToken := [InText (of_string "000.50 or 7.") []; InCustom 2%N [any_attribute_new TNum 4%N]].
Definition line82 : LLLine := Eval vm_compute in get_line (create_line_from_input_tokens tg64 (in82l ++ in82r) len68).
Definition line82l : LLLine := Eval vm_compute in get_line (create_line_from_input_tokens tg64 in82l len68).
Definition line82r : LLLine := Eval vm_compute in get_line (create_line_from_input_tokens tg64 in82r len68).
Definition marks82l : list NMark := [NOther; NOther; NNumber (of_string "1"); NDelimiter].
Definition marks82r : list NMark :=
  [NNumber (of_string "000"); NPoint; NNumber (of_string "50"); NOther; NOther; NOther; NNumber (of_string "7"); NPoint; NOther].
Ltac number_marks_by bare_tac :=
  split; [vm_compute; reflexivity|];
  let i := fresh "i" in let m := fresh "m" in let tok := fresh "tok" in intros i m tok;
  repeat (destruct i as [|i]; cbn [nth_error]; [
    let E1 := fresh "E1" in let E2 := fresh "E2" in intros E1 E2; injection E1 as <-; injection E2 as <-; cbv [number_mark token];
    first [bare_tac|split; [reflexivity|reflexivity]|split; [discriminate|eexists; split; [reflexivity|vm_compute; tauto]]
          |split; [discriminate|split; [reflexivity|vm_compute; intuition discriminate]]
          |split; [discriminate|let c := fresh "c" in let E := fresh "E" in intros c E; first [discriminate E|injection E as <-; vm_compute; intuition discriminate]]]|]);
  let E := fresh "E" in intros E; destruct i; discriminate E.
Example C82_case :
  Forall wf_input in82l /\ Forall wf_input in82r
  /\ none_of TTextTag (in82l ++ in82r) /\ none_of TChar (in82l ++ in82r) /\ none_of TAmount (in82l ++ in82r)
  /\ create_line_from_input_tokens tg64 (in82l ++ in82r) len68 = Ok line82
  /\ create_line_from_input_tokens tg64 in82l len68 = Ok line82l
  /\ create_line_from_input_tokens tg64 in82r len68 = Ok line82r
  /\ no_digit_signs amount_english
  /\ number_marks line82l amount_english marks82l /\ number_marks line82r amount_english marks82r
  /\ pass Idle 0 marks82l = Some ([], Delimited 2 2 (of_string "1"))
  /\ whole_pass (Delimited 2 2 (of_string "1")) 4 marks82r = Some [((2, 6), of_string "1000.50"); ((10, 10), of_string "7.")]
  /\ parsed parse_decimal [((2, 6), of_string "1000.50"); ((10, 10), of_string "7.")] = Some [((2, 6), mkDecimal 100050 2); ((10, 10), mkDecimal 7 0)]
  /\ exists l', run 1 line82 (amount_go parse_decimal amount_english) = Ok l'
     /\ query l' TAmount = Ok [((2, 6), of_string "1,000.50", [mkDecimal 100050 2]); ((10, 10), of_string "7", [mkDecimal 7 0])].
Proof.
  split; [wf_inputs|]. split; [wf_inputs|].
  assert (NO : forall t, t = TTextTag \/ t = TChar \/ t = TAmount -> none_of t (in82l ++ in82r)).
  { intros t HN it a [<-|[<-|[<-|[]]]]; [intros []|intros []|]. intros [<-|[]]. destruct HN as [->|[->| ->]]; reflexivity. }
  do 3 (split; [apply NO; tauto|]). do 3 (split; [fact|]). split; [repeat constructor|].
  split; [number_marks_by fail|]. split.
  { number_marks_by ltac:(let HB := fresh "HB" in intros HB; exact (HB TNum _ _ eq_refl (or_introl eq_refl) eq_refl)). }
  do 3 (split; [vm_compute; reflexivity|]).
  eexists. split; [vm_compute; reflexivity|]. vm_compute. reflexivity.
Qed.
(** "1" and a value token without attributes: the pass fails, and so does the run. *)
Example C82_bare_case :
  create_line_from_input_tokens tg64 in44 str_len = Ok line44
  /\ number_marks line44 amount_english [NNumber (of_string "1"); NBare]
  /\ whole_pass Idle 0 [NNumber (of_string "1"); NBare] = None
  /\ exists p, run 5 line44 (amount_go parse_decimal amount_english) = Panic p.
Proof.
  split; [vm_compute; reflexivity|]. split; [|split; [reflexivity|eexists; vm_compute; reflexivity]].
  number_marks_by ltac:(apply (bare_iff line44 lg44);
    [apply (history_from in44); [wf_inputs|vm_compute; reflexivity|vm_compute; reflexivity]
    |repeat constructor|let X := fresh "X" in intros X; vm_compute in X; intuition congruence]).
Qed.
