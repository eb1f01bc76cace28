(** Numbers as they are written (C79), with concrete cases. *)

From Verif Require Export PropEntry ThmWritten.

Local Open Scope string_scope.
Local Open Scope list_scope.

(** ** C79 Written numbers are read back *)
Theorem C79_within {UC : Unicode} {U : UserTypes} :
  forall tg sz input l parse r id l' w k,
    Forall wf_input input -> none_of TTextTag input -> none_of TChar input -> none_of TAmount input ->
    create_line_from_input_tokens tg input sz = Ok l -> no_digit_signs r ->
    run id l (amount_go parse r) = Ok l' ->
    well_written r w -> texts_at (ll_tokens l) k (parts_of r w) -> starts_apart (ll_tokens l) r k ->
    (fraction w = None -> ends_apart (ll_tokens l) r (k + length (parts_of r w) - 1)) ->
    exists rows d text, query l' TAmount = Ok rows
      /\ In ((k, k + length (parts_of r w) - 1), concat (parts_of r w), [d]) rows /\ parse text = Some d
      /\ ((fraction w = None /\ sign_after (ll_tokens l) r (k + length (parts_of r w) - 1) /\ text = denoted w ++ point)
          \/ (~ (fraction w = None /\ sign_after (ll_tokens l) r (k + length (parts_of r w) - 1)) /\ text = denoted w)).
Proof. exact thm_C79_within. Qed.
Theorem C79_alone {UC : Unicode} {U : UserTypes} :
  forall tg sz l parse r id w d ats,
    well_written r w -> no_digit_signs r -> Forall (fun c => u_alphabetic c = false) (signs r) ->
    cut_between (parts_of r w) (u_words (concat (parts_of r w))) ->
    Forall wf_attribute ats ->
    (forall t, In t [TTextTag; TChar; TAmount] -> none_of t [InText (concat (parts_of r w)) ats]) ->
    create_line_from_input_tokens tg [InText (concat (parts_of r w)) ats] sz = Ok l ->
    parse (denoted w) = Some d ->
    token_texts l = parts_of r w
    /\ exists l', run id l (amount_go parse r) = Ok l'
       /\ query l' TAmount = Ok [((0, length (parts_of r w) - 1), concat (parts_of r w), [d])].
Proof. exact thm_C79_alone. Qed.
(** "pay 1,234,567.89 or 1'000. No 7": two numbers in groups, the second at the end of a sentence. *)
Definition in79 : list InputToken := [InText (of_string "pay 1,234,567.89 or 1'000.") []; InText (of_string " No 7") []].
Definition line79 : LLLine := Eval vm_compute in get_line (create_line_from_input_tokens tg64 in79 len68).
Definition number79 : Written := mkWritten (of_string "1") [(44%N, of_string "234"); (44%N, of_string "567")] (Some (of_string "89")).
Definition number79b : Written := mkWritten (of_string "1") [(39%N, of_string "000")] None.
Ltac not_digits79 := let s := fresh in let H := fresh in let C := fresh in
  intros (s & H & [_ C]); not_at H; repeat match goal with X : Forall _ (_ :: _) |- _ => inversion X; clear X; subst end; discriminate.
Example C79_case_within :
  Forall wf_input in79 /\ none_of TTextTag in79 /\ none_of TChar in79 /\ none_of TAmount in79
  /\ create_line_from_input_tokens tg64 in79 len68 = Ok line79 /\ no_digit_signs amount_english
  /\ (well_written amount_english number79 /\ texts_at (ll_tokens line79) 2 (parts_of amount_english number79)
      /\ starts_apart (ll_tokens line79) amount_english 2)
  /\ (well_written amount_english number79b /\ texts_at (ll_tokens line79) 12 (parts_of amount_english number79b)
      /\ starts_apart (ll_tokens line79) amount_english 12
      /\ ends_apart (ll_tokens line79) amount_english 14 /\ sign_after (ll_tokens line79) amount_english 14)
  /\ exists l', run 3 line79 (amount_go parse_decimal amount_english) = Ok l'
     /\ query l' TAmount = Ok [((2, 8), of_string "1,234,567.89", [mkDecimal 123456789 2]);
          ((12, 14), of_string "1'000", [mkDecimal 1000 0]); ((19, 19), of_string "7", [mkDecimal 7 0])]
     /\ parse_decimal (denoted number79) = Some (mkDecimal 123456789 2)
     /\ parse_decimal (denoted number79b ++ point) = Some (mkDecimal 1000 0).
Proof.
  assert (HT : forall toks k texts, length texts <= 7 ->
     (forall i, i < 7 -> match nth_error texts i with Some s => text_at toks (k + i) s | None => True end) -> texts_at toks k texts).
  { intros toks k texts HL H i s E. assert (i < 7) by (assert (i < length texts) by (apply nth_error_Some; congruence); lia).
    specialize (H i ltac:(assumption)). now rewrite E in H. }
  split; [wf_inputs|]. do 3 (split; [intros it a [<-|[<-|[]]] []|]). split; [fact|]. split; [repeat constructor|].
  split; [|split].
  - split; [|split].
    + split; [split; [discriminate|repeat constructor]|]. split.
      * repeat constructor; try discriminate.
      * split; [split; [discriminate|repeat constructor]|]. cbn. intros [C|[C|[]]]; discriminate.
    + apply HT; [vm_compute; lia|]. intros i Hi. do 7 (destruct i as [|i]; [at_fact|]). lia.
    + split; intros j Hj.
      * assert (j = 1) by lia. subst. not_digits79.
      * assert (j = 0) by lia. subst. intros [H _]. revert H. not_digits79.
  - split; [|split; [|split; [|split]]].
    + split; [split; [discriminate|repeat constructor]|]. split; [|exact I].
      constructor; [|constructor]. split; [right; now left|]. split; [discriminate|repeat constructor].
    + apply HT; [vm_compute; lia|]. intros i Hi. do 3 (destruct i as [|i]; [at_fact|]). do 4 (destruct i as [|i]; [exact I|]). lia.
    + split; intros j Hj.
      * assert (j = 11) by lia. subst. not_digits79.
      * assert (j = 10) by lia. subst. intros [H _]. revert H. not_digits79.
    + split; [not_digits79|]. intros [_ H]. revert H. not_digits79.
    + split; [exists 46%N; split; [at_fact|now left]|]. intros (c & H & Hc). not_at H. destruct Hc as [C|[C|[]]]; discriminate.
  - eexists. split; [vm_compute; reflexivity|]. split; [vm_compute; reflexivity|]. split; vm_compute; reflexivity.
Qed.
(** "1,234,567.89" is a single segment, "12 345.6" with spaces as delimiters is three. *)
Definition spaced79 : AmountResolver := mkAmountResolver [32%N] 46%N.
Definition number79c : Written := mkWritten (of_string "12") [(32%N, of_string "345")] (Some (of_string "6")).
Example C79_case_alone :
  (well_written amount_english number79 /\ no_digit_signs amount_english
   /\ Forall (fun c => u_alphabetic c = false) (signs amount_english)
   /\ cut_between (parts_of amount_english number79) (u_words (concat (parts_of amount_english number79)))
   /\ length (u_words (concat (parts_of amount_english number79))) = 1)
  /\ (well_written spaced79 number79c /\ no_digit_signs spaced79
      /\ Forall (fun c => u_alphabetic c = false) (signs spaced79)
      /\ cut_between (parts_of spaced79 number79c) (u_words (concat (parts_of spaced79 number79c)))
      /\ length (u_words (concat (parts_of spaced79 number79c))) = 3
      /\ exists l l', create_line_from_input_tokens tg64 [InText (of_string "12 345.6") []] len68 = Ok l
         /\ run 3 l (amount_go parse_decimal spaced79) = Ok l'
         /\ query l' TAmount = Ok [((0, 4), of_string "12 345.6", [mkDecimal 123456 1])]).
Proof.
  split.
  - split; [|split; [repeat constructor|split; [repeat constructor|split; [|vm_compute; reflexivity]]]].
    + split; [split; [discriminate|repeat constructor]|]. split.
      * repeat constructor; try discriminate.
      * split; [split; [discriminate|repeat constructor]|]. cbn. intros [C|[C|[]]]; discriminate.
    + exists [parts_of amount_english number79]. split; [reflexivity|]. split; [vm_compute; reflexivity|].
      constructor; [|constructor]. left. eexists _, _. split; [reflexivity|]. split; [discriminate|repeat constructor].
  - split; [|split; [repeat constructor|split; [repeat constructor|split; [|split; [vm_compute; reflexivity|]]]]].
    + split; [split; [discriminate|repeat constructor]|]. split.
      * repeat constructor; try discriminate.
      * split; [split; [discriminate|repeat constructor]|]. cbn. intros [C|[]]; discriminate.
    + exists [[of_string "12"]; [[32%N]]; [of_string "345"; [46%N]; of_string "6"]]. split; [reflexivity|]. split; [vm_compute; reflexivity|].
      constructor; [left; eexists _, _; split; [reflexivity|split; [discriminate|repeat constructor]]|].
      constructor; [right; now eexists|].
      constructor; [left; eexists _, _; split; [reflexivity|split; [discriminate|repeat constructor]]|constructor].
    + eexists _, _. split; [vm_compute; reflexivity|]. split; vm_compute; reflexivity.
Qed.
