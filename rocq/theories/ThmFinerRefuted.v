(** C99: where more delimiters do more than put amounts together. *)

From Verif Require Export ThmFiner ThmRefuted.

Local Open Scope string_scope.
Local Open Scope list_scope.

Definition in99 : list InputToken := [InText (of_string "1.2") []; InText (of_string "3,4") []].
Definition line99 : LLLine := Eval vm_compute in get no_line (create_line_from_input_tokens tg64 in99 str_len).
Definition comma99 : AmountResolver := mkAmountResolver [44%N] 46%N.
Definition both99 : AmountResolver := mkAmountResolver [44%N; 46%N] 46%N.

(** C99: if the decimal sign becomes a delimiter, an amount can be torn apart ("1.2" and "3,4" in two
    text tokens: "3,4" was an amount, and then it is not within any). *)
Lemma thm_C99_point_refuted :
  exists input l r r' l1 l2 rows rows' x,
    Forall wf_input input /\ create_line_from_input_tokens tg64 input str_len = Ok l
    /\ decimal r' = decimal r /\ incl (delimiters r) (delimiters r') /\ no_digit_signs r /\ no_digit_signs r'
    /\ run 1 l (amount_go parse_decimal r) = Ok l1 /\ run 1 l (amount_go parse_decimal r') = Ok l2
    /\ query l1 TAmount = Ok rows /\ query l2 TAmount = Ok rows' /\ In x rows /\ forall x', In x' rows' -> ~ lies_in x x'.
Proof.
  exists in99, line99, comma99, both99. do 4 eexists. exists ((3, 5), of_string "3,4", [mkDecimal 34 0]).
  split; [repeat constructor|]. split; [vm_compute; reflexivity|]. split; [reflexivity|]. split; [intros c [<-|[]]; now left|].
  split; [repeat constructor|]. split; [repeat constructor|]. split; [vm_compute; reflexivity|]. split; [vm_compute; reflexivity|]. split; [vm_compute; reflexivity|]. split; [vm_compute; reflexivity|].
  split; [right; left; vm_compute; reflexivity|]. intros x' [<-|[<-|[]]] [A B]; vm_compute in A, B; lia.
Qed.
