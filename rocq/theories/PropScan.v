(** The clauses of a line by one pass over its tokens (C81), with concrete cases. *)

From Verif Require Export PropGrown PropSeam ThmScan.

Local Open Scope string_scope.
Local Open Scope list_scope.

(** ** C81 Clauses by one pass *)
Theorem C81_marks {UC : Unicode} {U : UserTypes} :
  forall r toks, exists! ms, Forall2 (marked r) toks ms.
Proof. exact thm_C81_marks. Qed.
Theorem C81_scan {UC : Unicode} {U : UserTypes} :
  forall tg sz input l r id id' ms,
    Forall wf_input input -> none_of TKeyword input -> none_of TTextTag input -> none_of TClause input ->
    create_line_from_input_tokens tg input sz = Ok l ->
    Forall2 (marked r) (ll_tokens l) ms ->
    clauses_reported id id' r l (map (clause_row (ll_tokens l)) (scanned ms)).
Proof. exact thm_C81_scan. Qed.
Theorem C81_parts {UC : Unicode} {U : UserTypes} :
  forall tg sz i1 i2 l l1 l2 r id id' ms1 ms2 before,
    Forall wf_input i1 -> Forall wf_input i2 ->
    none_of TKeyword (i1 ++ i2) -> none_of TTextTag (i1 ++ i2) -> none_of TClause (i1 ++ i2) ->
    create_line_from_input_tokens tg (i1 ++ i2) sz = Ok l ->
    create_line_from_input_tokens tg i1 sz = Ok l1 -> create_line_from_input_tokens tg i2 sz = Ok l2 ->
    Forall2 (marked r) (ll_tokens l1) ms1 -> Forall2 (marked r) (ll_tokens l2) ms2 ->
    cut_at_seam ms1 ms2 before ->
    let sole := Nat.eqb (length (cut None 0 [] ms1) + length (cut before 0 [] ms2)) 1 in
    let first := kinded sole false (cut None 0 [] ms1) in
    let second := kinded sole (existsb is_condition (map snd first)) (cut before 0 [] ms2) in
    clauses_reported id id' r l
      (map (clause_row (ll_tokens l1)) first ++ map (moved_row (length (ll_tokens l1))) (map (clause_row (ll_tokens l2)) second)).
Proof. exact thm_C81_parts. Qed.
(** "If it rains then" and " pay, or go!": the keyword that ends the first part makes the first clause of
    the second a trailing effect. *)
Definition in81l : list InputToken := [InText (of_string "If it rains then") []].
Definition in81r : list InputToken := [InText (of_string " pay, or go!") []].
Definition line81 : LLLine := Eval vm_compute in get_line (create_line_from_input_tokens tg64 (in81l ++ in81r) len68).
Definition line81l : LLLine := Eval vm_compute in get_line (create_line_from_input_tokens tg64 in81l len68).
Definition line81r : LLLine := Eval vm_compute in get_line (create_line_from_input_tokens tg64 in81r len68).
Definition marks81l : list Mark := [MKey KConditionStart; MBlank; MOther; MBlank; MOther; MBlank; MKey KThen].
Definition marks81r : list Mark := [MBlank; MOther; MStop; MBlank; MOther; MBlank; MOther; MStop].
Ltac marks := repeat (apply Forall2_cons; [cbv [marked token]; first [vm_compute; tauto|vm_compute; intuition discriminate|split; [intros [] Hk; vm_compute in Hk; intuition discriminate|first [reflexivity|split; discriminate]]]|]); apply Forall2_nil.
Example C81_case :
  Forall wf_input in81l /\ Forall wf_input in81r
  /\ none_of TKeyword (in81l ++ in81r) /\ none_of TTextTag (in81l ++ in81r) /\ none_of TClause (in81l ++ in81r)
  /\ create_line_from_input_tokens tg64 (in81l ++ in81r) len68 = Ok line81
  /\ create_line_from_input_tokens tg64 in81l len68 = Ok line81l
  /\ create_line_from_input_tokens tg64 in81r len68 = Ok line81r
  /\ Forall2 (marked words) (ll_tokens line81l) marks81l /\ Forall2 (marked words) (ll_tokens line81r) marks81r
  /\ cut_at_seam marks81l marks81r (Some KThen)
  /\ scanned marks81l = [((2, 4), Condition)]
  /\ scanned marks81r = [((1, 1), LeadingEffect); ((4, 6), LeadingEffect)]
  /\ scanned (marks81l ++ marks81r) = [((2, 4), Condition); ((8, 8), TrailingEffect); ((11, 13), TrailingEffect)]
  /\ clauses_reported 1 2 words line81
       [((2, 4), of_string "it rains", [Condition]); ((8, 8), of_string "pay", [TrailingEffect]); ((11, 13), of_string "or go", [TrailingEffect])].
Proof.
  split; [wf_inputs|]. split; [wf_inputs|]. do 3 (split; [intros it a [<-|[<-|[]]] []|]).
  do 3 (split; [fact|]). split; [marks|]. split; [marks|]. split; [left; eexists (removelast marks81l), _; split; reflexivity|].
  do 3 (split; [vm_compute; reflexivity|]).
  eexists _, _; (split; [vm_compute; reflexivity|]); (split; [vm_compute; reflexivity|]); vm_compute; reflexivity.
Qed.
