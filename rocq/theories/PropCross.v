(** Matches on joined inputs (C68), with concrete cases. *)

From Verif Require Export PropSlice ThmCross.

Local Open Scope string_scope.
Local Open Scope list_scope.

(** ** C68 Matches on joined inputs *)
Theorem C68_inside {UC : Unicode} {U : UserTypes} :
  forall tg sz i1 i2 l id id1 id2 A (e : mexp A),
    Forall wf_input i1 -> Forall wf_input i2 -> create_line_from_input_tokens tg (i1 ++ i2) sz = Ok l ->
    without_any_of e = true -> (uses_has_any e = true -> text_only l) ->
    exists l1 l2, create_line_from_input_tokens tg i1 sz = Ok l1 /\ create_line_from_input_tokens tg i2 sz = Ok l2
      /\ (ll_tokens l1 <> [] -> ll_tokens l2 <> [] ->
          let n1 := length (ll_tokens l1) in
          let n := length (ll_tokens l) in
          (exists f f1 f2, find_by (whole id l) (matcher_of e) = Ok f
             /\ find_by (whole id1 l1) (matcher_of e) = Ok f1 /\ find_by (whole id2 l2) (matcher_of e) = Ok f2
             /\ Permutation (within 0 n1 (found_pairs f)) (found_pairs f1)
             /\ Permutation (within n1 n (found_pairs f)) (shifted n1 (found_pairs f2)))
          /\ (exists f f1 f2, find_by_forwards_and_backwards (whole id l) (matcher_of e) = Ok f
             /\ find_by_forwards_and_backwards (whole id1 l1) (matcher_of e) = Ok f1
             /\ find_by_forwards_and_backwards (whole id2 l2) (matcher_of e) = Ok f2
             /\ Permutation (within 0 n1 (found_pairs f)) (found_pairs f1)
             /\ Permutation (within n1 n (found_pairs f)) (shifted n1 (found_pairs f2)))).
Proof. exact thm_C68_inside. Qed.
Theorem C68_no_seq {UC : Unicode} {U : UserTypes} :
  forall tg sz i1 i2 l id id1 id2 A (e : mexp A),
    Forall wf_input i1 -> Forall wf_input i2 -> create_line_from_input_tokens tg (i1 ++ i2) sz = Ok l ->
    without_seq e = true -> (uses_has_any e = true -> text_only l) ->
    exists l1 l2, create_line_from_input_tokens tg i1 sz = Ok l1 /\ create_line_from_input_tokens tg i2 sz = Ok l2
      /\ (ll_tokens l1 <> [] -> ll_tokens l2 <> [] ->
          let n1 := length (ll_tokens l1) in
          (exists f f1 f2, find_by (whole id l) (matcher_of e) = Ok f
             /\ find_by (whole id1 l1) (matcher_of e) = Ok f1 /\ find_by (whole id2 l2) (matcher_of e) = Ok f2
             /\ Permutation (found_pairs f) (found_pairs f1 ++ shifted n1 (found_pairs f2)))
          /\ (exists f f1 f2, find_by_forwards_and_backwards (whole id l) (matcher_of e) = Ok f
             /\ find_by_forwards_and_backwards (whole id1 l1) (matcher_of e) = Ok f1
             /\ find_by_forwards_and_backwards (whole id2 l2) (matcher_of e) = Ok f2
             /\ Permutation (found_pairs f) (found_pairs f1 ++ shifted n1 (found_pairs f2)))).
Proof. exact thm_C68_no_seq. Qed.
Theorem C68_any_of_refuted :
  exists (UC : Unicode) tg (sz : str -> N) i1 i2 l l1 A (e : mexp A) f f1,
    Forall wf_input i1 /\ Forall wf_input i2 /\ create_line_from_input_tokens tg (i1 ++ i2) sz = Ok l
    /\ create_line_from_input_tokens tg i1 sz = Ok l1 /\ uses_has_any e = false
    /\ find_by (whole 1 l) (matcher_of e) = Ok f /\ find_by (whole 2 l1) (matcher_of e) = Ok f1
    /\ found_pairs f1 <> [] /\ within 0 (length (ll_tokens l1)) (found_pairs f) = [].
Proof. exact thm_C68_any_of_refuted. Qed.
(** "to pay" and "all now", each with an attribute: the numbers followed by a text are found
    inside the parts, and once more across the seam. *)
Definition in68l : list InputToken := [InText (of_string "to pay") [any_of TNum 1%N]].
Definition in68r : list InputToken := [InText (of_string "all") [any_of TNum 2%N]; InText (of_string " now") []].
Definition len68 (s : str) : N := N.of_nat (length s).
Definition line68 : LLLine := Eval vm_compute in get_line (create_line_from_input_tokens tg64 (in68l ++ in68r) len68).
Definition line68l : LLLine := Eval vm_compute in get_line (create_line_from_input_tokens tg64 in68l len68).
Definition line68r : LLLine := Eval vm_compute in get_line (create_line_from_input_tokens tg64 in68r len68).
Definition e68s : mexp (N * str) := M_seq2 _ _ (M_attr TNum) M_text.
Definition e68o : mexp (AnyOf2 N str) := M_any2 _ _ (M_attr TNum) M_text.
Example C68_case :
  Forall wf_input in68l /\ Forall wf_input in68r
  /\ create_line_from_input_tokens tg64 (in68l ++ in68r) len68 = Ok line68
  /\ create_line_from_input_tokens tg64 in68l len68 = Ok line68l
  /\ create_line_from_input_tokens tg64 in68r len68 = Ok line68r
  /\ ll_tokens line68l <> [] /\ ll_tokens line68r <> []
  /\ without_any_of e68s = true /\ uses_has_any e68s = false /\ without_seq e68o = true /\ uses_has_any e68o = false
  /\ rmap found_pairs (find_by (whole 1 line68) (matcher_of e68s))
     = Ok [((0, 3), (1%N, of_string "all")); ((3, 4), (2%N, of_string " "))]
  /\ rmap found_pairs (find_by (whole 2 line68l) (matcher_of e68s)) = Ok []
  /\ rmap found_pairs (find_by (whole 3 line68r) (matcher_of e68s)) = Ok [((0, 1), (2%N, of_string " "))]
  /\ rmap found_pairs (find_by (whole 1 line68) (matcher_of e68o))
     = Ok [((0, 2), A2_A 1%N); ((1, 1), A2_B (of_string " ")); ((2, 2), A2_B (of_string "pay")); ((3, 3), A2_A 2%N);
           ((4, 4), A2_B (of_string " ")); ((5, 5), A2_B (of_string "now"))]
  /\ rmap found_pairs (find_by (whole 2 line68l) (matcher_of e68o))
     = Ok [((0, 2), A2_A 1%N); ((1, 1), A2_B (of_string " ")); ((2, 2), A2_B (of_string "pay"))]
  /\ rmap found_pairs (find_by (whole 3 line68r) (matcher_of e68o))
     = Ok [((0, 0), A2_A 2%N); ((1, 1), A2_B (of_string " ")); ((2, 2), A2_B (of_string "now"))].
Proof.
  split; [wf_inputs|]. split; [wf_inputs|]. do 3 (split; [fact|]). split; [discriminate|]. split; [discriminate|].
  do 4 (split; [fact|]). do 5 (split; [fact|]). fact.
Qed.
