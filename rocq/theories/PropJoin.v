(** Lines made of several inputs, slices of the source and digit-led segments, each
    with a concrete case: C08, C55, C56. *)

From Verif Require Export PropLayer ThmJoin.

Local Open Scope string_scope.
Local Open Scope list_scope.

(** ** C08 Digit-led segments are cut into maximal runs *)
Theorem C08_runs {UC : Unicode} {U : UserTypes} :
  forall (SL : SegmenterLaws) tg sz i1 text ats i2 l a d w b,
    Forall wf_input (i1 ++ InText text ats :: i2) ->
    create_line_from_input_tokens tg (i1 ++ InText text ats :: i2) sz = Ok l ->
    u_words text = a ++ (d :: w) :: b -> decimal_digit d = true ->
    exists before ps after,
      map token (ll_tokens l) = before ++ map (fun p => LText (fst p) (snd p)) ps ++ after
      /\ concat (map ltext before) = source_text i1 ++ concat a
      /\ concat (map ltext after) = concat b ++ source_text i2
      /\ Forall good_piece ps /\ maximal ps /\ concat (map fst ps) = d :: w.
Proof. exact thm_C08_runs. Qed.
(** The segments 12,3ab and 4 of the second input. *)
Definition in8 : list InputToken :=
  [InCustom 2 [any_of TNum 3%N]; InText (of_string "at 12,3ab or 4") []; InText (of_string "now") []].
Definition line8 : LLLine := Eval vm_compute in line_from in8.
Example C08_runs_case :
  SegmenterLaws /\ Forall wf_input in8 /\ create_line_from_input_tokens tg64 in8 str_len = Ok line8
  /\ u_words (of_string "at 12,3ab or 4")
     = map of_string ["at"; " "] ++ of_string "12,3ab" :: map of_string [" "; "or"; " "; "4"]
  /\ text_of_line line8 = map of_string [""; "at"; " "; "12"; ","; "3"; "ab"; " "; "or"; " "; "4"; "now"].
Proof. conj; try fact. wf_inputs. Qed.

(** ** C55 Lines made of several inputs *)
Theorem C55_join {UC : Unicode} {U : UserTypes} :
  forall tg sz i1 i2 l,
    Forall wf_input i1 -> Forall wf_input i2 ->
    create_line_from_input_tokens tg (i1 ++ i2) sz = Ok l ->
    exists l1 l2,
      create_line_from_input_tokens tg i1 sz = Ok l1 /\ create_line_from_input_tokens tg i2 sz = Ok l2
      /\ ll_tokens l = ll_tokens l1 ++
           map (moved_token (length (ll_tokens l1)) (end_of l1) (2 ^ usize_bits tg)) (ll_tokens l2)
      /\ forall t, exists q q1 q2, query l t = Ok q /\ query l1 t = Ok q1 /\ query l2 t = Ok q2
           /\ Permutation q (q1 ++ map (moved_row (length (ll_tokens l1))) q2)
           /\ (t <> TChar -> t <> TTextTag -> q = q1 ++ map (moved_row (length (ll_tokens l1))) q2).
Proof. exact thm_C55_join. Qed.
Theorem C55_joins {UC : Unicode} {U : UserTypes} :
  forall tg sz i1 i2 l1 l2,
    Forall wf_input i1 -> Forall wf_input i2 ->
    create_line_from_input_tokens tg i1 sz = Ok l1 -> create_line_from_input_tokens tg i2 sz = Ok l2 ->
    ((exists l, create_line_from_input_tokens tg (i1 ++ i2) sz = Ok l) <->
     (overflow_checks tg = false \/ (end_of l1 + end_of l2 < 2 ^ usize_bits tg)%N)).
Proof. exact thm_C55_joins. Qed.
(** The second line cut after its custom token. *)
Definition line2l : LLLine := Eval vm_compute in line_from (firstn 2 in2).
Definition line2r : LLLine := Eval vm_compute in line_from (skipn 2 in2).
Example C55_case :
  Forall wf_input (firstn 2 in2) /\ Forall wf_input (skipn 2 in2)
  /\ create_line_from_input_tokens tg64 (firstn 2 in2 ++ skipn 2 in2) str_len = Ok line2
  /\ create_line_from_input_tokens tg64 (firstn 2 in2) str_len = Ok line2l
  /\ create_line_from_input_tokens tg64 (skipn 2 in2) str_len = Ok line2r
  /\ length (ll_tokens line2l) = 3 /\ length (ll_tokens line2r) = 4
  /\ end_of line2l = 7%N /\ end_of line2r = 7%N
  /\ query line2l TNum = Ok [((0, 1), of_string "Pay ", [7%N])]
  /\ query line2r TNum = Ok [((0, 2), of_string "to Bob", [1%N])]
  /\ query line2 TNum = Ok [((0, 1), of_string "Pay ", [7%N]); ((3, 5), of_string "to Bob", [1%N])].
Proof. conj; try fact; wf_inputs. Qed.

(** ** C56 Slices of the source *)
Theorem C56_query {UC : Unicode} {U : UserTypes} :
  forall (SL : SegmenterLaws) tg s l0 l t q r text vs,
    (str_len s < 2 ^ usize_bits tg)%N ->
    create_line_from_string tg s = Ok l0 -> later l0 l ->
    query l t = Ok q -> In (r, text, vs) q ->
    exists ti tj, nth_error (ll_tokens l) (fst r) = Some ti /\ nth_error (ll_tokens l) (snd r) = Some tj
      /\ (fst r <= snd r -> slice_of s (pos_starts_at ti) (pos_ends_at tj) text)
      /\ (snd r < fst r -> text = []).
Proof. exact thm_C56_query. Qed.
Theorem C56_find {UC : Unicode} {U : UserTypes} :
  forall (SL : SegmenterLaws) tg s l0 l lg P has A (m : matcher A) fs x,
    (str_len s < 2 ^ usize_bits tg)%N ->
    create_line_from_string tg s = Ok l0 -> later l0 l -> History l lg -> proper lg -> lib_matcher P has A m ->
    find l m = Ok fs -> In x fs ->
    exists i j ms, i <= j < length (ll_tokens l) /\ m (Fwd i) l = Ok ms /\ In (found x, j) ms
      /\ slice_of s (start_pos_at x) (end_pos_at x) (text_between (ll_tokens l) i j).
Proof. exact thm_C56_find. Qed.
(** "If it rains, then pay 1,000.50" after the keyword resolver: the keyword on
    token 7 and the tokens from "rains" to "then". *)
Example C56_case :
  SegmenterLaws /\ (str_len (of_string "If it rains, then pay 1,000.50") < 2 ^ usize_bits tg64)%N
  /\ create_line_from_string tg64 (of_string "If it rains, then pay 1,000.50") = Ok line1
  /\ later line1 line5 /\ History line5 lg5 /\ proper lg5
  /\ query line5 TKeyword = Ok [((0, 0), of_string "If", [KConditionStart]); ((7, 7), of_string "then", [KThen])]
  /\ slice_of (of_string "If it rains, then pay 1,000.50") 13 17 (of_string "then")
  /\ find line5 (x_seq2 (x_attr TKeyword) x_token_text)
     = Ok [mkFind 0 3 (KConditionStart, of_string " "); mkFind 13 18 (KThen, of_string " ")]%N.
Proof.
  conj; try fact.
  - apply (L_run line1 TKeyword 5 (clause_keyword_go words) line1 line5 (L_here line1) run5).
  - exists (of_string "If it rains, "), (of_string " pay 1,000.50"). facts.
Qed.
