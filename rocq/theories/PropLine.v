(** The properties of lines: creation, attributes, queries, runs (C01 to C14, C17, C51,
    C53), each with a concrete case that meets its hypotheses. *)

From Verif Require Import ExLines ThmRefuted.

Local Open Scope list_scope.

(** ** C01 Tokenizing loses no text *)
Theorem C01_no_text_lost {UC : Unicode} {U : UserTypes} :
  forall (SL : SegmenterLaws) tg sz input l,
    Forall wf_input input ->
    create_line_from_input_tokens tg input sz = Ok l ->
    exists groups : list (list LToken),
      map token (ll_tokens l) = concat groups /\ Forall2 cut_of input groups.
Proof. exact thm_C01_no_text_lost. Qed.
Example C01_no_text_lost_case :
  SegmenterLaws /\ Forall wf_input in2 /\ create_line_from_input_tokens tg64 in2 str_len = Ok line2
  /\ text_of_line line2 = map of_string ["Pay"; " "; ""; "to"; " "; "Bob"; "2"]%string.
Proof. facts. Qed.

(** ** C02 Positions *)
Theorem C02_positions {UC : Unicode} {U : UserTypes} :
  forall (SL : SegmenterLaws) tg sz input l,
    Forall wf_input input ->
    create_line_from_input_tokens tg input sz = Ok l ->
    exists groups : list (list (LToken * N)),
      Forall2 (fun it g => cut_of it (map fst g) /\ sized_by sz it g) input groups
      /\ ((total (concat groups) < 2 ^ usize_bits tg)%N -> ll_tokens l = layout (concat groups))
      /\ (overflow_checks tg = true -> (total (concat groups) < 2 ^ usize_bits tg)%N)
      /\ (overflow_checks tg = false -> ll_tokens l = layout_mod (2 ^ usize_bits tg) (concat groups)).
Proof. exact thm_C02_positions. Qed.
(** Positions that fit, and positions that wrap around: sizes 255 and 2 on a target of 8 bits. *)
Example C02_positions_case :
  SegmenterLaws /\ Forall wf_input in2 /\ create_line_from_input_tokens tg64 in2 str_len = Ok line2
  /\ map (fun tok => (pos_starts_at tok, pos_ends_at tok)) (ll_tokens line2)
     = [(0, 3); (3, 4); (4, 7); (7, 9); (9, 10); (10, 13); (13, 14)]%N
  /\ rmap (fun l => map (fun tok => (pos_starts_at tok, pos_ends_at tok)) (ll_tokens l))
       (create_line_from_input_tokens (mkTarget 8 false) [InCustom 255 []; InCustom 2 []] str_len)
     = Ok [(0, 255); (255, 1)]%N
  /\ create_line_from_input_tokens (mkTarget 8 true) [InCustom 255 []; InCustom 2 []] str_len = Panic POverflow.
Proof. facts. Qed.

Theorem C02_deprecated {UC : Unicode} {U : UserTypes} :
  forall (SL : SegmenterLaws) tg sz input l,
    Forall wf_input input ->
    create_tokens tg input sz = Ok l ->
    (exists lg, History l lg)
    /\ exists groups : list (list (LToken * N)),
      Forall2 (fun it g => cut_of it (map fst g) /\ sized_by sz it g) input groups
      /\ ((total (concat groups) < 2 ^ usize_bits tg)%N -> ll_tokens l = layout (concat groups))
      /\ (overflow_checks tg = true -> (total (concat groups) < 2 ^ usize_bits tg)%N)
      /\ (overflow_checks tg = false -> ll_tokens l = layout_mod (2 ^ usize_bits tg) (concat groups)).
Proof. exact thm_C02_deprecated. Qed.
Example C02_deprecated_case :
  SegmenterLaws /\ Forall wf_input in2 /\ create_tokens tg64 in2 str_len = Ok line2
  /\ map ltext (map token (ll_tokens line2)) = map of_string ["Pay"; " "; ""; "to"; " "; "Bob"; "2"]%string.
Proof. facts. Qed.
Theorem C02_tiling {UC : Unicode} {U : UserTypes} :
  forall tg sz input l i tok,
    Forall wf_input input ->
    create_line_from_input_tokens tg input sz = Ok l ->
    nth_error (ll_tokens l) i = Some tok ->
    token_idx tok = i
    /\ (i = 0 -> pos_starts_at tok = 0%N)
    /\ (forall tok', nth_error (ll_tokens l) (S i) = Some tok' -> pos_starts_at tok' = pos_ends_at tok).
Proof. exact thm_C02_tiling. Qed.
Example C02_tiling_case :
  Forall wf_input in2 /\ create_line_from_input_tokens tg64 in2 str_len = Ok line2
  /\ nth_error (ll_tokens line2) 2 = Some (mkLLToken 2 4 7 LValue)
  /\ option_map pos_starts_at (nth_error (ll_tokens line2) 3) = Some 7%N.
Proof. facts. Qed.

(** ** C03 Byte offsets *)
Theorem C03_byte_offsets {UC : Unicode} {U : UserTypes} :
  forall (SL : SegmenterLaws) tg s l i tok,
    (str_len s < 2 ^ usize_bits tg)%N ->
    create_line_from_string tg s = Ok l ->
    nth_error (ll_tokens l) i = Some tok ->
    (exists text tag, token tok = LText text tag
      /\ (pos_starts_at tok <= pos_ends_at tok)%N
      /\ utf8 text = firstn (N.to_nat (pos_ends_at tok - pos_starts_at tok))
                            (skipn (N.to_nat (pos_starts_at tok)) (utf8 s)))
    /\ (S i = length (ll_tokens l) -> N.to_nat (pos_ends_at tok) = length (utf8 s)).
Proof. exact thm_C03_byte_offsets. Qed.
(** With a character of two bytes. *)
Definition s03 : str := of_string "pay caf" ++ [233%N] ++ of_string " 5".
Definition line03 : LLLine := Eval vm_compute in get no_line (create_line_from_string tg64 s03).
Example C03_byte_offsets_case :
  SegmenterLaws /\ (str_len s03 < 2 ^ usize_bits tg64)%N /\ create_line_from_string tg64 s03 = Ok line03
  /\ nth_error (ll_tokens line03) 2 = Some (mkLLToken 2 4 9 (LText (of_string "caf" ++ [233%N]) WORD))
  /\ length (utf8 s03) = 11.
Proof. facts. Qed.

(** ** C04 Rejected inputs *)
Theorem C04_rejected {UC : Unicode} {U : UserTypes} :
  forall (SL : SegmenterLaws) tg sz input,
    Forall wf_input input ->
    (~ Forall acceptable input ->
       exists p, create_line_from_input_tokens tg input sz = Panic p)
    /\ (Forall acceptable input ->
       exists groups, Forall2 (fun it g => cut_of it (map fst g) /\ sized_by sz it g) input groups
       /\ ((overflow_checks tg = false \/ (total (concat groups) < 2 ^ usize_bits tg)%N) ->
             exists l, create_line_from_input_tokens tg input sz = Ok l)
       /\ ((overflow_checks tg = true /\ (2 ^ usize_bits tg <= total (concat groups))%N) ->
             exists p, create_line_from_input_tokens tg input sz = Panic p)).
Proof. exact thm_C04_rejected. Qed.
(** Inputs of all three kinds: accepted, rejected (the digit 2 followed by a letter that
    is not ASCII; the empty text), and too long for the target. *)
Example C04_rejected_case :
  SegmenterLaws /\ Forall acceptable in2
  /\ rejected_segment [50; 232]%N /\ In [50; 232]%N (u_words [97; 32; 50; 232]%N)
  /\ create_line_from_string tg64 [97; 32; 50; 232]%N = Panic PNonAsciiDigitWord
  /\ create_line_from_string tg64 [] = Panic PEmptyText
  /\ create_line_from_input_tokens (mkTarget 8 true) [InCustom 255 []; InCustom 2 []] str_len = Panic POverflow.
Proof.
  split; [fact|]. split.
  { repeat (apply Forall_cons || apply Forall_nil); simpl; try exact I; (split; [discriminate|]);
      intros w Hin (c & w' & E & Hd & c' & Hin' & Hc); vm_compute in Hin;
      repeat (destruct Hin as [<-|Hin]; [inversion E; subst; simpl in Hin'; vm_compute in Hd; try discriminate Hd;
        repeat (destruct Hin' as [<-|Hin']; [vm_compute in Hc; now apply Hc|]); easy|]); easy. }
  split; [|split; [vm_compute; tauto|facts]].
  exists 50%N, [232%N]. split; [reflexivity|]. split; [reflexivity|]. exists 232%N. split; [vm_compute; tauto|vm_compute; discriminate].
Qed.

(** ** C05 Tags *)
Theorem C05_tags {UC : Unicode} {U : UserTypes} :
  forall sz s g,
    create_tokens_for_string sz s = Ok g ->
    exists pss, Forall2 segment_cut (u_words s) pss
      /\ map fst g = map (fun p => LText (fst p) (snd p)) (concat pss).
Proof. exact thm_C05_tags. Qed.
Example C05_tags_case :
  rmap (map fst) (create_tokens_for_string str_len (of_string "I owe: 1,2b!")) =
    Ok [LText (of_string "I") WORD; LText (of_string " ") SPACE; LText (of_string "owe") WORD;
        LText (of_string ":") PUNC; LText (of_string " ") SPACE; LText (of_string "1") NATN;
        LText (of_string ",") PUNC; LText (of_string "2") NATN; LText (of_string "b") WORD;
        LText (of_string "!") PUNC].
Proof. facts. Qed.

Theorem C05_natn {UC : Unicode} {U : UserTypes} :
  forall tg sz input l tok s tag,
    Forall wf_input input ->
    create_line_from_input_tokens tg input sz = Ok l ->
    In tok (ll_tokens l) -> token tok = LText s tag ->
    (tag = NATN <-> s <> [] /\ Forall (fun c => decimal_digit c = true) s).
Proof. exact thm_C05_natn. Qed.
Example C05_natn_case :
  Forall wf_input in1 /\ create_line_from_input_tokens tg64 in1 str_len = Ok line1
  /\ nth_error (ll_tokens line1) 13 = Some (mkLLToken 13 24 27 (LText (of_string "000") NATN))
  /\ nth_error (ll_tokens line1) 14 = Some (mkLLToken 14 27 28 (LText (of_string ".") PUNC)).
Proof. facts. Qed.

Theorem C05_natn_any_line {UC : Unicode} {U : UserTypes} :
  forall l lg tok s tag,
    History l lg -> In tok (ll_tokens l) -> token tok = LText s tag -> (tag = NATN <-> all_digits s).
Proof. exact thm_C05_natn_any_line. Qed.
Example C05_natn_any_line_case :
  History line5 lg5 /\ nth_error (ll_tokens line5) 13 = Some (mkLLToken 13 24 27 (LText (of_string "000") NATN)).
Proof. facts. Qed.

Theorem C05_one_tag_each {UC : Unicode} {U : UserTypes} :
  forall tg sz input l,
    Forall wf_input input -> none_of TTextTag input ->
    create_line_from_input_tokens tg input sz = Ok l ->
    query l TTextTag = Ok (token_rows (A := TextTag) tag_of 0 (map token (ll_tokens l))).
Proof. exact thm_C05_one_tag_each. Qed.
Lemma none_of_nil t text : none_of t [InText text []].
Proof. intros it a [<-|[]] Hin. easy. Qed.
Example C05_one_tag_each_case :
  Forall wf_input in1 /\ none_of TTextTag in1 /\ create_line_from_input_tokens tg64 in1 str_len = Ok line1
  /\ rmap (map (fun row => (fst (fst (fst row)), snd row))) (query line1 TTextTag)
     = Ok [(0, [WORD]); (1, [SPACE]); (2, [WORD]); (3, [SPACE]); (4, [WORD]); (5, [PUNC]); (6, [SPACE]); (7, [WORD]);
           (8, [SPACE]); (9, [WORD]); (10, [SPACE]); (11, [NATN]); (12, [PUNC]); (13, [NATN]); (14, [PUNC]); (15, [NATN])].
Proof. conj; [fact|apply none_of_nil|fact|fact]. Qed.

(** ** C06 Documented punctuation *)
Theorem C06_refuted :
  exists (UC : Unicode), SegmenterLaws /\ CharLaws /\
  exists s l tok text,
    create_line_from_string tg64 s = Ok l /\ In tok (ll_tokens l) /\ token tok = LText text PUNC
    /\ ~ exists c, text = [c] /\ In c documented_chars.
Proof. exact thm_C06_refuted. Qed.

(** ** C07 Characters *)
Theorem C07_char_iff_one_char {UC : Unicode} {U : UserTypes} :
  forall tg sz input l,
    Forall wf_input input -> none_of TChar input ->
    create_line_from_input_tokens tg input sz = Ok l ->
    query l TChar = Ok (token_rows (A := char) char_of 0 (map token (ll_tokens l))).
Proof. exact thm_C07_char_iff_one_char. Qed.
Example C07_char_iff_one_char_case :
  Forall wf_input in1 /\ none_of TChar in1 /\ create_line_from_input_tokens tg64 in1 str_len = Ok line1
  /\ rmap (map (fun row => (fst (fst (fst row)), snd row))) (query line1 TChar)
     = Ok [(1, [32%N]); (3, [32%N]); (5, [44%N]); (6, [32%N]); (8, [32%N]); (10, [32%N]); (11, [49%N]); (12, [44%N]); (14, [46%N])].
Proof. conj; [fact|apply none_of_nil|fact|fact]. Qed.

Theorem C07_created_plain {UC : Unicode} {U : UserTypes} :
  forall tg sz input l,
    Forall wf_input input ->
    create_line_from_input_tokens tg input sz = Ok l ->
    exists lg, History l lg /\ forall t, none_of t input -> plain t l lg.
Proof. exact thm_C07_created_plain. Qed.
Lemma none_of_in2 t : t <> TNum -> t <> TStr -> none_of t in2.
Proof.
  intros H1 H2 it a Hit Ha. destruct Hit as [<-|[<-|[<-|[<-|[]]]]]; simpl in Ha;
    repeat match goal with H : _ \/ _ |- _ => destruct H | H : False |- _ => destruct H end; subst a;
    apply downcast_other; congruence.
Qed.
Example C07_created_plain_case :
  Forall wf_input in2 /\ create_line_from_input_tokens tg64 in2 str_len = Ok line2
  /\ none_of TChar in2 /\ none_of TTextTag in2 /\ ~ none_of TNum in2.
Proof.
  conj; [fact|fact|apply none_of_in2; discriminate|apply none_of_in2; discriminate|].
  intros H. specialize (H _ _ (or_introl eq_refl) (or_introl eq_refl)). discriminate H.
Qed.

(** ** C08 Runs of a segment that starts with a digit *)
Theorem C08_unique {UC : Unicode} {U : UserTypes} :
  forall w ps qs,
    Forall good_piece ps -> maximal ps -> concat (map fst ps) = w ->
    Forall good_piece qs -> maximal qs -> concat (map fst qs) = w ->
    ps = qs.
Proof. exact thm_C08_unique. Qed.
(** The pieces the tokenizer makes of "12,3ab" are such runs. *)
Definition ps08 : list (str * TextTag) :=
  [(of_string "12", NATN); (of_string ",", PUNC); (of_string "3", NATN); (of_string "ab", WORD)].
Example C08_unique_case :
  Forall good_piece ps08 /\ maximal ps08 /\ concat (map fst ps08) = of_string "12,3ab"
  /\ rmap (map fst) (create_tokens_for_string str_len (of_string "12,3ab"))
     = Ok (map (fun p => LText (fst p) (snd p)) ps08).
Proof.
  conj; [|simpl; intuition discriminate|fact|fact].
  repeat (apply Forall_cons || apply Forall_nil); unfold good_piece; simpl.
  - split; [discriminate|repeat constructor].
  - eexists; repeat split; reflexivity.
  - split; [discriminate|repeat constructor].
  - split; [discriminate|repeat constructor].
Qed.

(** ** C09 Attributes of the input *)
Theorem C09_input_attributes {UC : Unicode} {U : UserTypes} :
  forall (SL : SegmenterLaws) tg sz input l t,
    Forall wf_input input -> t <> TChar -> t <> TTextTag ->
    create_line_from_input_tokens tg input sz = Ok l ->
    exists groups, map token (ll_tokens l) = concat groups /\ Forall2 cut_of input groups
      /\ query l t = Ok (query_spec (ll_tokens l) t (input_log 0 groups input)).
Proof. exact thm_C09_input_attributes. Qed.
Example C09_input_attributes_case :
  SegmenterLaws /\ Forall wf_input in2 /\ TNum <> TChar /\ TNum <> TTextTag
  /\ create_line_from_input_tokens tg64 in2 str_len = Ok line2
  /\ query line2 TNum = Ok [((0, 1), of_string "Pay ", [7%N]); ((3, 5), of_string "to Bob", [1%N])].
Proof. facts. Qed.
Theorem C09_groups {UC : Unicode} {U : UserTypes} :
  forall (SL : SegmenterLaws) tg sz input l,
    Forall wf_input input -> create_line_from_input_tokens tg input sz = Ok l ->
    exists groups, Forall2 cut_of input groups /\ concat groups = map token (ll_tokens l)
      /\ (forall groups', Forall2 cut_of input groups' -> concat groups' = map token (ll_tokens l) -> groups' = groups)
      /\ History l (creation_log groups input).
Proof. exact thm_C09_groups. Qed.
Example C09_groups_case :
  SegmenterLaws /\ Forall wf_input in2 /\ create_line_from_input_tokens tg64 in2 str_len = Ok line2
  /\ map (map ltext) (map (map fst) (groups_from in2))
     = [map of_string ["Pay"; " "]; [[]]; map of_string ["to"; " "; "Bob"]; [of_string "2"]]%string
  /\ concat (map (map fst) (groups_from in2)) = map token (ll_tokens line2).
Proof. conj; try fact. Qed.

Theorem C09_add_attr {UC : Unicode} {U : UserTypes} :
  forall (SL : SegmenterLaws) tg sz i1 it i2 l t (v : den t),
    Forall wf_input (i1 ++ it :: i2) ->
    create_line_from_input_tokens tg (i1 ++ it :: i2) sz = Ok l ->
    exists l' s g lg0 lg2,
      create_line_from_input_tokens tg (i1 ++ input_add_attr it t v :: i2) sz = Ok l'
      /\ ll_tokens l' = ll_tokens l
      /\ cut_of it g /\ firstn (length g) (skipn s (map token (ll_tokens l))) = g
      /\ Forall (fun x => s + length g <= fst (fst x)) lg2
      /\ forall t',
           let mine := map (fun a => ((s, s + length g - 1), aa_value a)) (input_attrs it) in
           query l t' = Ok (query_spec (ll_tokens l) t' (lg0 ++ mine ++ lg2))
           /\ query l' t' = Ok (query_spec (ll_tokens l) t' (lg0 ++ mine ++ ((s, s + length g - 1), mkany t v) :: lg2)).
Proof. exact thm_C09_add_attr. Qed.
Example C09_add_attr_case :
  SegmenterLaws /\ Forall wf_input (firstn 2 in2 ++ InText (of_string "to Bob") [any_of TStr (of_string "x"); any_of TNum 1%N] :: skipn 3 in2)
  /\ create_line_from_input_tokens tg64 (firstn 2 in2 ++ InText (of_string "to Bob") [any_of TStr (of_string "x"); any_of TNum 1%N] :: skipn 3 in2) str_len = Ok line2
  /\ rmap (fun l => query l TNum) (create_line_from_input_tokens tg64
       (firstn 2 in2 ++ input_add_attr (InText (of_string "to Bob") [any_of TStr (of_string "x"); any_of TNum 1%N]) TNum 5%N :: skipn 3 in2) str_len)
     = Ok (Ok [((0, 1), of_string "Pay ", [7%N]); ((3, 5), of_string "to Bob", [1%N; 5%N])]).
Proof. facts. Qed.

(** ** C10 Queries *)
Ltac ordered_ranges := vm_compute; repeat (apply Forall_cons || apply Forall_nil); unfold range_ordered; simpl; lia.
Theorem C10_query_exact {UC : Unicode} {U : UserTypes} :
  forall l lg t,
    History l lg -> Forall range_ordered (ranges_of t lg) ->
    query l t = Ok (query_spec (ll_tokens l) t lg).
Proof. exact thm_C10_query_exact. Qed.
Example C10_query_exact_case :
  History line3 lg3 /\ Forall range_ordered (ranges_of TStr lg3)
  /\ query line3 TStr = Ok [((3, 5), of_string "to Bob", map of_string ["x"; "y"; "v"]%string);
                            ((0, 5), of_string "Pay to Bob", [of_string "z"]); ((4, 4), of_string " ", [of_string "w"])].
Proof. conj; [fact|ordered_ranges|fact]. Qed.

Theorem C10_query_panics {UC : Unicode} {U : UserTypes} :
  forall l lg t,
    History l lg -> ~ Forall range_ordered (ranges_of t lg) -> query l t = Panic PSlice.
Proof. exact thm_C10_query_panics. Qed.
Example C10_query_panics_case :
  History line4 lg4 /\ ~ Forall range_ordered (ranges_of TStr lg4) /\ query line4 TStr = Panic PSlice.
Proof.
  conj; [fact| |fact]. intros H. change (Forall range_ordered [(3, 5); (5, 0)]) in H.
  rewrite !Forall_cons_iff in H. unfold range_ordered in H. simpl in H. lia.
Qed.

Theorem C10_rows {UC : Unicode} {U : UserTypes} :
  forall l lg t q,
    History l lg -> query l t = Ok q ->
    NoDup (map (fun row => fst (fst row)) q)
    /\ (forall r, In r (map (fun row => fst (fst row)) q) <-> exists v, In (r, mkany t v) lg)
    /\ (forall r text vs, In (r, text, vs) q -> vs = values_on t r lg /\ vs <> []).
Proof. exact thm_C10_rows. Qed.
Example C10_rows_case : History line3 lg3 /\ exists q, query line3 TStr = Ok q /\ length q = 3.
Proof. split; [fact|]. eexists. split; vm_compute; reflexivity. Qed.

Theorem C10_creation_ordered {UC : Unicode} {U : UserTypes} :
  forall input groups, Forall2 cut_of input groups -> ordered (creation_log groups input).
Proof. exact thm_C10_creation_ordered. Qed.
Example C10_creation_ordered_case :
  Forall2 cut_of in2 (map (map fst) (groups_from in2))
  /\ map (map (fun x => ltext (fst x))) (groups_from in2)
     = [map of_string ["Pay"; " "]; [[]]; map of_string ["to"; " "; "Bob"]; [of_string "2"]]%string
  /\ map fst (creation_log (map (map fst) (groups_from in2)) in2) <> [].
Proof.
  split; [|split; [fact|vm_compute; discriminate]].
  repeat (apply Forall2_cons; [vm_compute; first [reflexivity|split; [discriminate|split; [repeat (apply Forall_cons; [eexists; eexists; split; [reflexivity|discriminate]|]); apply Forall_nil|reflexivity]]]|]).
  apply Forall2_nil.
Qed.

(** ** C11 Runs only add *)
Theorem C11_run_only_adds {UC : Unicode} {U : UserTypes} :
  forall t id l lg (r : Resolver t) g l' t' q q',
    History l lg -> ll_tokens l <> [] -> r (whole id l) = Ok g -> run id l r = Ok l' ->
    query l t' = Ok q -> query l' t' = Ok q' ->
    ll_tokens l' = ll_tokens l
    /\ (exists kept added, q' = kept ++ added /\ Forall2 row_extends q kept)
    /\ Permutation (pairs q') (pairs q ++ assigned t' (map assignment_entry (go_assignments g))).
Proof. exact thm_C11_run_only_adds. Qed.
Example C11_run_only_adds_case :
  History line2 lg2 /\ ll_tokens line2 <> [] /\ run 5 line2 (assign (t := TStr) xs3) = Ok line3
  /\ query line2 TStr = Ok [((3, 5), of_string "to Bob", [of_string "x"])]
  /\ query line3 TStr = Ok [((3, 5), of_string "to Bob", map of_string ["x"; "y"; "v"]%string);
                            ((0, 5), of_string "Pay to Bob", [of_string "z"]); ((4, 4), of_string " ", [of_string "w"])].
Proof. facts. Qed.

(** ** C12 Types do not interfere *)
Theorem C12_no_interference {UC : Unicode} {U : UserTypes} :
  forall t id l lg (r : Resolver t) l',
    History l lg -> run id l r = Ok l' ->
    (forall t', t' <> t -> query l' t' = query l t')
    /\ (forall A (m : matcher A) d, lib_matcher (fun t' => t' <> t) false A m -> m d l' = m d l)
    /\ (forall A (m : matcher A) d ms has, lib_matcher (fun t' => t' <> t) has A m ->
          m d l = Ok ms -> m d l' = Ok ms)
    /\ (forall tg incs, (forall x, In x incs -> projT1 x <> t) -> show tg l' incs = show tg l incs).
Proof. exact thm_C12_no_interference. Qed.
Example C12_no_interference_case :
  History line2 lg2 /\ run 5 line2 (assign (t := TStr) xs3) = Ok line3 /\ TNum <> TStr
  /\ query line3 TNum = query line2 TNum
  /\ lib_matcher (fun t => t <> TStr) false _ (x_seq2 (x_attr TNum) x_token_text).
Proof. conj; try fact. apply (LM_seq2 _ false false); [apply LM_attr; discriminate|apply LM_token_text]. Qed.

Theorem C12_keeps_plain {UC : Unicode} {U : UserTypes} :
  forall t t' id l lg (r : Resolver t') out,
    t <> t' -> plain t l lg -> runs_to id l lg r out ->
    exists l', run id l r = Ok l' /\ History l' (lg ++ map (fun '(rg, v) => (rg, mkany t' v)) out)
      /\ plain t l' (lg ++ map (fun '(rg, v) => (rg, mkany t' v)) out).
Proof. exact thm_C12_keeps_plain. Qed.
Example C12_keeps_plain_case :
  TTextTag <> TKeyword /\ plain TTextTag line1 lg1 /\ runs_to 5 line1 lg1 (clause_keyword_go words) xs5.
Proof. conj; [discriminate|exact plain_tag1|]. exists line5. conj; [fact|reflexivity|exact history5]. Qed.

Theorem C12_token_has_any_refuted :
  exists l lg l' (r : Resolver TNum) id p (m : matcher TextTag),
    History l lg /\ run id l r = Ok l'
    /\ lib_matcher (fun t => t <> TNum) true TextTag m
    /\ m (Fwd 2) l = Panic p /\ m (Fwd 2) l' = Ok [].
Proof. exact thm_C12_token_has_any_refuted. Qed.

(** ** C13 The empty line *)
Theorem C13_empty_line {UC : Unicode} {U : UserTypes} :
  forall tg sz,
    exists l, create_line_from_input_tokens tg [] sz = Ok l /\ ll_tokens l = []
      /\ (forall id, from_line (mkRc id l) = None)
      /\ (forall t id (r : Resolver t), run id l r = Ok l)
      /\ (forall t, query l t = Ok []).
Proof. exact thm_C13_empty_line. Qed.
Theorem C13_only_empty {UC : Unicode} {U : UserTypes} :
  forall tg sz input l,
    Forall wf_input input -> create_line_from_input_tokens tg input sz = Ok l ->
    ll_tokens l = [] -> input = [].
Proof. exact thm_C13_only_empty. Qed.
Example C13_only_empty_case :
  Forall wf_input [] /\ create_line_from_input_tokens tg64 [] str_len = Ok no_line /\ ll_tokens no_line = [].
Proof. conj; [constructor|fact|fact]. Qed.

(** ** C14 When run panics *)
Theorem C14_run_ok_iff {UC : Unicode} {U : UserTypes} :
  forall t id l lg (r : Resolver t),
    History l lg -> ll_tokens l <> [] ->
    ((exists l', run id l r = Ok l') <->
     exists g, r (whole id l) = Ok g /\ go_retained g = false
       /\ assignments_in (length (ll_tokens l)) (go_assignments g)).
Proof. exact thm_C14_run_ok_iff. Qed.
Theorem C14_run_panics_iff {UC : Unicode} {U : UserTypes} :
  forall t id l lg (r : Resolver t),
    History l lg -> ll_tokens l <> [] ->
    ((exists p, run id l r = Panic p) <->
     (exists p, r (whole id l) = Panic p)
     \/ exists g, r (whole id l) = Ok g /\
          (go_retained g = true
           \/ exists x, In x (go_assignments g) /\
                (length (ll_tokens l) <= as_start x \/ length (ll_tokens l) <= as_end x))).
Proof. exact thm_C14_run_panics_iff. Qed.
(** Runs of all kinds: accepted; a range outside the line; a kept selection; a panic of
    the resolver. *)
Example C14_case :
  History line2 lg2 /\ ll_tokens line2 <> [] /\ run 5 line2 (assign (t := TStr) xs3) = Ok line3
  /\ run 5 line2 (assign (t := TStr) [((2, 7), of_string "q")]) = Panic PEndsAt
  /\ run 5 line2 (fun _ => Ok (mkGo (t := TStr) [] true)) = Panic PRcShared
  /\ run 5 line2 (fun _ => (Panic PUser : res (GoResult TStr))) = Panic PUser.
Proof. facts. Qed.

(** ** C17 Typed attributes *)
Theorem C17_any_attribute {UC : Unicode} {U : UserTypes} :
  forall t (v : den t) t',
    any_attribute_extract t (any_attribute_new t v) = inl v
    /\ (t' <> t -> any_attribute_extract t' (any_attribute_new t v) = inr (any_attribute_new t v)).
Proof. exact thm_C17_any_attribute. Qed.
Theorem C17_bucket {UC : Unicode} {U : UserTypes} :
  forall xs : list (bool * any),
    exists tb, foldM insert_either xs tb_new = Ok tb /\
      forall t, tb_get tb t = Ok (filter_map (fun x => downcast t (snd x)) xs)
                /\ tb_get (tb_clear tb) t = Ok [].
Proof. exact thm_C17_bucket. Qed.
Example C17_case :
  TNum <> TStr /\ any_attribute_extract TNum (any_attribute_new TNum 3%N) = inl 3%N
  /\ (tb <- foldM insert_either [(true, mkany TNum 3%N); (false, mkany TStr (of_string "a")); (false, mkany TNum 4%N)] tb_new;;
      tb_get tb TNum) = Ok [3%N; 4%N].
Proof. facts. Qed.

(** ** C51 Independent resolvers commute *)
Theorem C51_commute {UC : Unicode} {U : UserTypes} :
  forall t1 t2 (r1 : Resolver t1) (r2 : Resolver t2) l lg id1 id2 id1' id2' g1 g2 l1 l2,
    History l lg -> t1 <> t2 ->
    r1 (whole id1 l) = Ok g1 -> r2 (whole id2' l) = Ok g2 ->
    run id1 l r1 = Ok l1 -> run id2' l r2 = Ok l2 ->
    r2 (whole id2 l1) = Ok g2 -> r1 (whole id1' l2) = Ok g1 ->
    exists l12 l21,
      run id2 l1 r2 = Ok l12 /\ run id1' l2 r1 = Ok l21
      /\ ll_tokens l12 = ll_tokens l21
      /\ (forall t, query l12 t = query l21 t)
      /\ (forall has A (m : matcher A) d, lib_matcher any_ty has A m -> m d l12 = m d l21)
      /\ (forall tg incs, show tg l12 incs = show tg l21 incs).
Proof. exact thm_C51_commute. Qed.
Definition num9 : Resolver TNum := assign (t := TNum) [((2, 2), 9%N)].
Definition line51 : LLLine := Eval vm_compute in get no_line (run 6 line3 num9).
Definition line51' : LLLine := Eval vm_compute in get no_line (run 8 (get no_line (run 7 line2 num9)) (assign (t := TStr) xs3)).
Example C51_commute_case :
  History line2 lg2 /\ TStr <> TNum
  /\ run 5 line2 (assign (t := TStr) xs3) = Ok line3 /\ run 6 line3 num9 = Ok line51
  /\ run 7 line2 num9 = Ok line12 /\ run 8 line12 (assign (t := TStr) xs3) = Ok line51'
  /\ (forall id l, assign (t := TStr) xs3 (whole id l) = assign (t := TStr) xs3 (whole 5 line2))
  /\ (forall id l, num9 (whole id l) = num9 (whole 7 line2)).
Proof. facts. Qed.

(** ** C53 The indexes agree *)
Theorem C53_indexes_agree {UC : Unicode} {U : UserTypes} :
  forall l lg t r,
    History l lg ->
    let listed := In r (tm_get (ranges (attrs l)) t) in
    (listed <-> exists m, nth_error (starts_at (attrs l)) (fst r) = Some m /\ In r (tm_get m t))
    /\ (listed <-> exists m, nth_error (ends_at (attrs l)) (snd r) = Some m /\ In r (tm_get m t))
    /\ (listed <-> exists tb vs, map_get range_eqb (values (attrs l)) r = Some tb
                      /\ tb_get tb t = Ok vs /\ vs <> [])
    /\ (forall i m, nth_error (starts_at (attrs l)) i = Some m -> In r (tm_get m t) -> fst r = i)
    /\ (forall i m, nth_error (ends_at (attrs l)) i = Some m -> In r (tm_get m t) -> snd r = i).
Proof. exact thm_C53_indexes_agree. Qed.
Example C53_indexes_agree_case : History line3 lg3 /\ In (0, 5) (tm_get (ranges (attrs line3)) TStr).
Proof. split; [fact|]. vm_compute. tauto. Qed.
