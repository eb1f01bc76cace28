(** Cutting ASCII text into pieces (C96), with concrete cases. *)

From Verif Require Export PropCase ThmCut.

Local Open Scope string_scope.
Local Open Scope list_scope.

(** ** C96 ASCII text and its pieces *)
Theorem C96_words {UC : Unicode} {U : UserTypes} :
  forall (SL : SegmenterLaws) colon (AL : AsciiLaws colon) s1 s2, ascii (s1 ++ s2) ->
    (u_words (s1 ++ s2) = u_words s1 ++ u_words s2 <-> ~ unbroken colon s1 s2).
Proof. exact thm_C96_words. Qed.
Theorem C96_places {UC : Unicode} {U : UserTypes} :
  forall colon,
    (forall s1 s2, blank_seam s1 s2 -> ~ unbroken colon s1 s2)
    /\ (forall s1 s2, s1 <> [] -> s2 <> [] -> blank_seam s1 s2 -> pieces colon [s1; s2])
    /\ (forall ls s, Forall (fun x => ends_in x (is 10%N)) ls -> s <> [] -> pieces colon (ls ++ [s])).
Proof. exact thm_C96_places. Qed.
Theorem C96_pieces {UC : Unicode} {U : UserTypes} :
  forall (SL : SegmenterLaws) colon (AL : AsciiLaws colon) tg sz pre post ss l,
    ascii (concat ss) -> pieces colon ss ->
    (create_line_from_input_tokens tg (pre ++ InText (concat ss) [] :: post) sz = Ok l <->
     create_line_from_input_tokens tg (pre ++ map (fun s => InText s []) ss ++ post) sz = Ok l).
Proof. exact thm_C96_pieces. Qed.
Theorem C96_local {UC : Unicode} {U : UserTypes} :
  forall (SL : SegmenterLaws) colon (AL : AsciiLaws colon) s tg sz id ss l,
    token_local s -> ascii (concat ss) -> pieces colon ss ->
    create_line_from_input_tokens tg [InText (concat ss) []] sz = Ok l ->
    exists l' parts, run_any id l s = Ok l' /\ query l' (writes s) = Ok (in_sequence 0 parts)
      /\ Forall2 (piece_reported tg sz id s) ss parts.
Proof. exact thm_C96_local. Qed.
Theorem C96_line {UC : Unicode} {U : UserTypes} :
  forall (SL : SegmenterLaws) colon (AL : AsciiLaws colon) tg sz s1 s2 l,
    ascii (s1 ++ s2) -> s1 <> [] -> s2 <> [] -> ~ unbroken colon s1 s2 ->
    create_line_from_input_tokens tg [InText (s1 ++ s2) []] sz = Ok l ->
    exists l1 l2,
      create_line_from_input_tokens tg [InText s1 []] sz = Ok l1 /\ create_line_from_input_tokens tg [InText s2 []] sz = Ok l2
      /\ ll_tokens l = ll_tokens l1 ++
           map (moved_token (length (ll_tokens l1)) (end_of l1) (2 ^ usize_bits tg)) (ll_tokens l2)
      /\ forall t, exists q q1 q2, query l t = Ok q /\ query l1 t = Ok q1 /\ query l2 t = Ok q2
           /\ Permutation q (q1 ++ map (moved_row (length (ll_tokens l1))) q2).
Proof. exact thm_C96_line. Qed.
Theorem C96_steps {UC : Unicode} {U : UserTypes} :
  forall (SL : SegmenterLaws) colon (AL : AsciiLaws colon) tg sz s1 s2 l ss,
    ascii (s1 ++ s2) -> s1 <> [] -> s2 <> [] -> ~ unbroken colon s1 s2 ->
    create_line_from_input_tokens tg [InText (s1 ++ s2) []] sz = Ok l ->
    Forall (stays_apart s1 s2) ss ->
    exists l1 l2,
      create_line_from_input_tokens tg [InText s1 []] sz = Ok l1 /\ create_line_from_input_tokens tg [InText s2 []] sz = Ok l2
      /\ ((exists l', after_steps l ss l') <-> (exists l1', after_steps l1 ss l1') /\ (exists l2', after_steps l2 ss l2'))
      /\ forall l' l1' l2', after_steps l ss l' -> after_steps l1 ss l1' -> after_steps l2 ss l2' -> answers_side_by_side l' l1' l2'.
Proof. exact thm_C96_steps. Qed.
Theorem C96_clauses {UC : Unicode} {U : UserTypes} :
  forall (SL : SegmenterLaws) colon (AL : AsciiLaws colon) tg sz s1 s2 l r id id',
    ascii (s1 ++ s2) -> s1 <> [] -> s2 <> [] -> ~ unbroken colon s1 s2 -> marked_seam s1 s2 ->
    create_line_from_input_tokens tg [InText (s1 ++ s2) []] sz = Ok l ->
    exists l1 l2 rows rows1 rows2,
      create_line_from_input_tokens tg [InText s1 []] sz = Ok l1 /\ create_line_from_input_tokens tg [InText s2 []] sz = Ok l2
      /\ clauses_reported id id' r l rows /\ clauses_reported id id' r l1 rows1 /\ clauses_reported id id' r l2 rows2
      /\ map fst rows = map fst rows1 ++ map (fun x => (moved_range (length (ll_tokens l1)) (fst x), snd x)) (map fst rows2).
Proof. exact thm_C96_clauses. Qed.
(** Three lines of a file. *)
Definition nl96 : str := [10%N].
Definition lines96 : list str := [of_string "Pay Bob v2." ++ nl96; of_string "Owe 3,400.50" ++ [13; 10]%N; of_string "pay"].
Definition pos96 : any_step := Lib (RunPOSTag dict94 9%N).
Ltac not_in_ends := intros ((p & c & E & Hc) & _); apply (f_equal (fun x : str => last x 0%N)) in E; rewrite last_last in E; vm_compute in E; unfold is in Hc; congruence.
Example C96_case_lines :
  pieces true lines96 /\ ascii (concat lines96) /\ is_line89 (concat lines96) /\ token_local pos96
  /\ map token (ll_tokens (line89 (concat lines96))) = [LText (of_string "Pay") WORD; LText (of_string " ") SPACE; LText (of_string "Bob") WORD; LText (of_string " ") SPACE;
       LText (of_string "v2") SYMB; LText (of_string ".") PUNC; LText [10%N] SPACE; LText (of_string "Owe") WORD; LText (of_string " ") SPACE;
       LText (of_string "3") NATN; LText (of_string ",") PUNC; LText (of_string "400") NATN; LText (of_string ".") PUNC; LText (of_string "50") NATN; LText [13; 10]%N SPACE; LText (of_string "pay") WORD]
  /\ Forall2 (piece_reported tg64 str_len 1 pos96) lines96
       [(7, [((0, 0), of_string "Pay", [1%N; 2%N]); ((2, 2), of_string "Bob", [9%N])]); (8, [((0, 0), of_string "Owe", [9%N])]); (1, [((0, 0), of_string "pay", [1%N; 2%N])])]
  /\ exists l', run_any 1 (line89 (concat lines96)) pos96 = Ok l'
       /\ query l' TPos = Ok [((0, 0), of_string "Pay", [1%N; 2%N]); ((2, 2), of_string "Bob", [9%N]); ((7, 7), of_string "Owe", [9%N]); ((15, 15), of_string "pay", [1%N; 2%N])].
Proof.
  split.
  { apply (proj2 (proj2 (C96_places true)) [of_string "Pay Bob v2." ++ nl96; of_string "Owe 3,400.50" ++ [13; 10]%N] (of_string "pay")); [|discriminate].
    constructor; [exists (of_string "Pay Bob v2."), 10%N; split; reflexivity|]. constructor; [|constructor]. exists (of_string "Owe 3,400.50" ++ [13%N]), 10%N. split; reflexivity. }
  split; [apply is_ascii; reflexivity|]. split; [vm_compute; reflexivity|]. split; [apply TL_pos|]. split; [vm_compute; reflexivity|].
  split; [|eexists; split; vm_compute; reflexivity].
  repeat (apply Forall2_cons; [do 2 eexists; split; [vm_compute; reflexivity|]; split; [vm_compute; reflexivity|]; split; vm_compute; reflexivity|]). apply Forall2_nil.
Qed.
(** A sentence cut after a comma and before a space; a number cannot be cut before its period. *)
Definition first96 : str := of_string "If it rains 2 days,".
Definition second96 : str := of_string " pay Bob 12.50".
Definition amount96 : step := RunAmount parse_decimal amount_english.
Example C96_case_parts :
  blank_seam first96 second96 /\ ~ unbroken true first96 second96 /\ ascii (first96 ++ second96) /\ is_line89 (first96 ++ second96)
  /\ still_seam amount_english first96 second96 /\ marked_seam first96 second96
  /\ Forall (stays_apart first96 second96) [(1%N, amount96); (2%N, RunPOSTag dict94 9%N)]
  /\ (exists l1 d1 d2, after_steps (line89 (first96 ++ second96)) [(1%N, amount96)] l1
        /\ query l1 TAmount = Ok [((6, 6), of_string "2", [d1]); ((15, 17), of_string "12.50", [d2])])
  /\ clauses_reported 1 2 words (line89 (first96 ++ second96)) [((2, 8), of_string "it rains 2 days", [Condition]); ((11, 15), of_string "pay Bob 12", [TrailingEffect]); ((17, 17), of_string "50", [TrailingEffect])]
  /\ clauses_reported 1 2 words (line89 first96) [((2, 8), of_string "it rains 2 days", [Condition])]
  /\ clauses_reported 1 2 words (line89 second96) [((1, 5), of_string "pay Bob 12", [LeadingEffect]); ((7, 7), of_string "50", [LeadingEffect])]
  /\ unbroken true (of_string " pay Bob 12") (of_string ".50")
  /\ u_words (of_string "12.50") = [of_string "12.50"] /\ u_words (of_string "12") ++ u_words (of_string ".50") = [of_string "12"; of_string "."; of_string "50"].
Proof.
  assert (B : blank_seam first96 second96).
  { split; [right; exists 32%N, (of_string "pay Bob 12.50"); split; [reflexivity|cbn; tauto]|]. split; not_in_ends. }
  assert (S96 : still_seam amount_english first96 second96).
  { right. exists 32%N, (of_string "pay Bob 12.50"). split; [reflexivity|]. split; [unfold ascii_digit; lia|]. intros H. vm_compute in H. repeat destruct H as [H|H]; try discriminate H. exact H. }
  split; [exact B|]. split; [now apply (proj1 (C96_places true))|]. split; [apply is_ascii; reflexivity|]. split; [vm_compute; reflexivity|]. split; [exact S96|].
  split; [left; exists (of_string "If it rains 2 days"), 44%N; split; [reflexivity|cbn; tauto]|].
  split; [constructor; [exact S96|]; constructor; [exact I|constructor]|].
  split; [do 3 eexists; split; [eapply AS_step; [vm_compute; reflexivity|apply AS_done]|vm_compute; reflexivity]|].
  split; [do 2 eexists; split; [vm_compute; reflexivity|]; split; vm_compute; reflexivity|].
  split; [do 2 eexists; split; [vm_compute; reflexivity|]; split; vm_compute; reflexivity|].
  split; [do 2 eexists; split; [vm_compute; reflexivity|]; split; vm_compute; reflexivity|].
  split; [apply (WB12 true (of_string " pay Bob 1") 50%N 46%N 53%N (of_string "0")); [unfold ascii_digit; lia|cbn; tauto|unfold ascii_digit; lia]|].
  split; vm_compute; reflexivity.
Qed.
