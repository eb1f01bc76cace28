(** The size of results (C97), with concrete cases. *)

From Verif Require Export PropCut ThmBound.

Local Open Scope string_scope.
Local Open Scope list_scope.

(** ** C97 Results are no larger than the text *)
Theorem C97_tokens {UC : Unicode} {U : UserTypes} :
  forall (SL : SegmenterLaws) tg sz input l,
    Forall wf_input input -> create_line_from_input_tokens tg input sz = Ok l ->
    length input <= length (ll_tokens l) <= list_sum (map chars_in input).
Proof. exact thm_C97_tokens. Qed.
Theorem C97_query {UC : Unicode} {U : UserTypes} :
  forall l lg t q, History l lg -> query l t = Ok q -> length q <= length (ll_tokens l) * length (ll_tokens l).
Proof. exact thm_C97_query. Qed.
Theorem C97_created {UC : Unicode} {U : UserTypes} :
  forall tg sz input l t,
    Forall wf_input input -> create_line_from_input_tokens tg input sz = Ok l ->
    exists q, query l t = Ok q
      /\ (t <> TTextTag -> t <> TChar -> length q <= length input) /\ length q <= length (ll_tokens l) + length input.
Proof. exact thm_C97_created. Qed.
Theorem C97_pipelines {UC : Unicode} {U : UserTypes} :
  forall tg sz input l steps l' t,
    Forall wf_input input -> none_of TKeyword input -> none_of TTextTag input ->
    create_line_from_input_tokens tg input sz = Ok l -> after_steps l steps l' ->
    exists q q', query l t = Ok q /\ query l' t = Ok q'
      /\ length q' <= length q + times_written t steps * length (ll_tokens l).
Proof. exact thm_C97_pipelines. Qed.
Theorem C97_amounts {UC : Unicode} {U : UserTypes} :
  forall tg sz input l parse r id l',
    Forall wf_input input -> none_of TTextTag input -> none_of TChar input -> none_of TAmount input ->
    create_line_from_input_tokens tg input sz = Ok l -> no_digit_signs r ->
    run id l (amount_go parse r) = Ok l' ->
    exists rows, query l' TAmount = Ok rows /\ length rows <= number_count (ll_tokens l) /\ reported_chars rows <= line_chars l.
Proof. exact thm_C97_amounts. Qed.
Theorem C97_clauses {UC : Unicode} {U : UserTypes} :
  forall tg sz input l r id id',
    Forall wf_input input -> none_of TKeyword input -> none_of TTextTag input -> none_of TClause input ->
    create_line_from_input_tokens tg input sz = Ok l ->
    exists rows, clauses_reported id id' r l rows /\ 2 * length rows <= length (ll_tokens l) + 1 /\ reported_chars rows <= line_chars l.
Proof. exact thm_C97_clauses. Qed.
(** Here the bounds are reached: five characters make five tokens, every number is an amount, and every second token a clause. *)
Definition text97 : str := of_string "1!2!3".
Definition in97 : list InputToken := [InText text97 [any_of TNum 7%N]; InText text97 []].
Definition pos97 : step := RunPOSTag dict94 9%N.
Example C97_case :
  SegmenterLaws /\ Forall wf_input in97 /\ none_of TKeyword in97 /\ none_of TTextTag in97 /\ none_of TClause in97 /\ none_of TChar in97 /\ none_of TAmount in97 /\ no_digit_signs amount_english
  /\ is_line89 text97 /\ length (ll_tokens (line89 text97)) = 5 /\ list_sum (map chars_in [InText text97 []]) = 5 /\ number_count (ll_tokens (line89 text97)) = 3 /\ line_chars (line89 text97) = 5
  /\ (exists l1 d1 d2 d3, run 1 (line89 text97) (amount_go parse_decimal amount_english) = Ok l1
        /\ query l1 TAmount = Ok [((0, 0), of_string "1", [d1]); ((2, 2), of_string "2", [d2]); ((4, 4), of_string "3", [d3])])
  /\ clauses_reported 1 2 words (line89 text97) [((0, 0), of_string "1", [LeadingEffect]); ((2, 2), of_string "2", [LeadingEffect]); ((4, 4), of_string "3", [LeadingEffect])]
  /\ times_written TPos [(1%N, pos97); (2%N, pos97); (3%N, amount96)] = 2
  /\ (exists l, create_line_from_input_tokens tg64 in97 str_len = Ok l /\ length (ll_tokens l) = 10 /\ (exists v, query l TNum = Ok [((0, 4), text97, [v])])
        /\ exists q, query l TChar = Ok q /\ length q = 10).
Proof.
  split; [exact latin_segmenter|]. split; [repeat constructor; apply any_wf|].
  do 5 (split; [intros it a Hi Ha; cbn in Hi; destruct Hi as [<-|[<-|[]]]; cbn in Ha; [destruct Ha as [<-|[]]; reflexivity|destruct Ha]|]).
  split; [repeat constructor|]. split; [vm_compute; reflexivity|]. do 4 (split; [vm_compute; reflexivity|]).
  split; [do 4 eexists; split; vm_compute; reflexivity|].
  split; [do 2 eexists; split; [vm_compute; reflexivity|]; split; vm_compute; reflexivity|].
  split; [vm_compute; reflexivity|].
  eexists. split; [vm_compute; reflexivity|]. split; [vm_compute; reflexivity|]. split; [eexists; vm_compute; reflexivity|]. eexists. split; vm_compute; reflexivity.
Qed.
