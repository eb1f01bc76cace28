(** Matchers and resolvers with memory (C84), with concrete cases. *)

From Verif Require Export PropUser ThmState.

Local Open Scope string_scope.
Local Open Scope list_scope.

(** ** C84 Matchers and resolvers with memory *)
Theorem C84_asked {UC : Unicode} {U : UserTypes} :
  forall A M s (mm : mem_matcher M A) (st : M),
    let l := line_of s in
    let within := seq (start_idx s) (S (end_idx s) - start_idx s) in
    let fwd_in := map Fwd within in
    let after_it := if Nat.eqb (S (end_idx s)) (line_len s) then [] else [Fwd (S (end_idx s))] in
    let before_it := if Nat.eqb (start_idx s) 0 then [] else [Bwd (start_idx s - 1)] in
    asks_in_turn l fwd_in (fun M => mem_find_by s) (find_by s) mm st
    /\ asks_in_turn l fwd_in (fun M => mem_find_first_by s) (find_first_by s) mm st
    /\ asks_in_turn l fwd_in (fun M => mem_split_by s) (split_by s) mm st
    /\ asks_in_turn l (flat_map (fun i => [Fwd i; Bwd i]) within) (fun M => mem_find_both s) (find_by_forwards_and_backwards s) mm st
    /\ asks_in_turn l after_it (fun M => mem_match_forwards s) (match_forwards s) mm st
    /\ asks_in_turn l after_it (fun M => mem_match_first_forwards s) (match_first_forwards s) mm st
    /\ asks_in_turn l before_it (fun M => mem_match_backwards s) (match_backwards s) mm st
    /\ asks_in_turn l before_it (fun M => mem_match_first_backwards s) (match_first_backwards s) mm st
    /\ (forall from_start from_end : bool,
          asks_in_turn l ((if from_start then [Fwd (start_idx s)] else []) ++ (if from_end then [Bwd (end_idx s)] else []))
            (fun M mm => mem_trim_selection s mm from_start from_end) (fun m => trim_selection s m from_start from_end) mm st).
Proof. exact thm_C84_asked. Qed.
Theorem C84_asked_line {UC : Unicode} {U : UserTypes} :
  forall A M l (mm : mem_matcher M A) (st : M),
    asks_in_turn l (map Fwd (seq 0 (length (ll_tokens l)))) (fun M => mem_find l) (find l) mm st.
Proof. exact thm_C84_asked_line. Qed.
Theorem C84_memoryless {UC : Unicode} {U : UserTypes} :
  forall A M s (m : matcher A) (st : M),
    mem_find_by s (memoryless m) st = (st, find_by s m)
    /\ mem_find_first_by s (memoryless m) st = (st, find_first_by s m)
    /\ mem_split_by s (memoryless m) st = (st, split_by s m)
    /\ mem_find_both s (memoryless m) st = (st, find_by_forwards_and_backwards s m)
    /\ mem_match_forwards s (memoryless m) st = (st, match_forwards s m)
    /\ mem_match_first_forwards s (memoryless m) st = (st, match_first_forwards s m)
    /\ mem_match_backwards s (memoryless m) st = (st, match_backwards s m)
    /\ mem_match_first_backwards s (memoryless m) st = (st, match_first_backwards s m)
    /\ (forall from_start from_end : bool,
          mem_trim_selection s (memoryless m) from_start from_end st = (st, trim_selection s m from_start from_end))
    /\ (forall l, mem_find l (memoryless m) st = (st, find l m)).
Proof. exact thm_C84_memoryless. Qed.
Theorem C84_combinators {UC : Unicode} {U : UserTypes} :
  forall A B C M (ma : matcher A) (mb : matcher B) (mc : matcher C) d l (st : M),
    mem_all2 (memoryless ma) (memoryless mb) d l st = (st, x_all2 ma mb d l)
    /\ mem_all3 (memoryless ma) (memoryless mb) (memoryless mc) d l st = (st, x_all3 ma mb mc d l)
    /\ mem_any_of2 (memoryless ma) (memoryless mb) d l st = (st, x_any_of2 ma mb d l)
    /\ mem_any_of3 (memoryless ma) (memoryless mb) (memoryless mc) d l st = (st, x_any_of3 ma mb mc d l)
    /\ mem_seq2 (memoryless ma) (memoryless mb) d l st = (st, x_seq2 ma mb d l)
    /\ mem_seq3 (memoryless ma) (memoryless mb) (memoryless mc) d l st = (st, x_seq3 ma mb mc d l).
Proof. exact thm_C84_combinators. Qed.
Theorem C84_order {UC : Unicode} {U : UserTypes} :
  forall A B C (ma : matcher A) (mb : matcher B) (mc : matcher C) d l al bl cl,
    ma d l = Ok al -> mb d l = Ok bl -> mc d l = Ok cl ->
    fst (mem_all2 (noting 1 ma) (noting 2 mb) d l []) = [(2, d); (1, d)]
    /\ fst (mem_all3 (noting 1 ma) (noting 2 mb) (noting 3 mc) d l []) = [(2, d); (3, d); (1, d)]
    /\ fst (mem_any_of2 (noting 1 ma) (noting 2 mb) d l []) =
         (1, d) :: (match al with [] => [(2, d)] | _ => [] end)
    /\ fst (mem_any_of3 (noting 1 ma) (noting 2 mb) (noting 3 mc) d l []) =
         (1, d) :: (match al with [] => (2, d) :: match bl with [] => [(3, d)] | _ => [] end | _ => [] end).
Proof. exact thm_C84_order. Qed.
Theorem C84_order_seq {UC : Unicode} {U : UserTypes} :
  forall A B C (ma : matcher A) (mb : matcher B) (mc : matcher C) d l al (fb : direction -> list (B * nat)) (fc : direction -> list (C * nat)),
    ma d l = Ok al ->
    (forall i d', dir_after d i l = Some d' -> mb d' l = Ok (fb d') /\ mc d' l = Ok (fc d')) ->
    let next (i : nat) := opt_list (dir_after d i l) in
    fst (mem_seq2 (noting 1 ma) (noting 2 mb) d l []) =
      (1, d) :: flat_map (fun x => map (pair 2) (next (snd x))) al
    /\ fst (mem_seq3 (noting 1 ma) (noting 2 mb) (noting 3 mc) d l []) =
      (1, d) :: flat_map (fun x => flat_map (fun d' => (2, d') :: flat_map (fun y => map (pair 3) (next (snd y))) (fb d'))
                                     (next (snd x))) al.
Proof. exact thm_C84_order_seq. Qed.
Theorem C84_run {UC : Unicode} {U : UserTypes} :
  forall M t id l (r : mem_resolver M t) (st : M),
    (ll_tokens l = [] -> mem_run id l r st = (st, Ok l))
    /\ (ll_tokens l <> [] ->
        mem_run id l r st = (fst (r (whole id l) st), run id l (fun _ => snd (r (whole id l) st)))).
Proof. exact thm_C84_run. Qed.
Theorem C84_history {UC : Unicode} {U : UserTypes} :
  forall M l lg (st : M), remembering M l lg st -> History l lg.
Proof. exact thm_C84_history. Qed.
Theorem C84_again_refuted :
  exists M A lg s (mm : mem_matcher M A) st st' found,
    History (line_of s) lg /\ sel_ok s /\ mem_find_by s mm st = (st', Ok found) /\ snd (mem_find_by s mm st') <> Ok found.
Proof. exact thm_C84_again_refuted. Qed.
Theorem C84_seq_refuted :
  exists M A B l lg (ma : matcher A) (mb : mem_matcher M B) st d,
    History l lg /\ forall mb' : matcher B, snd (mem_seq2 (memoryless ma) mb d l st) <> x_seq2 ma mb' d l.
Proof. exact thm_C84_seq_refuted. Qed.
(** The matcher that lets only its first match through, recorded: it is asked at every index,
    answers once, and a matcher without memory would have answered at the other indexes. *)
Example C84_case :
  mem_find_by (mkSel rc3 3 5) (once (x_attr TStr)) false = (true, Ok [(mkSel rc3 3 5, of_string "x")])
  /\ fst (mem_find_by (mkSel rc3 3 5) (recording (once (x_attr TStr))) (false, [])) = (true, [Fwd 3; Fwd 4; Fwd 5])
  /\ fst (mem_find_both (mkSel rc3 3 4) (recording (once (x_attr TStr))) (false, []))
     = (true, [Fwd 3; Bwd 3; Fwd 4; Bwd 4])
  /\ mem_find_by (mkSel rc3 3 5) (memoryless (x_attr TStr)) false = (false, find_by (mkSel rc3 3 5) (x_attr TStr))
  /\ snd (mem_find_by (mkSel rc3 3 5) (once (x_attr TStr)) false) <> find_by (mkSel rc3 3 5) (x_attr TStr)
  /\ fst (mem_match_forwards (mkSel rc3 3 5) (recording (once x_token_text)) (false, [])) = (true, [Fwd 6])
  /\ fst (mem_match_forwards (mkSel rc3 3 6) (recording (once x_token_text)) (false, [])) = (false, [])
  /\ fst (mem_trim_selection (mkSel rc3 3 5) (recording (once x_token_text)) true true (false, [])) = (true, [Fwd 3; Bwd 5]).
Proof. facts. Qed.
(** A panic ends the questions. *)
Example C84_panic_case :
  mem_find_by (mkSel rc3 0 6) (recording (memoryless (x_token_has_any TChar N.eqb [32%N]))) (tt, [])
    = ((tt, [Fwd 0; Fwd 1; Fwd 2]), Panic PFwdAtEnd).
Proof. facts. Qed.
Example C84_order_case :
  x_attr TStr (Fwd 3) line3 = Ok [(of_string "x", 5); (of_string "y", 5); (of_string "v", 5)]
  /\ x_token_text (Fwd 3) line3 = Ok [(of_string "to", 3)]
  /\ (forall i d, dir_after (Fwd 3) i line3 = Some d -> x_attr TStr d line3 = Ok (get [] (x_attr TStr d line3)))
  /\ fst (mem_seq2 (noting 1 (x_attr TStr)) (noting 2 (x_attr TStr)) (Fwd 3) line3 [])
     = [(1, Fwd 3); (2, Fwd 6); (2, Fwd 6); (2, Fwd 6)]
  /\ fst (mem_seq3 (noting 1 x_token_text) (noting 2 (x_attr TStr)) (noting 3 (x_attr TStr)) (Fwd 3) line3 [])
     = [(1, Fwd 3); (2, Fwd 4); (3, Fwd 5)]
  /\ fst (mem_any_of2 (noting 1 (x_attr TStr)) (noting 2 x_token_text) (Fwd 5) line3 []) = [(1, Fwd 5); (2, Fwd 5)].
Proof. conj; try fact. intros i d E.
  do 6 (destruct i as [|i]; [injection E as <-; vm_compute; reflexivity|]). discriminate E. Qed.
(** A resolver that counts its runs: the second run gives another number. *)
Definition counter84 : mem_resolver N TNum := fun s n =>
  ((n + 1)%N, Ok (mkGo [finish_with_attr (t := TNum) s n] false)).
Example C84_run_case :
  exists l1 l2, mem_run 9 line3 counter84 0%N = (1%N, Ok l1) /\ mem_run 9 l1 counter84 1%N = (2%N, Ok l2)
  /\ remembering N l2 ((lg3 ++ [((0, 6), mkany TNum 0%N)]) ++ [((0, 6), mkany TNum 1%N)]) 2%N.
Proof.
  do 2 eexists. split; [reflexivity|]. split; [reflexivity|].
  eapply (R_run N _ (lg3 ++ [((0, 6), mkany TNum 0%N)]) 1%N TNum 9 counter84 (mkGo [finish_with_attr (t := TNum) (whole 9 line3) 1%N] false)).
  - apply (R_run N line3 lg3 0%N TNum 9 counter84 (mkGo [finish_with_attr (t := TNum) (whole 9 line3) 0%N] false)).
    + exact (R_start N line3 lg3 0%N history3).
    + discriminate.
    + reflexivity.
    + reflexivity.
  - discriminate.
  - reflexivity.
  - reflexivity.
Qed.
