(** Nesting of matchers and what a whole matcher expression finds, each with a
    concrete case: C54, C57. *)

From Verif Require Export PropMore ThmNest ThmLayer.

Local Open Scope string_scope.
Local Open Scope list_scope.

(** ** C54 Nesting of matchers *)
Theorem C54_seq3_left {UC : Unicode} {U : UserTypes} :
  forall l A B C (ma : matcher A) (mb : matcher B) (mc : matcher C) d ms,
    x_seq3 ma mb mc d l = Ok ms <-> x_seq2 (x_seq2 ma mb) mc d l = Ok ms.
Proof. exact thm_C54_seq3_left. Qed.
Theorem C54_seq3_right {UC : Unicode} {U : UserTypes} :
  forall l A B C (ma : matcher A) (mb : matcher B) (mc : matcher C) d,
    (forall ms, x_seq3 ma mb mc d l = Ok ms ->
       x_seq2 ma (x_seq2 mb mc) d l = Ok (map (fun '((a, b, c), e) => ((a, (b, c)), e)) ms))
    /\ (forall ms', x_seq2 ma (x_seq2 mb mc) d l = Ok ms' -> exists ms, x_seq3 ma mb mc d l = Ok ms).
Proof. exact thm_C54_seq3_right. Qed.
Theorem C54_all3 {UC : Unicode} {U : UserTypes} :
  forall l A B C (ma : matcher A) (mb : matcher B) (mc : matcher C) d ms,
    (x_all3 ma mb mc d l = Ok ms <-> x_all2 (x_all2 ma mb) mc d l = Ok ms)
    /\ (x_all3 ma mb mc d l = Ok ms ->
        x_all2 ma (x_all2 mb mc) d l = Ok (map (fun '((a, b, c), e) => ((a, (b, c)), e)) ms)).
Proof. exact thm_C54_all3. Qed.
Theorem C54_any_of3 {UC : Unicode} {U : UserTypes} :
  forall l A B C (ma : matcher A) (mb : matcher B) (mc : matcher C) d,
    rmap (map (fun x => (match fst x with A3_A a => A2_A a | A3_B b => A2_B (A2_A b) | A3_C c => A2_B (A2_B c) end, snd x)))
      (x_any_of3 ma mb mc d l) = x_any_of2 ma (x_any_of2 mb mc) d l.
Proof. exact thm_C54_any_of3. Qed.
Theorem C54_all_swap {UC : Unicode} {U : UserTypes} :
  forall l A B (ma : matcher A) (mb : matcher B) d ms,
    x_all2 ma mb d l = Ok ms ->
    exists ms', x_all2 mb ma d l = Ok ms' /\ Permutation ms' (map (fun '((a, b), e) => ((b, a), e)) ms).
Proof. exact thm_C54_all_swap. Qed.
(** On the third line (in2 with nested ranges) from token 3, forwards, and from
    token 5, backwards. *)
Example C54_case :
  x_seq3 x_token_text x_token_text x_token_text (Fwd 3) line3
    = Ok [((of_string "to", of_string " ", of_string "Bob"), 5)]
  /\ x_seq2 (x_seq2 x_token_text x_token_text) x_token_text (Fwd 3) line3
    = Ok [((of_string "to", of_string " ", of_string "Bob"), 5)]
  /\ x_seq2 x_token_text (x_seq2 x_token_text x_token_text) (Bwd 5) line3
    = Ok [((of_string "Bob", (of_string " ", of_string "to")), 3)]
  /\ x_all3 (x_attr TStr) (x_attr TNum) (x_attr TNum) (Fwd 3) line3
    = Ok [((of_string "x", 1%N, 1%N), 5); ((of_string "y", 1%N, 1%N), 5); ((of_string "v", 1%N, 1%N), 5)]
  /\ x_all2 (x_attr TNum) (x_attr TStr) (Fwd 3) line3
    = Ok [((1%N, of_string "x"), 5); ((1%N, of_string "y"), 5); ((1%N, of_string "v"), 5)]
  /\ x_any_of3 (x_attr TKeyword) (x_attr TNum) x_token_text (Fwd 3) line3 = Ok [(A3_B 1%N, 5)].
Proof. facts. Qed.

(** ** C57 What a matcher expression finds *)
Theorem C57_every_matcher {UC : Unicode} {U : UserTypes} :
  forall has A (m : matcher A),
    lib_matcher any_ty has A m <-> exists e : mexp A, matcher_of e = m /\ uses_has_any e = has.
Proof. exact thm_C57_every_matcher. Qed.
Theorem C57_meaning {UC : Unicode} {U : UserTypes} :
  forall l lg A (e : mexp A) d,
    History l lg -> applicable e l lg -> dir_idx d < length (ll_tokens l) ->
    exists ms, matcher_of e d l = Ok ms
      /\ Permutation ms (at_point d (meaning (is_fwd d) (ll_tokens l) lg e)).
Proof. exact thm_C57_meaning. Qed.
Theorem C57_find_by {UC : Unicode} {U : UserTypes} :
  forall A s (e : mexp A) lg,
    History (line_of s) lg -> applicable e (line_of s) lg -> sel_ok s ->
    exists found, find_by s (matcher_of e) = Ok found
      /\ (forall s' a, In (s', a) found -> sel_line s' = sel_line s)
      /\ StronglySorted le (map (fun x => fst (fst x)) (found_pairs found))
      /\ Permutation (found_pairs found) (beginning_in s (meaning true (ll_tokens (line_of s)) lg e)).
Proof. exact thm_C57_find_by. Qed.
Theorem C57_find_both {UC : Unicode} {U : UserTypes} :
  forall A s (e : mexp A) lg,
    History (line_of s) lg -> applicable e (line_of s) lg -> sel_ok s ->
    exists found, find_by_forwards_and_backwards s (matcher_of e) = Ok found
      /\ (forall s' a, In (s', a) found -> sel_line s' = sel_line s)
      /\ Permutation (found_pairs found)
           (beginning_in s (meaning true (ll_tokens (line_of s)) lg e)
            ++ ending_in s (meaning false (ll_tokens (line_of s)) lg e)).
Proof. exact thm_C57_find_both. Qed.
Theorem C57_run {UC : Unicode} {U : UserTypes} :
  forall t id l lg A (e : mexp A) (f : A -> den t),
    History l lg -> applicable e l lg ->
    exists out, runs_to id l lg (find_resolver t (matcher_of e) f) out
      /\ Permutation out (on_value f (meaning true (ll_tokens l) lg e)).
Proof. exact thm_C57_run. Qed.
Theorem C57_run_both {UC : Unicode} {U : UserTypes} :
  forall t id l lg A (e : mexp A) (f : A -> den t),
    History l lg -> applicable e l lg ->
    exists out, runs_to id l lg (find_both_resolver t (matcher_of e) f) out
      /\ Permutation out (on_value f (meaning true (ll_tokens l) lg e ++ meaning false (ll_tokens l) lg e)).
Proof. exact thm_C57_run_both. Qed.
Theorem C57_find {UC : Unicode} {U : UserTypes} :
  forall l lg A (e : mexp A),
    History l lg -> applicable e l lg ->
    exists fs rel, find l (matcher_of e) = Ok fs
      /\ Permutation rel (meaning true (ll_tokens l) lg e)
      /\ Forall2 (fun x y => exists ts te, nth_error (ll_tokens l) (fst (fst y)) = Some ts
                    /\ nth_error (ll_tokens l) (snd (fst y)) = Some te
                    /\ start_pos_at x = pos_starts_at ts /\ end_pos_at x = pos_ends_at te
                    /\ found x = snd y) fs rel.
Proof. exact thm_C57_find. Qed.
(** A string value followed by a text; a string and a number on the same range. *)
Definition e57 : mexp (den TStr * str) := M_seq2 _ _ (M_attr TStr) M_text.
Definition e57' : mexp (AnyOf2 (den TStr * den TNum) str) := M_any2 _ _ (M_all2 _ _ (M_attr TStr) (M_attr TNum)) M_text.
Example C57_case :
  History line3 lg3 /\ applicable e57 line3 lg3 /\ applicable e57' line3 lg3
  /\ meaning true (ll_tokens line3) lg3 e57
     = [((3, 6), (of_string "x", of_string "2")); ((3, 6), (of_string "y", of_string "2"));
        ((0, 6), (of_string "z", of_string "2")); ((4, 5), (of_string "w", of_string "Bob"));
        ((3, 6), (of_string "v", of_string "2"))]
  /\ meaning true (ll_tokens line3) lg3 e57'
     = [((3, 5), A2_A (of_string "x", 1%N)); ((3, 5), A2_A (of_string "y", 1%N)); ((3, 5), A2_A (of_string "v", 1%N));
        ((0, 0), A2_B (of_string "Pay")); ((1, 1), A2_B (of_string " ")); ((4, 4), A2_B (of_string " "));
        ((5, 5), A2_B (of_string "Bob")); ((6, 6), A2_B (of_string "2"))]
  /\ sel_ok (mkSel rc3 1 6)
  /\ rmap found_pairs (find_by (mkSel rc3 1 6) (matcher_of e57))
     = Ok [((3, 6), (of_string "x", of_string "2")); ((3, 6), (of_string "y", of_string "2"));
           ((3, 6), (of_string "v", of_string "2")); ((4, 5), (of_string "w", of_string "Bob"))].
Proof. conj; try fact; intros E; discriminate E. Qed.

(** The two resolvers of src/tests/currency_amount.rs on a dollar price and a price
    in euros, with the amounts assigned by hand. *)
Theorem C57_currency {UC : Unicode} {U : UserTypes} :
  forall tS tA tC (f : den tS * den tA -> den tC) id l lg,
    History l lg ->
    exists out, runs_to id l lg (currency_amount_resolver tS tA tC f) out
      /\ forall r c, In (r, c) out <->
           exists rs s ra a, In (rs, s) (assigned tS lg) /\ In (ra, a) (assigned tA lg) /\ c = f (s, a)
             /\ ((fst ra = S (snd rs) /\ r = (fst rs, snd ra)) \/ (fst rs = S (snd ra) /\ r = (fst ra, snd rs))).
Proof. exact thm_C57_currency. Qed.
Theorem C57_symbols {UC : Unicode} {U : UserTypes} :
  forall tS (usd euro : den tS) id l lg,
    History l lg -> text_only l -> plain TChar l lg ->
    runs_to id l lg (currency_symbol_resolver tS usd euro)
      (on_tokens (fun _ text => if str_eqb text [36%N] then [usd] else if str_eqb text [8364%N] then [euro] else []) (ll_tokens l)).
Proof. exact thm_C57_symbols. Qed.
Definition in7 : list InputToken := [InText (of_string "$12 or 5" ++ [8364%N]) []].
Definition line7 : LLLine := Eval vm_compute in line_from in7.
Definition lg7 : list entry := Eval vm_compute in log_from in7.
Lemma history7 : History line7 lg7.
Proof. exact (history_from in7 ltac:(wf_inputs) ltac:(vm_compute; reflexivity) eq_refl). Qed.
Definition line7s : LLLine := Eval vm_compute in
  get no_line (run 5 line7 (currency_symbol_resolver TStr (of_string "USD") (of_string "EUR"))).
Definition xs7 : list (LRange * den TStr) := [((0, 0), of_string "USD"); ((6, 6), of_string "EUR")].
Definition lg7s : list entry := Eval vm_compute in lg7 ++ map (fun '(r, v) => (r, mkany TStr v)) xs7.
Lemma history7s : History line7s lg7s.
Proof. exact (history_assign line7 lg7 5 xs7 history7 ltac:(discriminate) ltac:(vm_compute; reflexivity)). Qed.
Definition xs7a : list (LRange * den TNum) := [((1, 1), 12%N); ((5, 5), 5%N)].
Definition line7a : LLLine := Eval vm_compute in get no_line (run 5 line7s (assign (t := TNum) xs7a)).
Definition lg7a : list entry := Eval vm_compute in lg7s ++ map (fun '(r, v) => (r, mkany TNum v)) xs7a.
Lemma history7a : History line7a lg7a.
Proof. exact (history_assign line7s lg7s 5 xs7a history7s ltac:(discriminate) ltac:(vm_compute; reflexivity)). Qed.
Example C57_currency_case :
  text_of_line line7 = map of_string ["$"; "12"; " "; "or"; " "; "5"] ++ [[8364%N]]
  /\ History line7 lg7 /\ text_only line7 /\ plain TChar line7 lg7
  /\ run 5 line7 (currency_symbol_resolver TStr (of_string "USD") (of_string "EUR")) = Ok line7s
  /\ History line7a lg7a
  /\ rmap (map (fun x : (LRange * str * list str) => (fst (fst x), snd x)))
       (l' <- run 6 line7a (currency_amount_resolver TStr TNum TStr fst);; query l' TStr)
     = Ok [((0, 0), [of_string "USD"]); ((6, 6), [of_string "EUR"]); ((0, 1), [of_string "USD"]); ((5, 6), [of_string "EUR"])].
Proof.
  conj; try exact history7; try exact history7a; try fact.
  intros tok Hin E. simpl in Hin. repeat (destruct Hin as [<-|Hin]; [discriminate E|]). easy.
Qed.
