(** The properties of matchers (C15, C16, C18 to C23), each with a concrete case that
    meets its hypotheses. *)

From Verif Require Import ExLines ThmRefuted.

Local Open Scope list_scope.

(** The second line with a number on its custom token: every token has an attribute. *)
Definition lg12 : list entry := Eval vm_compute in lg2 ++ [((2, 2), mkany TNum 9%N)].
Lemma history12 : History line12 lg12.
Proof. exact (history_assign (t := TNum) line2 lg2 5 [((2, 2), 9%N)] history2 ltac:(discriminate) eq_refl). Qed.
Lemma attributed12 : forall i, i < length (ll_tokens line12) -> attributed i lg12.
Proof. intros i Hi. simpl in Hi. do 7 (destruct i as [|i]; [vm_compute; tauto|]). lia. Qed.

(** ** C15 Attributes at a token *)
Theorem C15_attr {UC : Unicode} {U : UserTypes} :
  forall l lg t i,
    History l lg -> i < length (ll_tokens l) ->
    (exists ms, x_attr t (Fwd i) l = Ok ms /\ Permutation ms (starting_at t i lg))
    /\ (exists ms, x_attr t (Bwd i) l = Ok ms /\ Permutation ms (ending_at t i lg)).
Proof. exact thm_C15_attr. Qed.
Theorem C15_attr_eq {UC : Unicode} {U : UserTypes} :
  forall l lg t eqT v i,
    History l lg -> i < length (ll_tokens l) ->
    (exists ms, x_attr_eq t eqT v (Fwd i) l = Ok ms
       /\ Permutation ms (map (fun x => (tt, snd x)) (passing (fun w => eqT w v) (starting_at t i lg))))
    /\ (exists ms, x_attr_eq t eqT v (Bwd i) l = Ok ms
       /\ Permutation ms (map (fun x => (tt, snd x)) (passing (fun w => eqT w v) (ending_at t i lg)))).
Proof. exact thm_C15_attr_eq. Qed.
Theorem C15_reads_query {UC : Unicode} {U : UserTypes} :
  forall l lg t i q,
    History l lg -> i < length (ll_tokens l) -> query l t = Ok q ->
    x_attr t (Fwd i) l =
      Ok (flat_map (fun '(r, _, vs) => if Nat.eqb (fst r) i then map (fun v => (v, snd r)) vs else []) q)
    /\ x_attr t (Bwd i) l =
      Ok (flat_map (fun '(r, _, vs) => if Nat.eqb (snd r) i then map (fun v => (v, fst r)) vs else []) q).
Proof. exact thm_C15_reads_query. Qed.
Example C15_case :
  History line3 lg3 /\ 3 < length (ll_tokens line3)
  /\ x_attr TStr (Fwd 3) line3 = Ok [(of_string "x", 5); (of_string "y", 5); (of_string "v", 5)]
  /\ x_attr TStr (Bwd 5) line3 = Ok [(of_string "x", 3); (of_string "y", 3); (of_string "v", 3); (of_string "z", 0)]
  /\ x_attr_eq TStr str_eqb (of_string "y") (Fwd 3) line3 = Ok [(tt, 5)]
  /\ exists q, query line3 TStr = Ok q.
Proof. conj; try fact. eexists. vm_compute. reflexivity. Qed.

(** ** C16 Forward and backward matching agree *)
Theorem C16_attr {UC : Unicode} {U : UserTypes} :
  forall l lg t, History l lg -> agrees (x_attr t) l.
Proof. exact thm_C16_attr. Qed.
Theorem C16_attr_eq {UC : Unicode} {U : UserTypes} :
  forall l lg t eqT v, History l lg -> agrees (x_attr_eq t eqT v) l.
Proof. exact thm_C16_attr_eq. Qed.
Theorem C16_token_text {UC : Unicode} {U : UserTypes} :
  forall l, agrees x_token_text l.
Proof. exact thm_C16_token_text. Qed.
Theorem C16_all {UC : Unicode} {U : UserTypes} :
  forall l A B (ma : matcher A) (mb : matcher B),
    agrees ma l -> agrees mb l -> agrees (x_all2 ma mb) l.
Proof. exact thm_C16_all. Qed.
Example C16_case :
  History line3 lg3 /\ agrees (x_attr TStr) line3 /\ agrees (x_attr TNum) line3
  /\ x_all2 (x_attr TStr) (x_attr TNum) (Fwd 3) line3
     = Ok [((of_string "x", 1%N), 5); ((of_string "y", 1%N), 5); ((of_string "v", 1%N), 5)]
  /\ x_all2 (x_attr TStr) (x_attr TNum) (Bwd 5) line3
     = Ok [((of_string "x", 1%N), 3); ((of_string "y", 1%N), 3); ((of_string "v", 1%N), 3)].
Proof. conj; try fact; exact (C16_attr line3 lg3 _ history3). Qed.

Theorem C16_token_has_any_refuted :
  exists l lg t eqT set, History l lg /\ proper lg /\ ~ agrees (x_token_has_any t eqT set) l.
Proof. exact thm_C16_token_has_any_refuted. Qed.
Theorem C16_any_of_refuted :
  exists l lg, History l lg /\ proper lg /\ ~ agrees (x_any_of2 (x_attr TStr) (x_attr TNum)) l.
Proof. exact thm_C16_any_of_refuted. Qed.

(** ** C18 token_has_any *)
Theorem C18_unattributed {UC : Unicode} {U : UserTypes} :
  forall l lg i, History l lg -> i < length (ll_tokens l) ->
    (~ attributed i lg <->
     exists tok, nth_error (ll_tokens l) i = Some tok /\ token tok = LValue
       /\ forall e, In e lg -> fst e <> (i, i)).
Proof. exact thm_C18_unattributed. Qed.
Theorem C18_token_has_any {UC : Unicode} {U : UserTypes} :
  forall l lg t eqT set i,
    History l lg -> i < length (ll_tokens l) ->
    (~ attributed i lg -> exists p, x_token_has_any t eqT set (Fwd i) l = Panic p)
    /\ (attributed i lg ->
        x_token_has_any t eqT set (Fwd i) l =
          Ok (map (fun v => (v, i))
                  (filter (fun v => existsb (fun s => eqT s v) set) (values_on t (i, i) lg))))
    /\ (exists ms, x_token_has_any t eqT set (Bwd i) l = Ok ms
          /\ Permutation ms (passing (fun v => existsb (fun s => eqT s v) set) (ending_at t i lg))).
Proof. exact thm_C18_token_has_any. Qed.
(** With an attributed token (1, a space), and one without attributes (2). *)
Example C18_case :
  History line2 lg2 /\ 2 < length (ll_tokens line2) /\ attributed 1 lg2 /\ ~ attributed 2 lg2
  /\ x_token_has_any TChar N.eqb [32%N] (Fwd 1) line2 = Ok [(32%N, 1)]
  /\ x_token_has_any TChar N.eqb [32%N] (Fwd 2) line2 = Panic PFwdAtEnd
  /\ x_token_has_any TChar N.eqb [32%N] (Bwd 2) line2 = Ok []
  /\ x_token_has_any TNum N.eqb [7%N] (Bwd 1) line2 = Ok [(7%N, 0)].
Proof. conj; try fact; vm_compute; intuition congruence. Qed.

(** ** C19 all *)
Theorem C19_all2 {UC : Unicode} {U : UserTypes} :
  forall l A B (ma : matcher A) (mb : matcher B) d al bl,
    ma d l = Ok al -> mb d l = Ok bl ->
    exists ms, x_all2 ma mb d l = Ok ms
      /\ (forall a b e, In ((a, b), e) ms <-> In (a, e) al /\ In (b, e) bl)
      /\ (forall e, at_end e ms = list_prod (at_end e al) (at_end e bl)).
Proof. exact thm_C19_all2. Qed.
Theorem C19_all3 {UC : Unicode} {U : UserTypes} :
  forall l A B C (ma : matcher A) (mb : matcher B) (mc : matcher C) d al bl cl,
    ma d l = Ok al -> mb d l = Ok bl -> mc d l = Ok cl ->
    exists ms, x_all3 ma mb mc d l = Ok ms
      /\ (forall a b c e, In ((a, b, c), e) ms <-> In (a, e) al /\ In (b, e) bl /\ In (c, e) cl)
      /\ (forall e, at_end e ms = list_prod (list_prod (at_end e al) (at_end e bl)) (at_end e cl)).
Proof. exact thm_C19_all3. Qed.
Theorem C19_panics {UC : Unicode} {U : UserTypes} :
  forall l A B (ma : matcher A) (mb : matcher B) d,
    ma d l <> OutOfFuel -> mb d l <> OutOfFuel ->
    ((exists p, x_all2 ma mb d l = Panic p) <-> (exists p, ma d l = Panic p) \/ (exists p, mb d l = Panic p)).
Proof. exact thm_C19_panics. Qed.
Example C19_case :
  x_attr TStr (Fwd 3) line3 = Ok [(of_string "x", 5); (of_string "y", 5); (of_string "v", 5)]
  /\ x_attr TNum (Fwd 3) line3 = Ok [(1%N, 5)]
  /\ x_all2 (x_attr TStr) (x_attr TNum) (Fwd 3) line3
     = Ok [((of_string "x", 1%N), 5); ((of_string "y", 1%N), 5); ((of_string "v", 1%N), 5)]
  /\ x_all3 (x_attr TNum) (x_attr TStr) (x_attr_eq TNum N.eqb 1%N) (Fwd 3) line3
     = Ok [((1%N, of_string "x", tt), 5); ((1%N, of_string "y", tt), 5); ((1%N, of_string "v", tt), 5)]
  /\ x_all2 (x_attr TStr) x_token_text (Fwd 3) line3 = Ok []
  /\ x_all2 (x_token_has_any TChar N.eqb [32%N]) x_token_text (Fwd 2) line3 = Panic PFwdAtEnd.
Proof. facts. Qed.

(** ** C20 any_of *)
Theorem C20_any_of2 {UC : Unicode} {U : UserTypes} :
  forall l A B (ma : matcher A) (mb : matcher B) d al,
    ma d l = Ok al ->
    (al <> [] -> x_any_of2 ma mb d l = Ok (map (fun x => (A2_A (fst x), snd x)) al))
    /\ (al = [] -> forall bl, mb d l = Ok bl ->
          x_any_of2 ma mb d l = Ok (map (fun x => (A2_B (fst x), snd x)) bl))
    /\ (al = [] -> forall p, mb d l = Panic p -> x_any_of2 ma mb d l = Panic p).
Proof. exact thm_C20_any_of2. Qed.
Theorem C20_any_of3 {UC : Unicode} {U : UserTypes} :
  forall l A B C (ma : matcher A) (mb : matcher B) (mc : matcher C) d al,
    ma d l = Ok al ->
    (al <> [] -> x_any_of3 ma mb mc d l = Ok (map (fun x => (A3_A (fst x), snd x)) al))
    /\ (al = [] -> forall bl, mb d l = Ok bl ->
          (bl <> [] -> x_any_of3 ma mb mc d l = Ok (map (fun x => (A3_B (fst x), snd x)) bl))
          /\ (bl = [] -> forall cl, mc d l = Ok cl ->
                x_any_of3 ma mb mc d l = Ok (map (fun x => (A3_C (fst x), snd x)) cl))).
Proof. exact thm_C20_any_of3. Qed.
Theorem C20_none {UC : Unicode} {U : UserTypes} :
  forall l A B (ma : matcher A) (mb : matcher B) d,
    x_any_of2 ma mb d l = Ok [] <-> ma d l = Ok [] /\ mb d l = Ok [].
Proof. exact thm_C20_none. Qed.
Example C20_case :
  x_attr TNum (Fwd 0) line2 = Ok [(7%N, 1)] /\ x_attr TStr (Fwd 0) line2 = Ok []
  /\ x_any_of2 (x_attr TNum) x_token_text (Fwd 0) line2 = Ok [(A2_A 7%N, 1)]
  /\ x_any_of2 (x_attr TStr) (x_attr TNum) (Fwd 0) line2 = Ok [(A2_B 7%N, 1)]
  /\ x_any_of3 (x_attr TStr) (x_attr TAmount) x_token_text (Fwd 0) line2 = Ok [(A3_C (of_string "Pay"), 0)]
  /\ x_any_of2 (x_attr TStr) (x_attr TAmount) (Fwd 0) line2 = Ok [].
Proof. facts. Qed.

(** ** C21 seq *)
Theorem C21_seq2 {UC : Unicode} {U : UserTypes} :
  forall l A B (ma : matcher A) (mb : matcher B) d ms,
    x_seq2 ma mb d l = Ok ms ->
    exists al, ma d l = Ok al /\
    forall a b e, In ((a, b), e) ms <->
      exists j d' bl, In (a, j) al /\ next_point (length (ll_tokens l)) d d' j
        /\ mb d' l = Ok bl /\ In (b, e) bl.
Proof. exact thm_C21_seq2. Qed.
Theorem C21_seq3 {UC : Unicode} {U : UserTypes} :
  forall l A B C (ma : matcher A) (mb : matcher B) (mc : matcher C) d ms,
    x_seq3 ma mb mc d l = Ok ms ->
    exists al, ma d l = Ok al /\
    forall a b c e, In ((a, b, c), e) ms <->
      exists j d1 bl k d2 cl, In (a, j) al /\ next_point (length (ll_tokens l)) d d1 j
        /\ mb d1 l = Ok bl /\ In (b, k) bl /\ next_point (length (ll_tokens l)) d1 d2 k
        /\ mc d2 l = Ok cl /\ In (c, e) cl.
Proof. exact thm_C21_seq3. Qed.
Theorem C21_inside_only {UC : Unicode} {U : UserTypes} :
  forall l A B (ma : matcher A) (mb : matcher B) d al (bm : direction -> list (B * nat)),
    ma d l = Ok al ->
    (forall a j, In (a, j) al -> j < length (ll_tokens l)) ->
    (forall d', dir_idx d' < length (ll_tokens l) -> mb d' l = Ok (bm d')) ->
    x_seq2 ma mb d l = Ok
      (flat_map (fun '(a, j) =>
         map (fun '(b, e) => ((a, b), e))
           match d with
           | Fwd _ => if Nat.eqb (S j) (length (ll_tokens l)) then [] else bm (Fwd (S j))
           | Bwd _ => match j with O => [] | S k => bm (Bwd k) end
           end) al).
Proof. exact thm_C21_inside_only. Qed.
Definition texts21 (d : direction) : list (str * nat) := get [] (x_token_text d line12).
Example C21_case :
  x_seq2 (x_attr TNum) (x_attr TNum) (Fwd 0) line12 = Ok [((7%N, 9%N), 2)]
  /\ x_seq2 (x_attr TNum) (x_attr TNum) (Bwd 5) line12 = Ok [((1%N, 9%N), 2)]
  /\ x_seq3 (x_attr TNum) (x_attr TNum) (x_attr TNum) (Fwd 0) line12 = Ok [((7%N, 9%N, 1%N), 5)]
  /\ x_seq2 (x_attr TNum) x_token_text (Fwd 3) line12 = Ok [((1%N, of_string "2"), 6)]
  /\ x_seq2 x_token_text x_token_text (Fwd 6) line12 = Ok []
  /\ (forall d, dir_idx d < length (ll_tokens line12) -> x_token_text d line12 = Ok (texts21 d)).
Proof.
  conj; try fact. intros d Hd.
  destruct (thm_C23_without_has_any line12 lg12 any_ty str x_token_text history12 (LM_token_text any_ty) d Hd) as [ms E].
  unfold texts21. rewrite E. reflexivity.
Qed.

(** ** C22 Matches stay in the line *)
Theorem C22_inside {UC : Unicode} {U : UserTypes} :
  forall l lg P has A (m : matcher A),
    History l lg -> proper lg -> lib_matcher P has A m -> bounded m l.
Proof. exact thm_C22_inside. Qed.
Theorem C22_ends_in_line {UC : Unicode} {U : UserTypes} :
  forall l lg P has A (m : matcher A) d ms a j,
    History l lg -> lib_matcher P has A m -> dir_idx d < length (ll_tokens l) ->
    m d l = Ok ms -> In (a, j) ms -> j < length (ll_tokens l).
Proof. exact thm_C22_ends_in_line. Qed.
Definition m22 : matcher (N * AnyOf2 str char) :=
  x_seq2 (x_attr TNum) (x_any_of2 (x_attr TStr) (x_token_has_any TChar N.eqb [50%N])).
Lemma lib22 (P : ty -> Prop) : P TNum -> P TStr -> P TChar -> lib_matcher P true (N * AnyOf2 str char) m22.
Proof.
  intros. apply (LM_seq2 P false true N _ (x_attr TNum)); [now apply (LM_attr P TNum)|].
  apply (LM_any2 P false true str char (x_attr TStr)); [now apply (LM_attr P TStr)|now apply (LM_token_has_any P TChar)].
Qed.
Example C22_case :
  History line3 lg3 /\ proper lg3 /\ lib_matcher any_ty true _ m22 /\ dir_idx (Fwd 3) < length (ll_tokens line3)
  /\ m22 (Fwd 3) line3 = Ok [((1%N, A2_B 50%N), 6)].
Proof. conj; try fact. apply lib22; exact I. Qed.

(** ** C23 Which matchers can panic *)
Theorem C23_without_has_any {UC : Unicode} {U : UserTypes} :
  forall l lg P A (m : matcher A), History l lg -> lib_matcher P false A m -> safe m l.
Proof. exact thm_C23_without_has_any. Qed.
Example C23_without_has_any_case :
  History line2 lg2 /\ lib_matcher any_ty false _ (x_seq2 (x_attr TNum) x_token_text) /\ length (ll_tokens line2) = 7.
Proof. conj; try fact. apply (LM_seq2 _ false false); [now apply LM_attr|apply LM_token_text]. Qed.
Theorem C23_backwards {UC : Unicode} {U : UserTypes} :
  forall l lg P has A (m : matcher A) i, History l lg -> lib_matcher P has A m ->
    i < length (ll_tokens l) -> exists ms, m (Bwd i) l = Ok ms.
Proof. exact thm_C23_backwards. Qed.
Example C23_backwards_case :
  History line2 lg2 /\ lib_matcher any_ty true _ m22 /\ 6 < length (ll_tokens line2)
  /\ m22 (Fwd 0) line2 = Panic PFwdAtEnd /\ exists ms, m22 (Bwd 1) line2 = Ok ms.
Proof. conj; try fact; [apply lib22; exact I|]. eexists. vm_compute. reflexivity. Qed.
Theorem C23_attributed {UC : Unicode} {U : UserTypes} :
  forall l lg P has A (m : matcher A), History l lg -> lib_matcher P has A m ->
    (forall i, i < length (ll_tokens l) -> attributed i lg) -> safe m l.
Proof. exact thm_C23_attributed. Qed.
Example C23_attributed_case :
  History line12 lg12 /\ lib_matcher any_ty true _ m22 /\ (forall i, i < length (ll_tokens line12) -> attributed i lg12).
Proof. conj; [exact history12|apply lib22; exact I|exact attributed12]. Qed.
Theorem C23_text_only {UC : Unicode} {U : UserTypes} :
  forall l lg P has A (m : matcher A), History l lg -> lib_matcher P has A m ->
    (forall tok, In tok (ll_tokens l) -> token tok <> LValue) -> safe m l.
Proof. exact thm_C23_text_only. Qed.
Example C23_text_only_case :
  History line1 lg1 /\ lib_matcher any_ty true _ m22 /\ (forall tok, In tok (ll_tokens line1) -> token tok <> LValue).
Proof. conj; [fact|apply lib22; exact I|exact text_only1]. Qed.
