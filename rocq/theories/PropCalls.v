(** Functions given by users (C86), with concrete cases. *)

From Verif Require Export PropState ThmCalls.

Local Open Scope string_scope.
Local Open Scope list_scope.

(** ** C86 Functions given by users *)
Theorem C86_sizes {UC : Unicode} {U : UserTypes} :
  forall (SL : SegmenterLaws) M (size : str -> mem M N) tg input st st' l,
    Forall wf_input input ->
    mem_create_line size tg input st = (st', Ok l) ->
    exists groups : list (list (LToken * N)),
      Forall2 (fun it g => cut_of it (map fst g) /\ (forall n ats, it = InCustom n ats -> map snd g = [n])) input groups
      /\ map token (ll_tokens l) = map fst (concat groups)
      /\ in_turn (calling size) (words_of (map token (ll_tokens l))) st st' (Ok (text_sizes (concat groups)))
      /\ ((total (concat groups) < 2 ^ usize_bits tg)%N -> ll_tokens l = layout (concat groups))
      /\ (overflow_checks tg = true -> (total (concat groups) < 2 ^ usize_bits tg)%N)
      /\ (overflow_checks tg = false -> ll_tokens l = layout_mod (2 ^ usize_bits tg) (concat groups)).
Proof. exact thm_C86_sizes. Qed.
Theorem C86_sizes_only {UC : Unicode} {U : UserTypes} :
  forall M (size : str -> mem M N) tg tg0 sz0 input st st' l,
    Forall wf_input input ->
    mem_create_line size tg input st = (st', Ok l) ->
    (exists lg, History l lg)
    /\ (overflow_checks tg0 = false -> exists l0, create_line_from_input_tokens tg0 input sz0 = Ok l0)
    /\ forall l0, create_line_from_input_tokens tg0 input sz0 = Ok l0 ->
         map token (ll_tokens l) = map token (ll_tokens l0)
         /\ exists lg, History l lg /\ History l0 lg.
Proof. exact thm_C86_sizes_only. Qed.
Theorem C86_sizes_panic {UC : Unicode} {U : UserTypes} :
  forall (SL : SegmenterLaws) M (size : str -> mem M N) tg tg0 sz0 input st st' p l0,
    Forall wf_input input ->
    create_line_from_input_tokens tg0 input sz0 = Ok l0 ->
    mem_create_line size tg input st = (st', Panic p) ->
    (exists asked unasked, words_of (map token (ll_tokens l0)) = asked ++ unasked
       /\ in_turn (calling size) asked st st' (Panic p))
    \/ (p = POverflow /\ overflow_checks tg = true
        /\ exists before after (groups : list (list (LToken * N))), input = before ++ after
           /\ Forall2 (fun it g => cut_of it (map fst g) /\ (forall n ats, it = InCustom n ats -> map snd g = [n])) before groups
           /\ in_turn (calling size) (words_of (map fst (concat groups))) st st' (Ok (text_sizes (concat groups)))
           /\ (2 ^ usize_bits tg <= total (concat groups))%N).
Proof. exact thm_C86_sizes_panic. Qed.
Theorem C86_sizes_answered {UC : Unicode} {U : UserTypes} :
  forall M (size : str -> mem M N) tg tg0 sz0 input st st' answers l0,
    Forall wf_input input ->
    create_line_from_input_tokens tg0 input sz0 = Ok l0 ->
    in_turn (calling size) (words_of (map token (ll_tokens l0))) st st' (Ok answers) ->
    (exists l, mem_create_line size tg input st = (st', Ok l))
    \/ (overflow_checks tg = true /\ exists st1, mem_create_line size tg input st = (st1, Panic POverflow)).
Proof. exact thm_C86_sizes_answered. Qed.
Theorem C86_attr_eq {UC : Unicode} {U : UserTypes} :
  forall M t (eqT : den t -> den t -> mem M bool) v d l ms st,
    x_attr t d l = Ok ms ->
    exists st' r, in_turn (calling (fun m => eqT (fst m) v)) ms st st' r
      /\ mem_attr_eq t eqT v d l st = (st', rmap (fun bs => map (fun m => (tt, snd m)) (those_with ms bs)) r).
Proof. exact thm_C86_attr_eq. Qed.
Theorem C86_has_any {UC : Unicode} {U : UserTypes} :
  forall M t (eqT : den t -> den t -> mem M bool) set l lg i st,
    History l lg ->
    (~ attributed i lg -> exists p, mem_token_has_any t eqT set (Fwd i) l st = (st, Panic p))
    /\ (attributed i lg -> exists st' r,
          in_turn (fun v => until_yes (fun e => eqT e v) set) (values_on t (i, i) lg) st st' r
          /\ mem_token_has_any t eqT set (Fwd i) l st
             = (st', rmap (fun bs => map (fun v => (v, i)) (those_with (values_on t (i, i) lg) bs)) r))
    /\ (forall ms, x_attr t (Bwd i) l = Ok ms -> exists st' r,
          in_turn (fun m => until_yes (fun e => eqT e (fst m)) set) ms st st' r
          /\ mem_token_has_any t eqT set (Bwd i) l st = (st', rmap (those_with ms) r)).
Proof. exact thm_C86_has_any. Qed.
Theorem C86_debug {UC : Unicode} {U : UserTypes} :
  forall M t (dbg : den t -> mem M str) l lg rows st,
    History l lg ->
    exists st' r,
      in_turn (calling dbg) (flat_map (fun rg => values_on t rg lg) (ranges_of t lg)) st st' r
      /\ (forall texts, r = Ok texts -> exists textss, texts = concat textss
            /\ Forall2 (fun rg ts => length ts = length (values_on t rg lg)) (ranges_of t lg) textss
            /\ mem_display_include t dbg (mkDisplay l rows) st
               = (st', Ok (mkDisplay l (rows ++ concat (map (fun x => map (pair (fst x)) (rev (snd x))) (combine (ranges_of t lg) textss))))))
      /\ (forall p, r = Panic p -> mem_display_include t dbg (mkDisplay l rows) st = (st', Panic p)).
Proof. exact thm_C86_debug. Qed.
Theorem C86_finish {UC : Unicode} {U : UserTypes} :
  forall M t T (f : T -> mem M (den t)) (items : list (LLSelection * T)) st,
    exists st' r, in_turn (calling f) (map snd items) st st' r
      /\ mem_finish_with items f st
         = (st', rmap (fun vs => map (fun x => finish_with_attr (fst (fst x)) (snd x)) (combine items vs)) r).
Proof. exact thm_C86_finish. Qed.
Theorem C86_clone {UC : Unicode} {U : UserTypes} :
  forall M t (clone : den t -> mem M (den t)) (r : TextMatch t) sel st,
    (forall g, text_match_go r sel = Ok g ->
      exists st' a, in_turn (calling clone) (map as_value (go_assignments g)) st st' a
        /\ mem_text_match_go clone r sel st
           = (st', rmap (fun vs => mkGo (map (fun x => mkAssign (as_start (fst x)) (as_end (fst x)) (snd x)) (combine (go_assignments g) vs)) (go_retained g)) a))
    /\ (forall p, text_match_go r sel = Panic p -> mem_text_match_go clone r sel st = (st, Panic p)).
Proof. exact thm_C86_clone. Qed.
Theorem C86_clone_array {UC : Unicode} {U : UserTypes} :
  forall M t (clone : den t -> mem M (den t)) (lk : list (str * den t)) st,
    exists st' a, in_turn (calling clone) (map snd lk) st st' a
      /\ mem_text_match_new_ci_arr clone lk st = (st', rmap (fun vs => text_match_new_ci_arr (combine (map fst lk) vs)) a).
Proof. exact thm_C86_clone_array. Qed.
Theorem C86_pure {UC : Unicode} {U : UserTypes} :
  forall M (st : M),
    (forall sz tg input, mem_create_line (plainly sz) tg input st = (st, create_line_from_input_tokens tg input sz))
    /\ (forall t eqT v d l, mem_attr_eq t (fun a => plainly (eqT a)) v d l st = (st, x_attr_eq t eqT v d l))
    /\ (forall t eqT set d l, mem_token_has_any t (fun a => plainly (eqT a)) set d l st = (st, x_token_has_any t eqT set d l))
    /\ (forall t dbg d, mem_display_include t (plainly dbg) d st = (st, display_include t dbg d))
    /\ (forall t T (f : T -> den t) items, mem_finish_with items (plainly f) st = (st, Ok (finish_with items f)))
    /\ (forall t (lk : list (str * den t)), mem_text_match_new_ci_arr (plainly (fun v => v)) lk st = (st, Ok (text_match_new_ci_arr lk)))
    /\ (forall t (r : TextMatch t) sel, mem_text_match_go (plainly (fun v => v)) r sel st = (st, text_match_go r sel)).
Proof. exact thm_C86_pure. Qed.
(** A size function that gives its answers numbers, keeping what it was asked, and panics at the
    word stop. *)
Definition numbering : str -> mem (list str) N := fun s asked =>
  (asked ++ [s], if str_eqb s (of_string "stop") then Panic PUser else Ok (N.of_nat (length asked))).
Definition in86 : list InputToken := [InText (of_string "to 2to") []; InCustom 5 []; InText (of_string "to") [any_of TStr (of_string "x")]].
Example C86_sizes_case :
  Forall wf_input in86
  /\ (exists l, mem_create_line numbering tg64 in86 [] = (map of_string ["to"; " "; "2"; "to"; "to"], Ok l)
        /\ map (fun tok => (ltext (token tok), pos_starts_at tok, pos_ends_at tok)) (ll_tokens l)
           = [(of_string "to", 0, 0); (of_string " ", 0, 1); (of_string "2", 1, 3); (of_string "to", 3, 6); ([], 6, 11); (of_string "to", 11, 15)]%N)
  /\ (exists l0, create_line_from_input_tokens tg64 in86 str_len = Ok l0)
  /\ in_turn (calling numbering) (map of_string ["to"; " "; "2"; "to"; "to"]) [] (map of_string ["to"; " "; "2"; "to"; "to"])
       (Ok [0; 1; 2; 3; 4]%N).
Proof.
  conj; try fact.
  - wf_inputs.
  - eexists. split; vm_compute; reflexivity.
  - eexists. vm_compute. reflexivity.
  - do 5 (match goal with |- in_turn _ _ _ _ (Ok (?b :: ?bs)) => change (Ok (b :: bs)) with (rmap (cons b) (Ok bs)) end;
      eapply T_answer; [vm_compute; reflexivity|]).
    apply T_done.
Qed.
(** A panic of the function ends the questions; so does an overflow, on a target with overflow checks. *)
Example C86_sizes_panic_case :
  mem_create_line numbering tg64 [InText (of_string "to stop to") []] [] = (map of_string ["to"; " "; "stop"], Panic PUser)
  /\ mem_create_line (fun s n => (n + 1, Ok (2 ^ 63))%N) tg64 [InText (of_string "to") []; InText (of_string "3x") []; InText (of_string "to") []] 0%N
     = (3, Panic POverflow)%N
  /\ (exists l0, create_line_from_input_tokens tg64 [InText (of_string "to stop to") []] str_len = Ok l0)
  /\ fst (mem_create_line (plainly str_len) tg64 in86 7) = 7.
Proof. conj; try fact. eexists. vm_compute. reflexivity. Qed.
(** A comparison that only says yes once. *)
Definition eq_once : str -> str -> mem bool bool := fun a b used => (used || str_eqb a b, Ok (negb used && str_eqb a b)).
Example C86_attr_eq_case :
  x_attr TStr (Fwd 3) line3 = Ok [(of_string "x", 5); (of_string "y", 5); (of_string "v", 5)]
  /\ mem_attr_eq TStr eq_once (of_string "y") (Fwd 3) line3 false = (true, Ok [(tt, 5)])
  /\ mem_attr_eq TStr eq_once (of_string "y") (Fwd 3) line3 true = (true, Ok [])
  /\ mem_attr_eq TStr (fun a _ n => (S n, if str_eqb a (of_string "y") then Panic PUser else Ok true)) (of_string "y") (Fwd 3) line3 0
     = (2, Panic PUser).
Proof. facts. Qed.
(** Which comparisons are made: those of the listed values with each attribute, up to the first yes. *)
Definition eq_noting : str -> str -> mem (list (str * str)) bool := fun a b log => (log ++ [(a, b)], Ok (str_eqb a b)).
Definition one86 : list InputToken := [InText (of_string "to") (map (fun s => any_of TStr (of_string s)) ["p"; "q"])].
Definition line86 : LLLine := Eval vm_compute in line_from one86.
Definition lg86 : list entry := Eval vm_compute in log_from one86.
Lemma history86 : History line86 lg86.
Proof.
  apply (history_from one86); [|vm_compute; reflexivity..].
  repeat constructor; cbn [In]; apply any_wf.
Qed.
Example C86_has_any_case :
  History line86 lg86 /\ attributed 0 lg86
  /\ mem_token_has_any TStr eq_noting (map of_string ["p"; "r"]) (Fwd 0) line86 []
     = (map (fun x => (of_string (fst x), of_string (snd x))) [("p", "p"); ("p", "q"); ("r", "q")], Ok [(of_string "p", 0)])
  /\ mem_token_has_any TStr eq_noting (map of_string ["r"; "q"]) (Bwd 0) line86 []
     = (map (fun x => (of_string (fst x), of_string (snd x))) [("r", "p"); ("q", "p"); ("r", "q"); ("q", "q")], Ok [(of_string "q", 0)]).
Proof. conj; try fact; [exact history86|]. left. reflexivity. Qed.
(** Values are printed in the order of assignment, rows are in the opposite order. *)
Example C86_debug_case :
  mem_display_include TStr (fun v n => (S n, Ok (v ++ [N.of_nat (48 + n)]))) (mkDisplay line86 []) 0
  = (2, Ok (mkDisplay line86 [((0, 0), of_string "q1"); ((0, 0), of_string "p0")]))
  /\ mem_display_include TStr (fun v n => (S n, Panic PUser)) (mkDisplay line86 []) 0 = (1, Panic PUser).
Proof. facts. Qed.
Example C86_finish_case :
  mem_finish_with (t := TNum) [(mkSel rc3 0 1, 7%N); (mkSel rc3 3 5, 9%N)] (fun x n => ((n + 1)%N, Ok (x * 10 + n)%N)) 1%N
  = (3%N, Ok [mkAssign (t := TNum) 0 1 71%N; mkAssign (t := TNum) 3 5 92%N]).
Proof. facts. Qed.
(** A clone that is not equal to the original. *)
Definition cloning : str -> mem nat str := fun v n => (S n, Ok (v ++ [N.of_nat (48 + n)])).
Example C86_clone_case :
  let r := text_match_new (t := TStr) [(of_string "to", map of_string ["a"; "b"])] in
  (exists g, text_match_go r (whole 1 line86) = Ok g /\ map as_value (go_assignments g) = map of_string ["a"; "b"])
  /\ mem_text_match_go (t := TStr) cloning r (whole 1 line86) 0
     = (2, Ok (mkGo [mkAssign (t := TStr) 0 0 (of_string "a0"); mkAssign (t := TStr) 0 0 (of_string "b1")] false))
  /\ mem_text_match_new_ci_arr (t := TStr) cloning [(of_string "To", of_string "a"); (of_string "tO", of_string "b")] 0
     = (2, Ok (mkTextMatch (t := TStr) false [(of_string "to", [of_string "b1"])])).
Proof. cbv zeta. conj; try fact. eexists. split; vm_compute; reflexivity. Qed.
