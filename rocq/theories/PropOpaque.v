(** Values are opaque (C88), with concrete cases. *)

From Verif Require Export PropState PropUser ThmOpaque.

Local Open Scope string_scope.
Local Open Scope list_scope.

(** ** C88 Values are opaque *)
Theorem C88_layers {UC : Unicode} {U : UserTypes} :
  forall (Val : forall t, den t -> den t -> Prop) tg sz input input' rs rs',
    (forall v, Val TTextTag v v) -> (forall v, Val TChar v v) ->
    Forall2 (inputs_corr Val) input input' -> layers_corr Val rs rs' ->
    results_corr (lines_corr Val) (l <- create_line_from_input_tokens tg input sz;; run_layers l rs)
      (l <- create_line_from_input_tokens tg input' sz;; run_layers l rs').
Proof. exact thm_C88_layers. Qed.
Theorem C88_run {UC : Unicode} {U : UserTypes} :
  forall (Val : forall t, den t -> den t -> Prop) t (r r' : Resolver t) id id' l l',
    lines_corr Val l l' -> results_corr (gos_corr Val) (r (whole id l)) (r' (whole id' l')) ->
    results_corr (lines_corr Val) (run id l r) (run id' l' r').
Proof. exact thm_C88_run. Qed.
Theorem C88_resolvers {UC : Unicode} {U : UserTypes} :
  forall (Val : forall t, den t -> den t -> Prop),
    (forall t A B (Q : A -> B -> Prop) m m' f f',
       (forall l l', lines_corr Val l l' -> matchers_corr Q l l' m m') -> (forall a b, Q a b -> Val t (f a) (f' b)) ->
       resolvers_corr Val (find_resolver t m f) (find_resolver t m' f')
       /\ resolvers_corr Val (find_both_resolver t m f) (find_both_resolver t m' f'))
    /\ (forall t (m m' : TextMatch t), case_sensitive m = case_sensitive m' ->
          Forall2 (fun e e' => fst e = fst e' /\ Forall2 (Val t) (snd e) (snd e')) (lookup m) (lookup m') ->
          resolvers_corr Val (text_match_go m) (text_match_go m'))
    /\ (forall t (c c' : LRange -> code t), (forall r, codes_corr Val (c r) (c' r)) ->
          resolvers_corr Val (resolver_by c) (resolver_by c'))
    /\ (forall words, (forall v, Val TKeyword v v) -> resolvers_corr Val (clause_keyword_go words) (clause_keyword_go words))
    /\ ((forall v w, Val TKeyword v w -> v = w) -> (forall v w, Val TTextTag v w -> v = w) -> (forall v, Val TClause v v) ->
          resolvers_corr Val clause_go clause_go)
    /\ (forall dict noun, (forall v w, Val TTextTag v w -> v = w) -> (forall v, Val TPos v v) ->
          resolvers_corr Val (pos_go dict noun) (pos_go dict noun))
    /\ (forall parse r, (forall v w, Val TTextTag v w -> v = w) -> (forall v w, Val TChar v w -> v = w) -> (forall v, Val TAmount v v) ->
          resolvers_corr Val (amount_go parse r) (amount_go parse r)).
Proof. exact thm_C88_resolvers. Qed.
Theorem C88_answers {UC : Unicode} {U : UserTypes} :
  forall (Val : forall t, den t -> den t -> Prop) l l',
    lines_corr Val l l' ->
    (forall t, results_corr (Forall2 (rows_corr Val t)) (query l t) (query l' t))
    /\ (forall tg incs incs', Forall2 (blind_shown Val) incs incs' -> show tg l incs = show tg l' incs')
    /\ (forall A B (Q : A -> B -> Prop) m m', matchers_corr Q l l' m m' ->
          results_corr (Forall2 (finds_corr Q)) (find l m) (find l' m')).
Proof. exact thm_C88_answers. Qed.
Theorem C88_exchanged {UC : Unicode} {U : UserTypes} :
  forall (f : forall t, den t -> den t) l l' t,
    lines_corr (fun t v w => w = f t v) l l' ->
    query l' t = rmap (map (fun '(r, text, vs) => (r, text, map (f t) vs))) (query l t).
Proof. exact thm_C88_exchanged. Qed.
Theorem C88_matchers {UC : Unicode} {U : UserTypes} :
  forall (Val : forall t, den t -> den t -> Prop) l l',
    lines_corr Val l l' ->
    (forall t, matchers_corr (Val t) l l' (x_attr t) (x_attr t))
    /\ (forall t eqT eqT' v v', blind_eq Val t eqT eqT' v v' -> matchers_corr eq l l' (x_attr_eq t eqT v) (x_attr_eq t eqT' v'))
    /\ (forall t eqT eqT' set set', blind_set Val t eqT eqT' set set' ->
          matchers_corr (Val t) l l' (x_token_has_any t eqT set) (x_token_has_any t eqT' set'))
    /\ matchers_corr eq l l' x_token_text x_token_text
    /\ (forall A B C D (Q1 : A -> B -> Prop) (Q2 : C -> D -> Prop) m1 m1' m2 m2',
          matchers_corr Q1 l l' m1 m1' -> matchers_corr Q2 l l' m2 m2' ->
          matchers_corr (both Q1 Q2) l l' (x_all2 m1 m2) (x_all2 m1' m2')
          /\ matchers_corr (either2 Q1 Q2) l l' (x_any_of2 m1 m2) (x_any_of2 m1' m2')
          /\ matchers_corr (both Q1 Q2) l l' (x_seq2 m1 m2) (x_seq2 m1' m2'))
    /\ (forall A B C D E F (Q1 : A -> B -> Prop) (Q2 : C -> D -> Prop) (Q3 : E -> F -> Prop) m1 m1' m2 m2' m3 m3',
          matchers_corr Q1 l l' m1 m1' -> matchers_corr Q2 l l' m2 m2' -> matchers_corr Q3 l l' m3 m3' ->
          matchers_corr (both (both Q1 Q2) Q3) l l' (x_all3 m1 m2 m3) (x_all3 m1' m2' m3')
          /\ matchers_corr (either3 Q1 Q2 Q3) l l' (x_any_of3 m1 m2 m3) (x_any_of3 m1' m2' m3')
          /\ matchers_corr (both (both Q1 Q2) Q3) l l' (x_seq3 m1 m2 m3) (x_seq3 m1' m2' m3')).
Proof. exact thm_C88_matchers. Qed.
Theorem C88_user_matchers {UC : Unicode} {U : UserTypes} :
  forall (Val : forall t, den t -> den t -> Prop) l l' A B (Q : A -> B -> Prop) go go',
    lines_corr Val l l' -> (forall d, programs_corr Val Q (go d) (go' d)) ->
    matchers_corr Q l l' (matcher_by go) (matcher_by go').
Proof. exact thm_C88_user_matchers. Qed.
Theorem C88_selections {UC : Unicode} {U : UserTypes} :
  forall (Val : forall t, den t -> den t -> Prop) l l' s s' A B (Q : A -> B -> Prop) m m',
    lines_corr Val l l' -> sels_corr l l' s s' -> matchers_corr Q l l' m m' ->
    let found := fun (x : LLSelection * A) (y : LLSelection * B) => sels_corr l l' (fst x) (fst y) /\ Q (snd x) (snd y) in
    results_corr (Forall2 found) (find_by s m) (find_by s' m')
    /\ results_corr (opts_corr found) (find_first_by s m) (find_first_by s' m')
    /\ results_corr (Forall2 found) (find_by_forwards_and_backwards s m) (find_by_forwards_and_backwards s' m')
    /\ results_corr (Forall2 (sels_corr l l')) (split_by s m) (split_by s' m')
    /\ results_corr (Forall2 found) (match_forwards s m) (match_forwards s' m')
    /\ results_corr (opts_corr found) (match_first_forwards s m) (match_first_forwards s' m')
    /\ results_corr (Forall2 found) (match_backwards s m) (match_backwards s' m')
    /\ results_corr (opts_corr found) (match_first_backwards s m) (match_first_backwards s' m')
    /\ results_corr (opts_corr (sels_corr l l')) (trim_start s m) (trim_start s' m')
    /\ results_corr (opts_corr (sels_corr l l')) (trim_end s m) (trim_end s' m')
    /\ results_corr (opts_corr (sels_corr l l')) (trim s m) (trim s' m')
    /\ results_corr (opts_corr (sels_corr l l')) (sel_after s) (sel_after s').
Proof. exact thm_C88_selections. Qed.
Theorem C88_compared_refuted :
  exists l l' t eqT v d, lines_corr (fun _ _ _ => True) l l' /\ x_attr_eq t eqT v d l <> x_attr_eq t eqT v d l'.
Proof. exact thm_C88_compared_refuted. Qed.
(** Numbers are doubled, everything else stays. *)
Definition double88 (t : ty) : den t -> den t :=
  match ty_eq_dec TNum t with left e => eq_rect TNum (fun t => den t -> den t) N.double t e | right _ => fun v => v end.
Definition Val88 (t : ty) (v w : den t) : Prop := w = double88 t v.
Lemma double88_same t v : t <> TNum -> double88 t v = v.
Proof. intros N. unfold double88. destruct (ty_eq_dec TNum t); [congruence|reflexivity]. Qed.
Lemma double88_num v : double88 TNum v = N.double v.
Proof. reflexivity. Qed.
Definition in88 : list InputToken := [InText "Pay" [any_of TNum 7%N]; InCustom 2 [any_of TNum 5%N; any_of TStr (of_string "x")]].
Definition in88' : list InputToken := [InText "Pay" [any_of TNum 14%N]; InCustom 2 [any_of TNum 10%N; any_of TStr (of_string "x")]].
(** A table, a find that adds up two numbers, and a resolver of the user that passes the first number on. *)
Definition text88 (n : N) : TextMatch TNum := text_match_new (t := TNum) [(of_string "Pay", [n])].
Definition pair88 : matcher (N * N) := x_seq2 (x_attr TNum) (x_attr TNum).
Definition sum88 (x : N * N) : N := (fst x + snd x)%N.
Definition first88 (d : direction) : program N := P_attr _ d TNum (fun r => P_return _ r).
Definition code88 (r : LRange) : code TNum :=
  C_call TNum _ (Call_find_first_by r N first88) (fun x => match x with
    | Some (s, v) => C_done TNum [(s, v)] false | None => C_done TNum [] false end).
Definition layers88 (n : N) : list (N * { t : ty & Resolver t }) :=
  [(1%N, existT _ TNum (text_match_go (text88 n))); (2%N, existT _ TNum (find_resolver TNum pair88 sum88));
   (3%N, existT _ TNum (resolver_by code88)); (4%N, existT _ TKeyword (clause_keyword_go words))].
Lemma pair88_corr l l' : lines_corr Val88 l l' -> matchers_corr (both (Val88 TNum) (Val88 TNum)) l l' pair88 pair88.
Proof.
  intros H. destruct (thm_C88_matchers Val88 l l' H) as (HA & _ & _ & _ & HC & _).
  apply (HC (den TNum) (den TNum) (den TNum) (den TNum)); apply HA.
Qed.
Lemma first88_corr d : programs_corr Val88 (Val88 TNum) (first88 d) (first88 d).
Proof. apply PC_attr. intros r r' H. apply PC_return. exact H. Qed.
Lemma code88_corr r : codes_corr Val88 (code88 r) (code88 r).
Proof.
  eapply CC_call; [apply KC_find_first_by; exact first88_corr|]. intros [[s v]|] [[s' v']|] H; try contradiction; [|constructor; constructor].
  constructor. constructor; [exact H|constructor].
Qed.
Lemma layers88_corr : layers_corr Val88 (layers88 3) (layers88 6).
Proof.
  destruct (thm_C88_resolvers Val88) as (H1 & H2 & H3 & H4 & _).
  repeat apply LC_run.
  - apply H2; [reflexivity|]. constructor; [split; [reflexivity|]|constructor]. constructor; [reflexivity|constructor].
  - apply (H1 TNum _ _ (both (Val88 TNum) (Val88 TNum))); [exact pair88_corr|].
    intros [a b] [a' b'] [E E']. unfold Val88 in E, E' |- *. cbn [fst snd] in E, E'. rewrite double88_num in E, E' |- *. subst a' b'. unfold sum88. cbn [fst snd].
    change (N.double a + N.double b = N.double (a + b))%N. rewrite (N.double_spec a), (N.double_spec b), (N.double_spec (a + b)).
    apply eq_sym, N.mul_add_distr_l.
  - apply H3. exact code88_corr.
  - apply H4. intros v. symmetry. apply double88_same. discriminate.
  - constructor.
Qed.
Definition line88 : LLLine := Eval vm_compute in get_line (l <- create_line_from_input_tokens tg64 in88 str_len;; run_layers l (layers88 3)).
Definition line88' : LLLine := Eval vm_compute in get_line (l <- create_line_from_input_tokens tg64 in88' str_len;; run_layers l (layers88 6)).
Example C88_case :
  (forall v, Val88 TTextTag v v) /\ (forall v, Val88 TChar v v)
  /\ Forall2 (inputs_corr Val88) in88 in88' /\ layers_corr Val88 (layers88 3) (layers88 6)
  /\ (l <- create_line_from_input_tokens tg64 in88 str_len;; run_layers l (layers88 3)) = Ok line88
  /\ (l <- create_line_from_input_tokens tg64 in88' str_len;; run_layers l (layers88 6)) = Ok line88'
  /\ lines_corr Val88 line88 line88'
  /\ query line88 TNum = Ok [((0, 0), of_string "Pay", [7; 3; 7]%N); ((1, 1), [], [5]%N); ((0, 1), of_string "Pay", [12; 8]%N)]
  /\ query line88' TNum = Ok [((0, 0), of_string "Pay", [14; 6; 14]%N); ((1, 1), [], [10]%N); ((0, 1), of_string "Pay", [24; 16]%N)].
Proof.
  assert (V1 : forall v, Val88 TTextTag v v) by (intros v; symmetry; apply double88_same; discriminate).
  assert (V2 : forall v, Val88 TChar v v) by (intros v; symmetry; apply double88_same; discriminate).
  assert (VI : Forall2 (inputs_corr Val88) in88 in88').
  { constructor; [split; [reflexivity|]|constructor; [split; [reflexivity|]|constructor]].
    - constructor; [|constructor]. exists TNum, 7%N, 14%N. repeat split.
    - constructor; [|constructor; [|constructor]]; [exists TNum, 5%N, 10%N; repeat split|].
      exists TStr, (of_string "x"), (of_string "x"). repeat split. }
  split; [exact V1|]. split; [exact V2|]. split; [exact VI|]. split; [exact layers88_corr|].
  assert (E : (l <- create_line_from_input_tokens tg64 in88 str_len;; run_layers l (layers88 3)) = Ok line88) by (vm_compute; reflexivity).
  assert (E' : (l <- create_line_from_input_tokens tg64 in88' str_len;; run_layers l (layers88 6)) = Ok line88') by (vm_compute; reflexivity).
  split; [exact E|]. split; [exact E'|]. split.
  { pose proof (thm_C88_layers Val88 tg64 str_len in88 in88' _ _ V1 V2 VI layers88_corr) as H. rewrite E, E' in H. exact H. }
  split; vm_compute; reflexivity.
Qed.
(** The parts of the other statements: a display whose [Debug] shows no numbers, a comparison that cannot tell a number
    from its double, and selections. *)
Example C88_more_case :
  lines_corr Val88 line88 line88'
  /\ blind_eq Val88 TNum (fun a b => N.eqb a 0) (fun a b => N.eqb a 0) 1%N 1%N
  /\ x_attr_eq TNum (fun a b => negb (N.eqb a 0)) 1%N (Fwd 1) line88 = Ok [(tt, 1)]
  /\ Forall2 (blind_shown Val88) [existT (fun t => den t -> str) TNum (fun _ => of_string "n")] [existT (fun t => den t -> str) TNum (fun _ => of_string "n")]
  /\ sels_corr line88 line88' (whole 5 line88) (whole 6 line88')
  /\ programs_corr Val88 (Val88 TNum) (first88 (Fwd 0)) (first88 (Fwd 0))
  /\ results_corr (gos_corr Val88) (resolver_by code88 (whole 5 line88)) (resolver_by code88 (whole 6 line88')).
Proof.
  assert (HL : lines_corr Val88 line88 line88') by apply C88_case.
  split; [exact HL|]. split; [intros a a' ->; rewrite double88_num; destruct a; reflexivity|].
  split; [vm_compute; reflexivity|].
  split; [constructor; [|constructor]; exists TNum, (fun _ => of_string "n"), (fun _ => of_string "n"); repeat split|].
  split; [repeat split|]. split; [apply first88_corr|].
  destruct (thm_C88_resolvers Val88) as (_ & _ & H3 & _). apply H3; [exact code88_corr|exact HL].
Qed.
