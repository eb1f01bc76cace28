(** Keys that can be found in ASCII text (C92), with concrete cases. *)

From Verif Require Export PropSentence ThmKeys.

Local Open Scope string_scope.
Local Open Scope list_scope.

(** ** C92 Keys that can be found in ASCII text *)
Theorem C92_tokens {UC : Unicode} {U : UserTypes} :
  forall (SL : SegmenterLaws) colon (AL : AsciiLaws colon) tg sz s ats l tok,
    ascii s -> Forall wf_attribute ats -> create_line_from_input_tokens tg [InText s ats] sz = Ok l -> In tok (ll_tokens l) ->
    exists t tag, token tok = LText t tag /\ single_piece colon t.
Proof. exact thm_C92_tokens. Qed.
Theorem C92_alone {UC : Unicode} {U : UserTypes} :
  forall (SL : SegmenterLaws) colon (AL : AsciiLaws colon) tg sz t ats l,
    ascii t -> single_piece colon t -> Forall wf_attribute ats -> create_line_from_input_tokens tg [InText t ats] sz = Ok l ->
    exists tag, map token (ll_tokens l) = [LText t tag].
Proof. exact thm_C92_alone. Qed.
Theorem C92_characters {UC : Unicode} {U : UserTypes} :
  forall (SL : SegmenterLaws) colon (AL : AsciiLaws colon) tg sz s ats l tok t tag c,
    ascii s -> Forall wf_attribute ats -> create_line_from_input_tokens tg [InText s ats] sz = Ok l -> In tok (ll_tokens l) ->
    token tok = LText t tag -> In c t ->
    (joining colon c \/ t = [c]) /\ (ascii_space c -> Forall (is 32%N) t \/ t = [13; 10]%N \/ t = [c])
    /\ (ends_in t (mid_letter colon) \/ ends_in t mid_number -> exists d, t = [d]).
Proof. exact thm_C92_characters. Qed.
Theorem C92_useless {UC : Unicode} {U : UserTypes} :
  forall (SL : SegmenterLaws) colon (AL : AsciiLaws colon) t tg sz s ats l id (table1 table2 : list (str * list (den t))) k vs,
    ascii s -> Forall wf_attribute ats -> none_of t [InText s ats] -> t <> TChar -> t <> TTextTag ->
    create_line_from_input_tokens tg [InText s ats] sz = Ok l ->
    NoDup (map fst (table1 ++ (k, vs) :: table2)) -> ~ single_piece colon k ->
    exists l1 l2 rows, run id l (text_match_go (text_match_new (table1 ++ (k, vs) :: table2))) = Ok l1
      /\ run id l (text_match_go (text_match_new (table1 ++ table2))) = Ok l2
      /\ query l1 t = Ok rows /\ query l2 t = Ok rows.
Proof. exact thm_C92_useless. Qed.
Theorem C92_useless_ci {UC : Unicode} {U : UserTypes} :
  forall (SL : SegmenterLaws) colon (AL : AsciiLaws colon) (LL : AsciiLower) t tg sz s ats l id (table1 table2 : list (str * list (den t))) k vs,
    ascii s -> Forall wf_attribute ats -> none_of t [InText s ats] -> t <> TChar -> t <> TTextTag ->
    create_line_from_input_tokens tg [InText s ats] sz = Ok l ->
    ascii k -> ~ single_piece colon k ->
    exists l1 l2 rows, run id l (text_match_go (text_match_new_ci (table1 ++ (k, vs) :: table2))) = Ok l1
      /\ run id l (text_match_go (text_match_new_ci (table1 ++ table2))) = Ok l2
      /\ query l1 t = Ok rows /\ query l2 t = Ok rows.
Proof. exact thm_C92_useless_ci. Qed.
Theorem C92_useful {UC : Unicode} {U : UserTypes} :
  forall (SL : SegmenterLaws) colon (AL : AsciiLaws colon) t tg sz ats l id (table : list (str * list (den t))) k v vs,
    ascii k -> single_piece colon k -> Forall wf_attribute ats -> none_of t [InText k ats] -> t <> TChar -> t <> TTextTag ->
    create_line_from_input_tokens tg [InText k ats] sz = Ok l -> NoDup (map fst table) -> In (k, v :: vs) table ->
    exists l', run id l (text_match_go (text_match_new table)) = Ok l' /\ query l' t = Ok [((0, 0), k, v :: vs)].
Proof. exact thm_C92_useful. Qed.
Theorem C92_keywords {UC : Unicode} {U : UserTypes} :
  forall (SL : SegmenterLaws) colon (AL : AsciiLaws colon) (LL : AsciiLower) tg sz s ats l id r r',
    ascii s -> Forall wf_attribute ats -> none_of TKeyword [InText s ats] ->
    create_line_from_input_tokens tg [InText s ats] sz = Ok l -> same_keywords colon r r' ->
    exists l1 l2 rows, run id l (clause_keyword_go r) = Ok l1 /\ run id l (clause_keyword_go r') = Ok l2
      /\ query l1 TKeyword = Ok rows /\ query l2 TKeyword = Ok rows.
Proof. exact thm_C92_keywords. Qed.
Lemma latin_ascii_lower : AsciiLower.
Proof.
  intros t F. cbn [u_lower latin]. induction F as [|c t Hc F IH]; [reflexivity|]. cbn [map]. rewrite IH. f_equal.
  assert (K : forall n, (n < 128)%nat -> latin_lower (N.of_nat n) = ascii_lower (N.of_nat n)).
  { assert (B : forallb (fun n => N.eqb (latin_lower (N.of_nat n)) (ascii_lower (N.of_nat n))) (seq 0 128) = true) by (vm_compute; reflexivity).
    rewrite forallb_forall in B. intros n Hn. apply N.eqb_eq, B, in_seq. lia. }
  rewrite <- (N2Nat.id c). apply K. unfold ascii in *. lia.
Qed.
(** A decision procedure, for the cases. *)
Fixpoint whole_b (b t : str) : bool :=
  match t with
  | c :: (d :: q) as t' => ExUnicode.joined (wb_before b) (wb_of c) (wb_of d) (wb_after q) && whole_b (b ++ [c]) t'
  | _ => true
  end.
Lemma whole_b_iff t : forall b, ascii (b ++ t) -> (whole_b b t = true <-> forall x y, x <> [] -> y <> [] -> t = x ++ y -> unbroken true (b ++ x) y).
Proof.
  induction t as [|c [|d q] IH]; intros b HA.
  - split; [|reflexivity]. intros _ x y Nx _ E. symmetry in E. apply app_eq_nil in E. tauto.
  - split; [|reflexivity]. intros _ x y Nx Ny E. destruct x as [|? [|? ?]]; [easy| |discriminate]. injection E as _ <-. easy.
  - assert (HA' := HA). apply Forall_app in HA'. destruct HA' as [Hb Ht]. inversion Ht as [|? ? Hc Ht1]. inversion Ht1 as [|? ? Hd Hq]. subst.
    pose proof (joined_ub b c d q Hb Hc Hd Hq) as J. rewrite <- unbroken_ub in J.
    change (whole_b b (c :: d :: q)) with (ExUnicode.joined (wb_before b) (wb_of c) (wb_of d) (wb_after q) && whole_b (b ++ [c]) (d :: q)). rewrite andb_true_iff, J, IH by (unfold ascii in *; now rewrite <- app_assoc).
    split.
    + intros [H1 H2] x y Nx Ny E. destruct x as [|c' x]; [easy|]. injection E as <- E. destruct x as [|d' x]; [cbn [app] in E; now subst y|]. replace (b ++ c :: d' :: x) with ((b ++ [c]) ++ d' :: x) by now rewrite <- app_assoc. apply H2; [discriminate|exact Ny|exact E].
    + intros H. split; [apply H; [discriminate|discriminate|reflexivity]|]. intros x y Nx Ny E. rewrite <- app_assoc. apply H; [discriminate|exact Ny|]. cbn [app]. now rewrite <- E.
Qed.
Definition piece_b (t : str) : bool :=
  match t with [] => false | c :: _ => forallb digitb t || (negb (digitb c) && whole_b [] t) end.
Lemma piece_b_iff t : ascii t -> (piece_b t = true <-> single_piece true t).
Proof.
  intros HA. destruct t as [|c q]; [split; [discriminate|intros [N _]; now elim N]|]. unfold piece_b, single_piece.
  rewrite orb_true_iff, andb_true_iff, negb_true_iff, (whole_b_iff (c :: q) []) by exact HA. rewrite forallb_forall, Forall_forall. cbn [app].
  assert (E1 : (forall x, In x (c :: q) -> digitb x = true) <-> (forall x, In x (c :: q) -> ascii_digit x)) by (split; intros H x Hx; apply digitb_iff; auto).
  assert (E2 : digitb c = false <-> ~ starts_in (c :: q) ascii_digit).
  { split.
    - intros H (d & p & E & Hd). injection E as <- _. apply digitb_iff in Hd. congruence.
    - intros H. destruct (digitb c) eqn:D; [|reflexivity]. elim H. exists c, q. split; [reflexivity|now apply digitb_iff]. }
  rewrite E1, E2. split; [intros H; split; [discriminate|exact H]|now intros [_ H]].
Qed.
Lemma pieces_by ts : Forall ascii ts -> forallb piece_b ts = true -> Forall (single_piece true) ts.
Proof. intros HA HP. rewrite Forall_forall in *. rewrite forallb_forall in HP. intros t Ht. apply piece_b_iff; auto. Qed.
Lemma no_pieces_by ts : Forall ascii ts -> forallb (fun t => negb (piece_b t)) ts = true -> Forall (fun t => ~ single_piece true t) ts.
Proof. intros HA HP. rewrite Forall_forall in *. rewrite forallb_forall in HP. intros t Ht C. apply piece_b_iff in C; [|now apply HA]. specialize (HP t Ht). rewrite C in HP. discriminate. Qed.

(** Texts that can be a token, and texts that cannot. *)
Example C92_case_pieces :
  Forall (single_piece true) (map of_string ["New"; "don't"; "e.g"; "1500"; "IF"; "-"; "   "; "x5"; "_id"; "v1.5"])
  /\ Forall (fun t => ~ single_piece true t) (map of_string ["New York"; "baseball-card"; "5x"; "1,500"; "etc."; "as soon as"; ""; " a"; "--"; "'quoted'"]).
Proof.
  split; [apply pieces_by|apply no_pieces_by]; try (vm_compute; reflexivity); cbn [map]; repeat (apply Forall_cons; [apply is_ascii; vm_compute; reflexivity|]); apply Forall_nil.
Qed.
(** A table with an entry for "New York": the text is there, but the entry finds nothing. *)
Definition text92 : str := of_string "In New York I don't play baseball-card games, new or old.".
Definition ent92 (k : string) (v : N) : str * list (den TNum) := (of_string k, [v]).
Definition before92 := [ent92 "don't" 1%N; ent92 "New" 2%N].
Definition after92 := [ent92 "-" 3%N; ent92 "OLD" 5%N].
Definition entry92 := ent92 "New York" 4%N.
Example C92_case :
  ascii text92 /\ is_line89 text92 /\ none_of TNum [InText text92 []]
  /\ NoDup (map fst (before92 ++ entry92 :: after92)) /\ ~ single_piece true (fst entry92) /\ ascii (fst entry92)
  /\ (exists l1, run 1 (line89 text92) (text_match_go (text_match_new (before92 ++ entry92 :: after92))) = Ok l1
       /\ query l1 TNum = Ok [((2, 2), of_string "New", [2%N]); ((8, 8), of_string "don't", [1%N]); ((13, 13), of_string "-", [3%N])])
  /\ (exists l1, run 1 (line89 text92) (text_match_go (text_match_new_ci (before92 ++ entry92 :: after92))) = Ok l1
       /\ query l1 TNum = Ok [((2, 2), of_string "New", [2%N]); ((8, 8), of_string "don't", [1%N]); ((13, 13), of_string "-", [3%N]);
                                     ((19, 19), of_string "new", [2%N]); ((23, 23), of_string "old", [5%N])]).
Proof.
  split; [apply is_ascii; vm_compute; reflexivity|]. split; [vm_compute; reflexivity|]. split; [intros it a [<-|[]] []|].
  split; [vm_compute; repeat constructor; cbn [In]; intuition discriminate|].
  split; [intros C; apply piece_b_iff in C; [vm_compute in C; discriminate|apply is_ascii; vm_compute; reflexivity]|].
  split; [apply is_ascii; vm_compute; reflexivity|].
  split; (eexists; split; [vm_compute; reflexivity|]; vm_compute; reflexivity).
Qed.
(** The text that is the key, where the key is one piece. *)
Definition key92 : str := of_string "v1.5".
Example C92_useful_case :
  ascii key92 /\ single_piece true key92 /\ is_line89 key92
  /\ exists l1, run 1 (line89 key92) (text_match_go (text_match_new [ent92 "v1" 7%N; ent92 "v1.5" 8%N])) = Ok l1
       /\ query l1 TNum = Ok [((0, 0), key92, [8%N])].
Proof.
  split; [apply is_ascii; vm_compute; reflexivity|]. split; [apply piece_b_iff; [apply is_ascii|]; vm_compute; reflexivity|]. split; [vm_compute; reflexivity|].
  eexists. split; [vm_compute; reflexivity|]. vm_compute. reflexivity.
Qed.
(** A condition of several words, as in "as soon as", is never seen. *)
Definition keys92 : ClauseKeywordResolver :=
  mkClauseKeywordResolver (map of_string ["as soon as"; "if"; "when"]) (map of_string ["and"; "and/or"]) (map of_string ["then"]).
Definition said92 : str := of_string "As soon as I pay, then you and/or Bob go.".
Example C92_keywords_case :
  ascii said92 /\ is_line89 said92 /\ none_of TKeyword [InText said92 []] /\ same_keywords true keys92 words
  /\ exists l1, run 1 (line89 said92) (clause_keyword_go keys92) = Ok l1
       /\ query l1 TKeyword = Ok [((11, 11), of_string "then", [KThen]); ((15, 15), of_string "and", [KAnd])].
Proof.
  split; [apply is_ascii; vm_compute; reflexivity|]. split; [vm_compute; reflexivity|]. split; [intros it a [<-|[]] []|].
  split.
  - intros w Hw. destruct C92_case_pieces as [_ HN]. rewrite Forall_forall in HN.
    assert (N1 : w <> of_string "as soon as") by (intros ->; revert Hw; apply HN; cbn [map In]; tauto).
    assert (N2 : w <> of_string "and/or") by (intros ->; apply piece_b_iff in Hw; [vm_compute in Hw; discriminate|apply is_ascii; vm_compute; reflexivity]).
    cbn [keys92 words kw_cond_start kw_and kw_then map In]. split; [|split]; [|intuition congruence..].
    split; [intros [C|C]; [congruence|exact C]|intros C; now right].
  - eexists. split; [vm_compute; reflexivity|]. vm_compute. reflexivity.
Qed.
