(** Layers that do not read each other (C85), with concrete cases. *)

From Verif Require Export PropState PropPass ThmApart.

Local Open Scope string_scope.
Local Open Scope list_scope.

(** ** C85 Layers that do not read each other *)
Theorem C85_layers {UC : Unicode} {U : UserTypes} :
  forall P l0 lg0 ss l,
    History l0 lg0 -> attributed_for ss l0 lg0 -> interleaved P l0 ss l ->
    exists lp, after_any l0 ss lp /\ same_about P lp l
      /\ forall id id' s, attributed_for [(id, s)] l0 lg0 -> P (writes s) -> (forall t, In t (SpecOrder.reads s) -> P t) ->
           ((exists lp', run_any id lp s = Ok lp') <-> (exists l', run_any id' l s = Ok l')).
Proof. exact thm_C85_layers. Qed.
Theorem C85_clauses {UC : Unicode} {U : UserTypes} :
  forall tg sz input l0 r id id' ms l,
    Forall wf_input input -> none_of TKeyword input -> none_of TTextTag input -> none_of TClause input ->
    create_line_from_input_tokens tg input sz = Ok l0 -> Forall2 (marked r) (ll_tokens l0) ms ->
    interleaved (fun t => In t [TKeyword; TTextTag; TClause]) l0 [(id, Lib (RunClauseKeyword r)); (id', Lib RunClause)] l ->
    query l TClause = Ok (map (clause_row (ll_tokens l)) (scanned ms)).
Proof. exact thm_C85_clauses. Qed.
Theorem C85_amounts {UC : Unicode} {U : UserTypes} :
  forall tg sz input l0 parse r id ms l,
    Forall wf_input input -> Forall is_text input ->
    none_of TTextTag input -> none_of TChar input -> none_of TAmount input ->
    create_line_from_input_tokens tg input sz = Ok l0 -> no_digit_signs r -> number_marks l0 r ms ->
    interleaved (fun t => In t [TTextTag; TChar; TAmount]) l0 [(id, Lib (RunAmount parse r))] l ->
    exists xs out, whole_pass Idle 0 ms = Some xs /\ parsed parse xs = Some out
      /\ query l TAmount = Ok (map (amount_row (ll_tokens l)) out).
Proof. exact thm_C85_amounts. Qed.
Theorem C85_read_refuted :
  exists l0 lg0 id (r : Resolver TTextTag) l ss lp l',
    History l0 lg0 /\ run id l0 r = Ok l /\ after_any l0 ss lp /\ after_any l ss l'
    /\ (forall x, In x ss -> writes (snd x) <> TTextTag) /\ query lp TClause <> query l' TClause.
Proof. exact thm_C85_read_refuted. Qed.
Theorem C85_unattributed_refuted :
  exists (P : ty -> Prop) l0 lg0 t id (r : Resolver t) l id' s,
    History l0 lg0 /\ ~ P t /\ run id l0 r = Ok l /\ P (writes s) /\ (forall t', In t' (SpecOrder.reads s) -> P t')
    /\ (exists l', run_any id' l s = Ok l') /\ exists p, run_any id' l0 s = Panic p.
Proof. exact thm_C85_unattributed_refuted. Qed.
(** "If it rains, then pay 1,000.50": parts of speech, keywords, amounts, clauses, and a find that looks
    at the clauses.  The clauses are those that keywords and clauses alone would give, and the amounts those
    that the amounts alone would give. *)
Definition steps85 : list (N * any_step) := [pos58; kw58; am58; cl58; fd58].
Definition line85 : LLLine := Eval vm_compute in get_line (after58 steps85).
Definition marks85 : list Mark :=
  [MKey KConditionStart; MBlank; MOther; MBlank; MOther; MStop; MBlank; MKey KThen; MBlank; MOther; MBlank; MOther; MStop; MOther; MStop; MOther].
Definition nmarks85 : list NMark :=
  [NOther; NOther; NOther; NOther; NOther; NDelimiter; NOther; NOther; NOther; NOther; NOther; NNumber (of_string "1"); NDelimiter;
   NNumber (of_string "000"); NPoint; NNumber (of_string "50")].
Definition about_clauses (t : ty) : Prop := In t [TKeyword; TTextTag; TClause].
Definition about_amounts (t : ty) : Prop := In t [TTextTag; TChar; TAmount].
Definition line85a : LLLine := Eval vm_compute in get_line (after58 [pos58]).
Definition line85b : LLLine := Eval vm_compute in get_line (after58 [pos58; kw58]).
Definition line85c : LLLine := Eval vm_compute in get_line (after58 [pos58; kw58; am58]).
Definition line85d : LLLine := Eval vm_compute in get_line (after58 [pos58; kw58; am58; cl58]).
Ltac other85 := intros X; cbn in X; intuition discriminate.
Ltac these85 := let t := fresh "t" in intros t X; cbn in X |- *; tauto.
Lemma about_clauses85 : interleaved about_clauses line1 [kw58; cl58] line85.
Proof.
  apply (IL_other _ _ _ line85d TNum 5 (find_resolver TNum (matcher_of (M_all2 _ _ (M_attr TClause) (M_attr TClause))) (fun _ => 1%N)));
    [|other85|vm_compute; reflexivity].
  apply (IL_step _ _ [kw58] line85c 2 (Lib RunClause)); [|cbn; tauto|these85|vm_compute; reflexivity].
  apply (IL_other _ _ _ line85b TAmount 4 (amount_go parse_decimal amount_english)); [|other85|vm_compute; reflexivity].
  apply (IL_step _ _ [] line85a 1 (Lib (RunClauseKeyword words))); [|cbn; tauto|these85|vm_compute; reflexivity].
  apply (IL_other _ _ _ line1 TPos 3 (pos_go dict50 9%N)); [constructor|other85|vm_compute; reflexivity].
Qed.
Lemma about_amounts85 : interleaved about_amounts line1 [am58] line85.
Proof.
  apply (IL_other _ _ _ line85d TNum 5 (find_resolver TNum (matcher_of (M_all2 _ _ (M_attr TClause) (M_attr TClause))) (fun _ => 1%N)));
    [|other85|vm_compute; reflexivity].
  apply (IL_other _ _ _ line85c TClause 2 clause_go); [|other85|vm_compute; reflexivity].
  apply (IL_step _ _ [] line85b 4 (Lib (RunAmount parse_decimal amount_english))); [|cbn; tauto|these85|vm_compute; reflexivity].
  apply (IL_other _ _ _ line85a TKeyword 1 (clause_keyword_go words)); [|other85|vm_compute; reflexivity].
  apply (IL_other _ _ _ line1 TPos 3 (pos_go dict50 9%N)); [constructor|other85|vm_compute; reflexivity].
Qed.
Example C85_case :
  Forall wf_input in1 /\ Forall is_text in1
  /\ (forall t, In t [TKeyword; TTextTag; TClause; TChar; TAmount] -> none_of t in1)
  /\ create_line_from_input_tokens tg64 in1 str_len = Ok line1 /\ History line1 lg1
  /\ attributed_for [kw58; cl58] line1 lg1 /\ attributed_for [am58] line1 lg1
  /\ interleaved about_clauses line1 [kw58; cl58] line85 /\ interleaved about_amounts line1 [am58] line85
  /\ Forall2 (marked words) (ll_tokens line1) marks85
  /\ no_digit_signs amount_english /\ number_marks line1 amount_english nmarks85
  /\ scanned marks85 <> [] /\ whole_pass Idle 0 nmarks85 = Some [((11, 15), of_string "1000.50")]
  /\ query line85 TClause <> Ok [] /\ query line85 TAmount = Ok [((11, 15), of_string "1,000.50", [mkDecimal 100050 2])].
Proof.
  split; [repeat constructor|]. split; [repeat constructor|].
  split; [intros t _ it a [<-|[]] []|].
  split; [fact|]. split; [fact|].
  split; [intros (x & [<-|[<-|[]]] & E); discriminate E|].
  split; [intros _ i; apply text_attributed; [fact|exact text_only1]|].
  split; [exact about_clauses85|]. split; [exact about_amounts85|].
  split; [marks|]. split; [repeat constructor|]. split; [number_marks_by fail|].
  split; [vm_compute; discriminate|]. split; [vm_compute; reflexivity|]. split; [vm_compute; discriminate|].
  vm_compute. reflexivity.
Qed.
