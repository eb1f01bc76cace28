(** What split_by leaves whatever the matches (C27), positions in any unit (C67), with
    concrete cases. *)

From Verif Require Export PropCurrency ThmSlice ThmSplit.

Local Open Scope string_scope.
Local Open Scope list_scope.

(** ** C27 Parts left by any matches *)
Theorem C27_exact {UC : Unicode} {U : UserTypes} :
  forall A s (m : matcher A) found,
    sel_ok s -> bounded m (line_of s) -> find_by s m = Ok found ->
    exists ps, split_by s m = Ok ps /\ maximal_runs s (last_reaches found) ps.
Proof. exact thm_C27_exact. Qed.
Theorem C27_untouched {UC : Unicode} {U : UserTypes} :
  forall A s (m : matcher A) found ps k,
    sel_ok s -> bounded m (line_of s) -> find_by s m = Ok found -> split_by s m = Ok ps ->
    covers s k -> ~ touched found k ->
    exists p, In p ps /\ covers p k /\ forall p', In p' ps -> covers p' k -> p' = p.
Proof. exact thm_C27_untouched. Qed.
(** Matches on tokens 0 to 5, 3 to 5 and 4: the part left is 5 and 6, because the last match
    that starts before token 5 ends at token 4. *)
Example C27_exact_case :
  sel_ok (mkSel rc3 0 6) /\ bounded (x_attr TStr) (line_of (mkSel rc3 0 6))
  /\ find_by (mkSel rc3 0 6) (x_attr TStr) = Ok found3
  /\ split_by (mkSel rc3 0 6) (x_attr TStr) = Ok [mkSel rc3 5 6]
  /\ touched found3 5 /\ ~ last_reaches found3 5 /\ last_reaches found3 4
  /\ covers (mkSel rc3 0 6) 6 /\ ~ touched found3 6.
Proof.
  split; [fact|]. split; [exact (bounded_attr line3 lg3 TStr history3 proper3)|]. split; [exact found3_eq|]. split; [exact split3_eq|].
  split; [exists (mkSel rc3 0 5), (of_string "z"); split; [now left|unfold covers; cbn; lia]|].
  split.
  { intros (b & x & af & E & (_ & Hx) & Hy). unfold found3 in E. cbn [map] in E.
    do 4 (destruct b as [|? b]; cbn [app] in E; injection E as ? E; [subst; specialize (Hy _ (or_intror (or_introl eq_refl))) + specialize (Hy _ (or_introl eq_refl)); cbn in Hy; lia|]).
    destruct b as [|? b]; cbn [app] in E; injection E as ? E; [subst; cbn in Hx; lia|destruct b; discriminate E]. }
  split; [exists (firstn 4 found3), (mkSel rc3 4 4, of_string "w"), []; split; [reflexivity|]; split; [unfold covers; cbn; lia|easy]|].
  split; [unfold covers; cbn; lia|].
  intros (s' & a & Hin & Hc). unfold covers in Hc. cbn in Hin.
  repeat (destruct Hin as [Hin|Hin]; [injection Hin as <- _; cbn in Hc; lia|]). exact Hin.
Qed.

(** ** C67 Positions in any unit *)
Theorem C67_query {UC : Unicode} {U : UserTypes} :
  forall (SL : SegmenterLaws) tg sz input l0 l t q r text vs,
    additive sz -> Forall wf_input input -> (extent sz (source_items input) < 2 ^ usize_bits tg)%N ->
    create_line_from_input_tokens tg input sz = Ok l0 -> later l0 l ->
    query l t = Ok q -> In (r, text, vs) q ->
    exists ti tj, nth_error (ll_tokens l) (fst r) = Some ti /\ nth_error (ll_tokens l) (snd r) = Some tj
      /\ (fst r <= snd r -> source_part sz input (pos_starts_at ti) (pos_ends_at tj) text)
      /\ (snd r < fst r -> text = []).
Proof. exact thm_C67_query. Qed.
Theorem C67_find {UC : Unicode} {U : UserTypes} :
  forall (SL : SegmenterLaws) tg sz input l0 l lg P has A (m : matcher A) fs x,
    additive sz -> Forall wf_input input -> (extent sz (source_items input) < 2 ^ usize_bits tg)%N ->
    create_line_from_input_tokens tg input sz = Ok l0 -> later l0 l -> History l lg -> proper lg -> lib_matcher P has A m ->
    find l m = Ok fs -> In x fs ->
    exists i j ms, i <= j < length (ll_tokens l) /\ m (Fwd i) l = Ok ms /\ In (found x, j) ms
      /\ source_part sz input (start_pos_at x) (end_pos_at x) (text_between (ll_tokens l) i j).
Proof. exact thm_C67_find. Qed.
Theorem C67_determined {UC : Unicode} {U : UserTypes} :
  forall sz input p q text text',
    (forall c, (0 < sz [c])%N) -> (forall ats, ~ In (InCustom 0 ats) input) ->
    source_part sz input p q text -> source_part sz input p q text' -> text = text'.
Proof. exact thm_C67_determined. Qed.
Theorem C67_units {UC : Unicode} {U : UserTypes} :
  additive str_len /\ additive utf16_len.
Proof. exact thm_C67_units. Qed.
(** "pay ", a custom token of size 3, and a char outside of the basic plane followed by
    " then"; positions count UTF-16 code units. *)
Definition in67 : list InputToken :=
  [InText (of_string "pay ") []; InCustom 3 [any_of TNum 4%N]; InText ([128512] ++ of_string " then")%list%N []].
Definition line67 : LLLine := Eval vm_compute in get_line (create_line_from_input_tokens tg64 in67 utf16_len).
Definition line67k : LLLine := Eval vm_compute in get_line (run 1 line67 (clause_keyword_go words)).
Example C67_case :
  SegmenterLaws /\ additive utf16_len /\ (forall c, 0 < utf16_len [c])%N /\ (forall ats, ~ In (InCustom 0 ats) in67)
  /\ Forall wf_input in67
  /\ (extent utf16_len (source_items in67) < 2 ^ usize_bits tg64)%N
  /\ create_line_from_input_tokens tg64 in67 utf16_len = Ok line67 /\ later line67 line67k
  /\ query line67k TKeyword = Ok [((5, 5), of_string "then", [KThen])]
  /\ map (fun t => (pos_starts_at t, pos_ends_at t)) (ll_tokens line67k) = [(0, 3); (3, 4); (4, 7); (7, 9); (9, 10); (10, 14)]%N
  /\ source_part utf16_len in67 10 14 (of_string "then")
  /\ source_part utf16_len in67 3 9 ([32; 128512])%N
  /\ find line67k (x_attr TKeyword) = Ok [mkFind 10 14 KThen]%N.
Proof.
  split; [exact latin_segmenter|]. split; [apply C67_units|].
  split; [intros c; unfold utf16_len; cbn [fold_right]; destruct (c <? 65536)%N; lia|].
  split; [intros ats [H|[H|[H|[]]]]; discriminate H|]. split; [wf_inputs|]. split; [fact|]. split; [fact|].
  split; [apply (L_run line67 TKeyword 1 (clause_keyword_go words) line67 line67k (L_here line67)); fact|].
  split; [fact|]. split; [fact|].
  split; [exists (firstn 7 (source_items in67)), (firstn 4 (skipn 7 (source_items in67))), []; facts|].
  split; [exists (firstn 3 (source_items in67)), (firstn 3 (skipn 3 (source_items in67))), (skipn 6 (source_items in67)); facts|].
  fact.
Qed.
