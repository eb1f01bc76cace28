(** The properties of selections, of find and of the display (C24 to C36), each with a
    concrete case that meets its hypotheses. *)

From Verif Require Import PropMatch.
From Verif Require Export ThmRefuted.

Local Open Scope list_scope.

(** ** The selections of the cases *)
Definition rc1 : RcLine := mkRc 1 line1.
Definition rc12 : RcLine := mkRc 1 line12.
Lemma bounded_attr l lg t : History l lg -> proper lg -> bounded (x_attr t) l.
Proof. intros H HP. exact (C22_inside l lg any_ty false (den t) (x_attr t) H HP (LM_attr any_ty t I)). Qed.
Lemma bounded_space l lg : History l lg -> proper lg -> bounded x_whitespace l.
Proof. intros H HP. exact (C22_inside l lg any_ty false unit x_whitespace H HP (LM_attr_eq any_ty TTextTag TextTag_eqb SPACE I)). Qed.
Lemma proper12 : proper lg12. Proof. apply properb. reflexivity. Qed.
Lemma whole2 aft : derived aft rc2 (mkSel rc2 0 6). Proof. exact (D_whole aft rc2 _ eq_refl). Qed.
Lemma whole3 aft : derived aft rc3 (mkSel rc3 0 6). Proof. exact (D_whole aft rc3 _ eq_refl). Qed.
#[local] Hint Resolve bounded_attr bounded_space history12 proper12 whole2 whole3 found2_eq found3_eq split3_eq : cases.

(** ** C24 Selections stay inside their line *)
Theorem C24_in_range {UC : Unicode} {U : UserTypes} :
  forall rc lg s,
    History (rc_line rc) lg -> proper lg -> derived false rc s -> sel_line s = rc /\ sel_ok s.
Proof. exact thm_C24_in_range. Qed.
Theorem C24_with_after {UC : Unicode} {U : UserTypes} :
  forall rc lg s,
    History (rc_line rc) lg -> proper lg -> derived true rc s -> sel_line s = rc /\ (sel_ok s \/ sel_past_end s).
Proof. exact thm_C24_with_after. Qed.
Theorem C24_created {UC : Unicode} {U : UserTypes} :
  forall tg sz input l,
    Forall wf_input input -> create_line_from_input_tokens tg input sz = Ok l ->
    exists lg, History l lg /\ proper lg.
Proof. exact thm_C24_created. Qed.
Lemma derived24 : derived false rc3 (mkSel rc3 3 5).
Proof.
  exact (D_find_by false rc3 _ false str (x_attr TStr) found3 _ (of_string "y")
      (whole3 false) (LM_attr any_ty TStr I) found3_eq ltac:(unfold found3; simpl; tauto)).
Qed.
Example C24_case : History (rc_line rc3) lg3 /\ proper lg3 /\ derived false rc3 (mkSel rc3 3 5)
  /\ derived true rc3 (mkSel rc3 7 6) /\ sel_past_end (mkSel rc3 7 6).
Proof.
  conj; try fact; try exact derived24; try (vm_compute; lia).
  exact (D_after true rc3 _ _ eq_refl (whole3 true) eq_refl).
Qed.
Theorem C24_run {UC : Unicode} {U : UserTypes} :
  forall t l lg id (r : Resolver t),
    History l lg -> proper lg -> (ll_tokens l <> [] -> well_behaved id l r) ->
    exists l' lg', run id l r = Ok l' /\ History l' (lg ++ lg') /\ proper (lg ++ lg').
Proof. exact thm_C24_run. Qed.
(** A resolver that finishes every text with its length, and the line after its run. *)
Definition lengths : Resolver TNum := fun s =>
  ms <- find_by s x_token_text;;
  Ok (mkGo (finish_with (t := TNum) ms (fun text => N.of_nat (length text))) false).
Example C24_run_case :
  History line2 lg2 /\ proper lg2 /\ well_behaved 1 line2 lengths
  /\ exists l', run 1 line2 lengths = Ok l' /\ x_attr TNum (Fwd 3) l' = Ok [(1%N, 5); (2%N, 3)].
Proof.
  conj; try fact.
  - eexists. split; [unfold lengths; change (whole 1 line2) with (mkSel rc2 0 6); rewrite found2_eq; reflexivity|].
    split; [reflexivity|]. intros x Hin.
    apply (proj1 (in_map_iff (fun '(sel, y) => finish_with_attr (t := TNum) sel (N.of_nat (length y))) found2 x)) in Hin.
    destruct Hin as ([s y] & <- & Hin). exists s. eexists. split; [|reflexivity].
    exact (D_find_by false rc2 _ false str x_token_text found2 s y (whole2 false) (LM_token_text any_ty) found2_eq Hin).
  - eexists. split; vm_compute; reflexivity.
Qed.
Theorem C24_after_refuted :
  exists rc lg s, History (rc_line rc) lg /\ proper lg /\ derived true rc s /\ ~ sel_ok s.
Proof. exact thm_C24_after_refuted. Qed.

(** ** C25 find_by *)
Theorem C25_find_by {UC : Unicode} {U : UserTypes} :
  forall A s (m : matcher A) found,
    find_by s m = Ok found ->
    (forall s' a, In (s', a) found <->
       sel_line s' = sel_line s /\ covers s (start_idx s')
       /\ exists ms, m (Fwd (start_idx s')) (line_of s) = Ok ms /\ In (a, end_idx s') ms)
    /\ StronglySorted le (map (fun x => start_idx (fst x)) found)
    /\ (forall i ms, covers s i -> m (Fwd i) (line_of s) = Ok ms ->
          map (fun x => (snd x, end_idx (fst x))) (filter (fun x => Nat.eqb (start_idx (fst x)) i) found) = ms).
Proof. exact thm_C25_find_by. Qed.
Theorem C25_ok_iff {UC : Unicode} {U : UserTypes} :
  forall A s (m : matcher A),
    (exists found, find_by s m = Ok found) <->
    (forall i, covers s i -> exists ms, m (Fwd i) (line_of s) = Ok ms).
Proof. exact thm_C25_ok_iff. Qed.
Theorem C25_first {UC : Unicode} {U : UserTypes} :
  forall A s (m : matcher A) found,
    find_by s m = Ok found ->
    (found = [] -> find_first_by s m = Ok None)
    /\ (forall x rest, found = x :: rest -> find_first_by s m = Ok (Some x)).
Proof. exact thm_C25_first. Qed.
Example C25_case :
  find_by (mkSel rc3 0 6) (x_attr TStr) = Ok found3
  /\ find_first_by (mkSel rc3 0 6) (x_attr TStr) = Ok (Some (mkSel rc3 0 5, of_string "z"))
  /\ find_by (mkSel rc3 1 2) (x_attr TStr) = Ok []
  /\ x_token_has_any TChar N.eqb [32%N] (Fwd 2) line3 = Panic PFwdAtEnd
  /\ find_by (mkSel rc3 0 6) (x_token_has_any TChar N.eqb [32%N]) = Panic PFwdAtEnd.
Proof. facts. Qed.

(** ** C26 Matches and the selection searched *)
Theorem C26_found_inside_partial {UC : Unicode} {U : UserTypes} :
  forall A s (m : matcher A) found s' a,
    sel_ok s -> bounded m (line_of s) -> find_by s m = Ok found -> In (s', a) found ->
    sel_ok s' /\ start_idx s <= start_idx s'
    /\ (S (end_idx s) = line_len s \/ start_idx s' = end_idx s' -> end_idx s' <= end_idx s).
Proof. exact thm_C26_found_inside_partial. Qed.
Example C26_case :
  sel_ok (mkSel rc3 3 6) /\ bounded (x_attr TStr) (line_of (mkSel rc3 3 6))
  /\ find_by (mkSel rc3 3 6) (x_attr TStr) = Ok (tl found3) /\ S 6 = line_len (mkSel rc3 3 6).
Proof. conj; try fact. exact (bounded_attr line3 lg3 TStr history3 proper3). Qed.
Theorem C26_exact {UC : Unicode} {U : UserTypes} :
  forall l lg s t, History l lg -> line_of s = l -> sel_ok s ->
    exists found, find_by s (x_attr t) = Ok found
      /\ ((forall s' a, In (s', a) found -> end_idx s' <= end_idx s)
          <-> (forall r v, In (r, v) (assigned t lg) -> covers s (fst r) -> snd r <= end_idx s)).
Proof. exact thm_C26_exact. Qed.
(** The range of tokens 0 to 5 crosses the end of the first selection, and no range that of the second. *)
Definition found_in {A} (r : res (list A)) : list A := match r with Ok x => x | _ => [] end.
Example C26_exact_case :
  History line3 lg3 /\ sel_ok (mkSel rc3 0 4) /\ sel_ok (mkSel rc3 0 5)
  /\ In ((0, 5), of_string "z") (assigned TStr lg3) /\ covers (mkSel rc3 0 4) 0
  /\ map (fun x => end_idx (fst x)) (found_in (find_by (mkSel rc3 0 4) (x_attr TStr))) = [5; 5; 5; 5; 4]
  /\ map (fun '(r, _) => snd r) (assigned TStr lg3) = [5; 5; 5; 4; 5].
Proof.
  split; [exact history3|]. split; [vm_compute; lia|]. split; [vm_compute; lia|]. split; [vm_compute; tauto|].
  split; [vm_compute; lia|]. split; fact.
Qed.
Theorem C26_refuted :
  exists rc lg s found s' a,
    History (rc_line rc) lg /\ proper lg /\ derived false rc s
    /\ find_by s (x_attr TNum) = Ok found /\ In (s', a) found /\ end_idx s < end_idx s'.
Proof. exact thm_C26_refuted. Qed.

(** ** C27 split_by *)
Theorem C27_runs {UC : Unicode} {U : UserTypes} :
  forall A s (m : matcher A) found,
    sel_ok s -> bounded m (line_of s) -> find_by s m = Ok found ->
    StronglySorted le (map (fun x => end_idx (fst x)) found) ->
    exists ps, split_by s m = Ok ps /\ maximal_runs s (touched found) ps.
Proof. exact thm_C27_runs. Qed.
Example C27_runs_case :
  sel_ok (mkSel rc2 0 6) /\ bounded (x_attr TNum) (line_of (mkSel rc2 0 6))
  /\ (exists found, find_by (mkSel rc2 0 6) (x_attr TNum) = Ok found
      /\ found = [(mkSel rc2 0 1, 7%N); (mkSel rc2 3 5, 1%N)]
      /\ StronglySorted le (map (fun x => end_idx (fst x)) found))
  /\ split_by (mkSel rc2 0 6) (x_attr TNum) = Ok [mkSel rc2 2 2; mkSel rc2 6 6].
Proof.
  conj; try fact.
  - exact (bounded_attr line2 lg2 TNum history2 proper2).
  - eexists. split; [vm_compute; reflexivity|]. split; [reflexivity|]. repeat constructor; vm_compute; lia.
Qed.
Theorem C27_single_tokens {UC : Unicode} {U : UserTypes} :
  forall A s (m : matcher A) found,
    sel_ok s -> find_by s m = Ok found ->
    (forall s' a, In (s', a) found -> start_idx s' = end_idx s') ->
    exists ps, split_by s m = Ok ps /\ maximal_runs s (touched found) ps.
Proof. exact thm_C27_single_tokens. Qed.
Example C27_single_tokens_case :
  sel_ok (mkSel rc1 2 9)
  /\ (exists found, find_by (mkSel rc1 2 9) x_whitespace = Ok found
      /\ length found = 3 /\ (forall s' a, In (s', a) found -> start_idx s' = end_idx s'))
  /\ split_by (mkSel rc1 2 9) x_whitespace
     = Ok [mkSel rc1 2 2; mkSel rc1 4 5; mkSel rc1 7 7; mkSel rc1 9 9].
Proof.
  conj; try fact. eexists. split; [vm_compute; reflexivity|]. split; [reflexivity|].
  intros s' a H. repeat (destruct H as [H|H]; [inversion H; reflexivity|]). easy.
Qed.
Theorem C27_no_match {UC : Unicode} {U : UserTypes} :
  forall A s (m : matcher A), find_by s m = Ok [] -> split_by s m = Ok [s].
Proof. exact thm_C27_no_match. Qed.
Example C27_no_match_case :
  find_by (mkSel rc2 1 2) (x_attr TStr) = Ok [] /\ split_by (mkSel rc2 1 2) (x_attr TStr) = Ok [mkSel rc2 1 2].
Proof. facts. Qed.
Theorem C27_refuted :
  exists rc lg s found ps p k,
    History (rc_line rc) lg /\ proper lg /\ derived false rc s
    /\ find_by s (x_attr TStr) = Ok found /\ split_by s (x_attr TStr) = Ok ps
    /\ In p ps /\ covers p k /\ touched found k.
Proof. exact thm_C27_refuted. Qed.

(** ** C28 split_with *)
Theorem C28_split_with {UC : Unicode} {U : UserTypes} :
  forall s o,
    sel_ok s -> sel_ok o -> rc_id (sel_line s) = rc_id (sel_line o) ->
    exists l r, split_with s o = Ok (l, r)
      /\ part_of s (fun k => k < start_idx o) l
      /\ part_of s (fun k => end_idx o < k) r
      /\ (forall k, (exists p, (l = Some p \/ r = Some p) /\ covers p k) <-> covers s k /\ ~ covers o k).
Proof. exact thm_C28_split_with. Qed.
Theorem C28_panics_iff {UC : Unicode} {U : UserTypes} :
  forall s o, (exists p, split_with s o = Panic p) <-> rc_id (sel_line s) <> rc_id (sel_line o).
Proof. exact thm_C28_panics_iff. Qed.
Example C28_case :
  sel_ok (mkSel rc2 0 6) /\ sel_ok (mkSel rc2 3 5)
  /\ split_with (mkSel rc2 0 6) (mkSel rc2 3 5) = Ok (Some (mkSel rc2 0 2), Some (mkSel rc2 6 6))
  /\ split_with (mkSel rc2 3 5) (mkSel rc2 0 6) = Ok (None, None)
  /\ split_with (mkSel rc2 0 6) (mkSel (mkRc 2 line2) 3 5) = Panic PDifferentLines.
Proof. facts. Qed.

(** ** C29 trim *)
Theorem C29_trim_start {UC : Unicode} {U : UserTypes} :
  forall A s (m : matcher A) fs,
    sel_ok s -> bounded m (line_of s) -> m (Fwd (start_idx s)) (line_of s) = Ok fs ->
    exists o, trim_start s m = Ok o /\ part_of s (fun k => ~ first_match_fwd fs k) o.
Proof. exact thm_C29_trim_start. Qed.
Theorem C29_trim_end_exact {UC : Unicode} {U : UserTypes} :
  forall A s (m : matcher A) bs,
    sel_ok s -> bounded m (line_of s) -> m (Bwd (end_idx s)) (line_of s) = Ok bs ->
    exists o, trim_end s m = Ok o /\ part_of s (fun k => ~ (first_match_bwd bs k /\ k <> 0)) o.
Proof. exact thm_C29_trim_end_exact. Qed.
Theorem C29_trim_exact {UC : Unicode} {U : UserTypes} :
  forall A s (m : matcher A) fs bs,
    sel_ok s -> bounded m (line_of s) ->
    m (Fwd (start_idx s)) (line_of s) = Ok fs -> m (Bwd (end_idx s)) (line_of s) = Ok bs ->
    exists o, trim s m = Ok o
      /\ part_of s (fun k => ~ first_match_fwd fs k /\ ~ (first_match_bwd bs k /\ k <> 0)) o.
Proof. exact thm_C29_trim_exact. Qed.
Theorem C29_trim_end_partial {UC : Unicode} {U : UserTypes} :
  forall A s (m : matcher A) bs,
    sel_ok s -> bounded m (line_of s) -> m (Bwd (end_idx s)) (line_of s) = Ok bs ->
    ~ (start_idx s = 0 /\ first_match_bwd bs 0) ->
    exists o, trim_end s m = Ok o /\ part_of s (fun k => ~ first_match_bwd bs k) o.
Proof. exact thm_C29_trim_end_partial. Qed.
Theorem C29_trim_partial {UC : Unicode} {U : UserTypes} :
  forall A s (m : matcher A) fs bs,
    sel_ok s -> bounded m (line_of s) ->
    m (Fwd (start_idx s)) (line_of s) = Ok fs -> m (Bwd (end_idx s)) (line_of s) = Ok bs ->
    ~ (start_idx s = 0 /\ first_match_bwd bs 0 /\ ~ first_match_fwd fs 0) ->
    exists o, trim s m = Ok o
      /\ part_of s (fun k => ~ first_match_fwd fs k /\ ~ first_match_bwd bs k) o.
Proof. exact thm_C29_trim_partial. Qed.
Example C29_case :
  sel_ok (mkSel rc1 1 3) /\ bounded x_whitespace (line_of (mkSel rc1 1 3))
  /\ x_whitespace (Fwd 1) line1 = Ok [(tt, 1)] /\ x_whitespace (Bwd 3) line1 = Ok [(tt, 3)]
  /\ trim_start (mkSel rc1 1 3) x_whitespace = Ok (Some (mkSel rc1 2 3))
  /\ trim_end (mkSel rc1 1 3) x_whitespace = Ok (Some (mkSel rc1 1 2))
  /\ trim (mkSel rc1 1 3) x_whitespace = Ok (Some (mkSel rc1 2 2))
  /\ trim (mkSel rc1 1 1) x_whitespace = Ok None.
Proof. conj; try fact. exact (bounded_space line1 lg1 history1 proper1). Qed.
Theorem C29_trim_end_refuted :
  exists rc lg s bs p,
    History (rc_line rc) lg /\ proper lg /\ derived false rc s
    /\ x_whitespace (Bwd (end_idx s)) (rc_line rc) = Ok bs /\ first_match_bwd bs (start_idx s)
    /\ trim_end s x_whitespace = Ok (Some p) /\ covers p (start_idx s).
Proof. exact thm_C29_trim_end_refuted. Qed.
Theorem C29_trim_refuted :
  exists rc lg s (m : matcher N) fs bs p,
    History (rc_line rc) lg /\ proper lg /\ derived false rc s /\ lib_matcher any_ty true N m
    /\ m (Fwd (start_idx s)) (rc_line rc) = Ok fs /\ m (Bwd (end_idx s)) (rc_line rc) = Ok bs
    /\ first_match_bwd bs (start_idx s) /\ trim s m = Ok (Some p) /\ covers p (start_idx s).
Proof. exact thm_C29_trim_refuted. Qed.

(** ** C30 match_forwards and match_backwards *)
Theorem C30_match_forwards {UC : Unicode} {U : UserTypes} :
  forall A s (m : matcher A) ms,
    sel_ok s ->
    (S (end_idx s) = line_len s -> match_forwards s m = Ok [])
    /\ (S (end_idx s) < line_len s -> m (Fwd (S (end_idx s))) (line_of s) = Ok ms ->
        exists r, match_forwards s m = Ok r
          /\ map (fun x => (snd x, end_idx (fst x))) r = ms
          /\ Forall (fun x => sel_line (fst x) = sel_line s /\ start_idx (fst x) = start_idx s) r).
Proof. exact thm_C30_match_forwards. Qed.
Theorem C30_match_backwards {UC : Unicode} {U : UserTypes} :
  forall A s (m : matcher A) ms,
    sel_ok s ->
    (start_idx s = 0 -> match_backwards s m = Ok [])
    /\ (forall k, start_idx s = S k -> m (Bwd k) (line_of s) = Ok ms ->
        exists r, match_backwards s m = Ok r
          /\ map (fun x => (snd x, start_idx (fst x))) r = ms
          /\ Forall (fun x => sel_line (fst x) = sel_line s /\ end_idx (fst x) = end_idx s) r).
Proof. exact thm_C30_match_backwards. Qed.
Theorem C30_first {UC : Unicode} {U : UserTypes} :
  forall A s (m : matcher A) r,
    (match_forwards s m = Ok r -> match_first_forwards s m = Ok (match r with x :: _ => Some x | [] => None end))
    /\ (match_backwards s m = Ok r -> match_first_backwards s m = Ok (match r with x :: _ => Some x | [] => None end)).
Proof. exact thm_C30_first. Qed.
Theorem C30_unwritten {UC : Unicode} {U : UserTypes} :
  forall A s (m : matcher A),
    (exists p, match_forwards_longest s m = Panic p) /\ (exists p, match_forwards_shortest s m = Panic p).
Proof. exact thm_C30_unwritten. Qed.
Example C30_case :
  sel_ok (mkSel rc3 2 2) /\ S 2 < line_len (mkSel rc3 2 2)
  /\ x_attr TStr (Fwd 3) line3 = Ok [(of_string "x", 5); (of_string "y", 5); (of_string "v", 5)]
  /\ match_forwards (mkSel rc3 2 2) (x_attr TStr)
     = Ok [(mkSel rc3 2 5, of_string "x"); (mkSel rc3 2 5, of_string "y"); (mkSel rc3 2 5, of_string "v")]
  /\ match_first_forwards (mkSel rc3 2 2) (x_attr TStr) = Ok (Some (mkSel rc3 2 5, of_string "x"))
  /\ match_forwards_longest (mkSel rc3 2 2) (x_attr TStr) = Panic PTodo
  /\ x_attr TNum (Bwd 1) line3 = Ok [(7%N, 0)]
  /\ match_backwards (mkSel rc3 2 2) (x_attr TNum) = Ok [(mkSel rc3 0 2, 7%N)]
  /\ match_first_backwards (mkSel rc3 2 2) (x_attr TNum) = Ok (Some (mkSel rc3 0 2, 7%N))
  /\ match_forwards (mkSel rc3 2 6) (x_attr TNum) = Ok [].
Proof. facts. Qed.
Theorem C30_seq {UC : Unicode} {U : UserTypes} :
  forall A B s (ma : matcher A) (mb : matcher B) found ss,
    sel_ok s -> bounded ma (line_of s) ->
    find_by s ma = Ok found -> find_by s (x_seq2 ma mb) = Ok ss ->
    forall s2 a b,
      In (s2, (a, b)) ss <->
      exists s1 r, In (s1, a) found /\ match_forwards s1 mb = Ok r /\ In (s2, b) r.
Proof. exact thm_C30_seq. Qed.
Example C30_seq_case :
  sel_ok (mkSel rc12 0 6) /\ bounded (x_attr TNum) (line_of (mkSel rc12 0 6))
  /\ find_by (mkSel rc12 0 6) (x_attr TNum)
     = Ok [(mkSel rc12 0 1, 7%N); (mkSel rc12 2 2, 9%N); (mkSel rc12 3 5, 1%N)]
  /\ find_by (mkSel rc12 0 6) (x_seq2 (x_attr TNum) (x_attr TNum))
     = Ok [(mkSel rc12 0 2, (7%N, 9%N)); (mkSel rc12 2 5, (9%N, 1%N))]
  /\ match_forwards (mkSel rc12 2 2) (x_attr TNum) = Ok [(mkSel rc12 2 5, 1%N)].
Proof. conj; try fact. exact (bounded_attr line12 lg12 TNum history12 proper12). Qed.

(** ** C31 after *)
Theorem C31_exact {UC : Unicode} {U : UserTypes} :
  forall s, sel_ok s ->
    (start_idx s + 2 = line_len s -> sel_after s = Ok None)
    /\ (start_idx s + 2 <> line_len s ->
        sel_after s = Ok (Some (mkSel (sel_line s) (end_idx s + 1) (line_len s - 1)))).
Proof. exact thm_C31_exact. Qed.
Theorem C31_after_partial {UC : Unicode} {U : UserTypes} :
  forall s, sel_ok s -> end_idx s + 1 < line_len s -> start_idx s + 2 <> line_len s ->
    exists p, sel_after s = Ok (Some p) /\ sel_line p = sel_line s /\ sel_ok p
      /\ forall k, covers p k <-> end_idx s < k < line_len s.
Proof. exact thm_C31_after_partial. Qed.
Example C31_case :
  sel_ok (mkSel rc2 3 5) /\ 5 + 1 < line_len (mkSel rc2 3 5) /\ 3 + 2 <> line_len (mkSel rc2 3 5)
  /\ sel_after (mkSel rc2 3 5) = Ok (Some (mkSel rc2 6 6)).
Proof. facts. Qed.
Theorem C31_wrong_none {UC : Unicode} {U : UserTypes} :
  forall s, sel_ok s -> end_idx s + 2 = line_len s -> start_idx s = end_idx s ->
    sel_after s = Ok None /\ end_idx s + 1 < line_len s.
Proof. exact thm_C31_wrong_none. Qed.
Theorem C31_wrong_some {UC : Unicode} {U : UserTypes} :
  forall s, sel_ok s -> end_idx s + 1 = line_len s -> start_idx s + 2 <> line_len s ->
    exists p, sel_after s = Ok (Some p) /\ sel_past_end p.
Proof. exact thm_C31_wrong_some. Qed.
Example C31_wrong_case :
  sel_ok (mkSel rc2 5 5) /\ 5 + 2 = line_len (mkSel rc2 5 5) /\ sel_after (mkSel rc2 5 5) = Ok None
  /\ sel_ok (mkSel rc2 3 6) /\ 6 + 1 = line_len (mkSel rc2 3 6) /\ sel_after (mkSel rc2 3 6) = Ok (Some (mkSel rc2 7 6)).
Proof. facts. Qed.
Theorem C31_none_refuted :
  exists rc lg s, History (rc_line rc) lg /\ derived false rc s /\ sel_ok s
    /\ S (end_idx s) < line_len s /\ sel_after s = Ok None.
Proof. exact thm_C31_none_refuted. Qed.
Theorem C31_some_refuted :
  exists rc lg s p, History (rc_line rc) lg /\ derived false rc s /\ sel_ok s
    /\ S (end_idx s) = line_len s /\ sel_after s = Ok (Some p).
Proof. exact thm_C31_some_refuted. Qed.

(** ** C32 find_by_forwards_and_backwards *)
Theorem C32_both_directions {UC : Unicode} {U : UserTypes} :
  forall A s (m : matcher A) found,
    find_by_forwards_and_backwards s m = Ok found ->
    (forall s' a, In (s', a) found <->
       sel_line s' = sel_line s /\
       ((covers s (start_idx s') /\ exists ms, m (Fwd (start_idx s')) (line_of s) = Ok ms /\ In (a, end_idx s') ms)
        \/ (covers s (end_idx s') /\ exists ms, m (Bwd (end_idx s')) (line_of s) = Ok ms /\ In (a, start_idx s') ms)))
    /\ (exists fs, find_by s m = Ok fs /\ incl fs found).
Proof. exact thm_C32_both_directions. Qed.
Theorem C32_order {UC : Unicode} {U : UserTypes} :
  forall A s (m : matcher A) (fm bm : nat -> list (A * nat)),
    (forall i, covers s i -> m (Fwd i) (line_of s) = Ok (fm i) /\ m (Bwd i) (line_of s) = Ok (bm i)) ->
    exists found, find_by_forwards_and_backwards s m = Ok found
      /\ map (fun x => (start_idx (fst x), end_idx (fst x), snd x)) found =
         flat_map (fun i => map (fun '(a, j) => (i, j, a)) (fm i) ++ map (fun '(a, j) => (j, i, a)) (bm i))
                  (seq (start_idx s) (S (end_idx s) - start_idx s)).
Proof. exact thm_C32_order. Qed.
Theorem C32_twice {UC : Unicode} {U : UserTypes} :
  forall l lg t id s found i j,
    History l lg -> sel_line s = mkRc id l -> sel_ok s -> covers s i -> covers s j ->
    find_by_forwards_and_backwards s (x_attr t) = Ok found ->
    Permutation (matched_on i j found) (values_on t (i, j) lg ++ values_on t (i, j) lg).
Proof. exact thm_C32_twice. Qed.
Example C32_case :
  History line3 lg3 /\ sel_ok (mkSel rc3 3 5) /\ covers (mkSel rc3 3 5) 3 /\ covers (mkSel rc3 3 5) 5
  /\ values_on TStr (3, 5) lg3 = map of_string ["x"; "y"; "v"]%string
  /\ (exists found, find_by_forwards_and_backwards (mkSel rc3 3 5) (x_attr TStr) = Ok found
      /\ map (fun x => (start_idx (fst x), end_idx (fst x), snd x)) found
         = map (fun '(a, b, s) => (a, b, of_string s))
             [(3, 5, "x"); (3, 5, "y"); (3, 5, "v"); (4, 4, "w"); (4, 4, "w");
              (3, 5, "x"); (3, 5, "y"); (3, 5, "v"); (0, 5, "z")]%string)
  /\ (forall i, covers (mkSel rc3 3 5) i ->
       x_attr TStr (Fwd i) line3 = Ok (get [] (x_attr TStr (Fwd i) line3))
       /\ x_attr TStr (Bwd i) line3 = Ok (get [] (x_attr TStr (Bwd i) line3))).
Proof.
  conj; try fact.
  - eexists. split; vm_compute; reflexivity.
  - intros i [H1 H2]. simpl in H1, H2. destruct i as [|[|[|[|[|[|i]]]]]]; try lia; split; vm_compute; reflexivity.
Qed.

(** ** C33 find *)
Theorem C33_find {UC : Unicode} {U : UserTypes} :
  forall l id A (m : matcher A) ms,
    ll_tokens l <> [] -> bounded m l -> find_by (whole id l) m = Ok ms ->
    exists fs, find l m = Ok fs
      /\ Forall2 (fun f x => exists ta tb,
             nth_error (ll_tokens l) (start_idx (fst x)) = Some ta
             /\ nth_error (ll_tokens l) (end_idx (fst x)) = Some tb
             /\ start_pos_at f = pos_starts_at ta /\ end_pos_at f = pos_ends_at tb
             /\ found f = snd x) fs ms.
Proof. exact thm_C33_find. Qed.
Theorem C33_empty {UC : Unicode} {U : UserTypes} :
  forall l A (m : matcher A), ll_tokens l = [] -> find l m = Ok [].
Proof. exact thm_C33_empty. Qed.
Theorem C33_ordered {UC : Unicode} {U : UserTypes} :
  forall l A (m : matcher A) fs xs,
    ll_tokens l = layout xs -> bounded m l -> find l m = Ok fs ->
    Forall (fun f => (start_pos_at f <= end_pos_at f)%N) fs.
Proof. exact thm_C33_ordered. Qed.
Example C33_case :
  ll_tokens line3 <> [] /\ bounded (x_attr TStr) line3 /\ ll_tokens line3 = layout (concat (groups_from in2))
  /\ find_by (whole 1 line3) (x_attr TStr) = Ok found3
  /\ find line3 (x_attr TStr)
     = Ok (map (fun '(a, b, s) => mkFind a b (of_string s))
          [(0%N, 13%N, "z"); (7%N, 13%N, "x"); (7%N, 13%N, "y"); (7%N, 13%N, "v"); (9%N, 10%N, "w")])%string.
Proof. conj; try fact. exact (bounded_attr line3 lg3 TStr history3 proper3). Qed.
Example C33_empty_case : ll_tokens no_line = [] /\ create_line_from_input_tokens tg64 [] str_len = Ok no_line.
Proof. facts. Qed.

(** ** C34 Equality of selections *)
Theorem C34_eq_iff {UC : Unicode} {U : UserTypes} :
  forall a b, sel_eqb a b = true <->
    rc_id (sel_line a) = rc_id (sel_line b) /\ start_idx a = start_idx b /\ end_idx a = end_idx b.
Proof. exact thm_C34_eq_iff. Qed.
Theorem C34_equivalence {UC : Unicode} {U : UserTypes} :
  (forall a, sel_eqb a a = true)
  /\ (forall a b, sel_eqb a b = sel_eqb b a)
  /\ (forall a b c, sel_eqb a b = true -> sel_eqb b c = true -> sel_eqb a c = true).
Proof. exact thm_C34_equivalence. Qed.
Theorem C34_same {UC : Unicode} {U : UserTypes} :
  forall a b, (rc_id (sel_line a) = rc_id (sel_line b) -> sel_line a = sel_line b) ->
    (sel_eqb a b = true <-> a = b).
Proof. exact thm_C34_same. Qed.
Example C34_case :
  sel_eqb (mkSel rc2 3 5) (mkSel rc2 3 5) = true /\ sel_eqb (mkSel rc2 3 5) (mkSel rc2 3 6) = false
  /\ sel_eqb (mkSel rc2 2 5) (mkSel rc2 3 5) = false /\ sel_eqb (mkSel rc2 3 5) (mkSel (mkRc 2 line2) 3 5) = false.
Proof. facts. Qed.

(** ** C35 The display *)
Theorem C35_display {UC : Unicode} {U : UserTypes} :
  forall tg l lg (incs : list { t : ty & den t -> str }),
    History l lg -> proper lg ->
    show tg l incs =
      Ok (first_row (ll_tokens l)
          ++ flat_map (attribute_row (ll_tokens l))
               (flat_map (fun x => included (projT1 x) (projT2 x) lg) incs)).
Proof. exact thm_C35_display. Qed.
Theorem C35_columns {UC : Unicode} {U : UserTypes} :
  forall toks i tok, nth_error toks i = Some tok ->
    exists rest, first_row toks = row_before toks i ++ shown tok ++ rest
      /\ row_upto toks i = row_before toks i ++ shown tok.
Proof. exact thm_C35_columns. Qed.
Theorem C35_underline {UC : Unicode} {U : UserTypes} :
  forall w, length (underline w) = Nat.max 1 w.
Proof. exact thm_C35_underline. Qed.
Theorem C35_reversed_panics {UC : Unicode} {U : UserTypes} :
  forall tg l lg (incs : list { t : ty & den t -> str }) x r,
    History l lg -> overflow_checks tg = true ->
    In x incs -> In r (map fst (assigned (projT1 x) lg)) ->
    columns (row_upto (ll_tokens l) (snd r)) < columns (row_before (ll_tokens l) (fst r)) ->
    exists p, show tg l incs = Panic p.
Proof. exact thm_C35_reversed_panics. Qed.
Definition incs35 : list { t : ty & den t -> str } :=
  [existT (fun t => den t -> str) TStr (fun s => s : str); existT (fun t => den t -> str) TNum (fun n : N => [48 + n]%N)].
Definition lines_of (rows : list string) : str := join [10%N] (map of_string rows).
(** Underlines are compared with [(], [-] and [)] for their three characters. *)
Definition ascii_underlines (s : str) : str :=
  map (fun c => if N.eqb c 9584 then 40 else if N.eqb c 9472 then 45 else if N.eqb c 9583 then 41 else c)%N s.
Example C35_case :
  History line3 lg3 /\ proper lg3
  /\ rmap ascii_underlines (show tg64 line3 incs35) = Ok (lines_of
      ["Pay     <>  to     Bob  2";
       "            (--------)v";
       "            (--------)y";
       "            (--------)x";
       "(--------------------)z";
       "                (w";
       "(----)7";
       "            (--------)1"]%string).
Proof. facts. Qed.
Example C35_reversed_case :
  History line4 lg4 /\ overflow_checks tg64 = true
  /\ In (existT (fun t => den t -> str) TStr (fun s => s : str)) incs35
  /\ In (5, 0) (map fst (assigned TStr lg4))
  /\ columns (row_upto (ll_tokens line4) 0) < columns (row_before (ll_tokens line4) 5)
  /\ exists p, show tg64 line4 incs35 = Panic p.
Proof.
  conj; try fact; [now left|vm_compute; tauto|]. eexists. vm_compute. reflexivity.
Qed.

(** ** C36 Included attributes *)
Theorem C36_include {UC : Unicode} {U : UserTypes} :
  forall l lg t dbg d,
    History l lg -> disp_line d = l ->
    exists d', display_include t dbg d = Ok d' /\ disp_line d' = l
      /\ include_attrs d' = include_attrs d ++ included t dbg lg.
Proof. exact thm_C36_include. Qed.
Theorem C36_with {UC : Unicode} {U : UserTypes} :
  forall l lg t dbg d,
    History l lg -> disp_line d = l ->
    exists d', display_with t dbg d = Ok d' /\ disp_line d' = l
      /\ include_attrs d' = include_attrs d ++ included t dbg lg.
Proof. exact thm_C36_with. Qed.
Theorem C36_once {UC : Unicode} {U : UserTypes} :
  forall l lg t dbg,
    History l lg ->
    Permutation (included t dbg lg) (map (fun rv => (fst rv, dbg (snd rv))) (assigned t lg)).
Proof. exact thm_C36_once. Qed.
Example C36_case :
  History line3 lg3
  /\ included TStr (fun s => s : str) lg3
     = map (fun '(r, s) => (r, of_string s)) [((3, 5), "v"); ((3, 5), "y"); ((3, 5), "x"); ((0, 5), "z"); ((4, 4), "w")]%string
  /\ disp_line (display_new line3) = line3
  /\ rmap include_attrs (display_with TNum (fun _ => of_string "n") (display_new line3))
     = Ok (map (fun r => (r, of_string "n")) [(0, 1); (3, 5)]).
Proof. facts. Qed.
