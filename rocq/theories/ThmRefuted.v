(** Expected properties that are false of the code, each with a computed witness. *)

From Verif Require Import SpecCross SpecSeam SpecRead SpecUser SpecWords SpecState SpecApart SpecOpaque.
From Verif Require Export ExLines.

Local Open Scope list_scope.

Ltac by_comp := vm_compute; reflexivity.

Lemma at_end_nil {A} j : at_end (A := A) j [] = []. Proof. reflexivity. Qed.

(** C06: the underscore of "1_000" is tagged PUNC, although the documentation of PUNC
    (src/ll_line.rs:26-27) lists only these characters. *)
Definition documented_chars : str := of_string ",.!;:?'" ++ [34%N].
Lemma thm_C06_refuted :
  exists (UC : Unicode), SegmenterLaws /\ CharLaws /\
  exists s l tok text,
    create_line_from_string tg64 s = Ok l /\ In tok (ll_tokens l) /\ token tok = LText text PUNC
    /\ ~ exists c, text = [c] /\ In c documented_chars.
Proof.
  exists latin. split; [exact latin_segmenter|]. split; [exact latin_tables|].
  exists (of_string "1_000"), (line_from [InText (of_string "1_000") []]). eexists. exists [95%N].
  split; [by_comp|]. split; [vm_compute; right; left; reflexivity|]. split; [reflexivity|].
  intros (c & E & Hin). inversion E; subst. simpl in Hin. repeat (destruct Hin as [Hin|Hin]; [discriminate|]). easy.
Qed.

(** C12: a resolver of TNum changes the answer of token_has_any for text tags, from a
    panic to an empty list. *)
Definition line12 : LLLine := Eval vm_compute in get no_line (run 5 line2 (assign (t := TNum) [((2, 2), 9%N)])).
Lemma thm_C12_token_has_any_refuted :
  exists l lg l' (r : Resolver TNum) id p (m : matcher TextTag),
    History l lg /\ run id l r = Ok l'
    /\ lib_matcher (fun t => t <> TNum) true TextTag m
    /\ m (Fwd 2) l = Panic p /\ m (Fwd 2) l' = Ok [].
Proof.
  exists line2, lg2, line12, (assign (t := TNum) [((2, 2), 9%N)]), 5%N.
  eexists. exists (x_token_has_any TTextTag TextTag_eqb [PUNC]).
  split; [exact history2|]. split; [by_comp|]. split; [apply (LM_token_has_any (fun t => t <> TNum) TTextTag); discriminate|]. split; by_comp.
Qed.

(** C16: backwards token_has_any also matches ranges of several tokens. *)
Lemma thm_C16_token_has_any_refuted :
  exists l lg t eqT set, History l lg /\ proper lg /\ ~ agrees (x_token_has_any t eqT set) l.
Proof.
  exists line2, lg2, TNum, N.eqb, [7%N]. split; [exact history2|]. split; [exact proper2|]. intros HA.
  specialize (HA 0 1 [] [(7%N, 0)] ltac:(simpl; lia) ltac:(simpl; lia) ltac:(by_comp) ltac:(by_comp)).
  change (Permutation (@nil N) [7%N]) in HA. apply Permutation_nil in HA. discriminate.
Qed.

(** C16: and any_of may choose differently in the two directions. *)
Definition line16 : LLLine := Eval vm_compute in get no_line (run 5 line2 (assign (t := TStr) [((0, 0), of_string "w")])).
Definition lg16 : list entry := Eval vm_compute in lg2 ++ map (fun '(r, v) => (r, mkany TStr v)) [((0, 0), of_string "w")].
Lemma history16 : History line16 lg16.
Proof. exact (history_assign (t := TStr) line2 lg2 5 [((0, 0), of_string "w")] history2 ltac:(discriminate) eq_refl). Qed.
Lemma thm_C16_any_of_refuted :
  exists l lg, History l lg /\ proper lg /\ ~ agrees (x_any_of2 (x_attr TStr) (x_attr TNum)) l.
Proof.
  exists line16, lg16. split; [exact history16|]. split; [apply properb; by_comp|]. intros HA.
  specialize (HA 0 1 [(A2_A (of_string "w"), 0)] [(A2_B 7%N, 0)] ltac:(simpl; lia) ltac:(simpl; lia) ltac:(by_comp) ltac:(by_comp)).
  change (Permutation (@nil (AnyOf2 str N)) [A2_B 7%N]) in HA. apply Permutation_nil in HA. discriminate.
Qed.

Definition rc2 : RcLine := mkRc 1 line2.
Definition found2 : list (LLSelection * str) :=
  map (fun '(i, s) => (mkSel rc2 i i, of_string s)) [(0, "Pay"); (1, " "); (3, "to"); (4, " "); (5, "Bob"); (6, "2")]%string.
Lemma found2_eq : find_by (mkSel rc2 0 6) x_token_text = Ok found2.
Proof. by_comp. Qed.

(** C24: with [after] an empty selection past the end arises. *)
Lemma thm_C24_after_refuted :
  exists rc lg s, History (rc_line rc) lg /\ proper lg /\ derived true rc s /\ ~ sel_ok s.
Proof.
  exists (mkRc 1 line2), lg2, (mkSel (mkRc 1 line2) 7 6). split; [exact history2|]. split; [exact proper2|]. split.
  - eapply D_after; [reflexivity|eapply D_whole; by_comp|by_comp].
  - unfold sel_ok. simpl. lia.
Qed.

(** C26: a match found by [find_by] may extend past the end of the selection. *)
Lemma thm_C26_refuted :
  exists rc lg s found s' a,
    History (rc_line rc) lg /\ proper lg /\ derived false rc s
    /\ find_by s (x_attr TNum) = Ok found /\ In (s', a) found /\ end_idx s < end_idx s'.
Proof.
  exists rc2, lg2, (mkSel rc2 0 0), [(mkSel rc2 0 1, 7%N)], (mkSel rc2 0 1), 7%N.
  split; [exact history2|]. split; [exact proper2|]. split; [|split; [by_comp|split; [now left|simpl; lia]]].
  exact (D_find_by false rc2 (mkSel rc2 0 6) false str x_token_text found2 _ (of_string "Pay")
      (D_whole false rc2 _ eq_refl) (LM_token_text any_ty) found2_eq ltac:(left; reflexivity)).
Qed.

(** C27: with nested matches the pieces of [split_by] can contain matched tokens. *)
Definition rc3 : RcLine := mkRc 1 line3.
Definition found3 : list (LLSelection * str) :=
  map (fun '(a, b, s) => (mkSel rc3 a b, of_string s)) [(0, 5, "z"); (3, 5, "x"); (3, 5, "y"); (3, 5, "v"); (4, 4, "w")]%string.
Lemma found3_eq : find_by (mkSel rc3 0 6) (x_attr TStr) = Ok found3.
Proof. by_comp. Qed.
Lemma split3_eq : split_by (mkSel rc3 0 6) (x_attr TStr) = Ok [mkSel rc3 5 6].
Proof. by_comp. Qed.
Lemma thm_C27_refuted :
  exists rc lg s found ps p k,
    History (rc_line rc) lg /\ proper lg /\ derived false rc s
    /\ find_by s (x_attr TStr) = Ok found /\ split_by s (x_attr TStr) = Ok ps
    /\ In p ps /\ covers p k /\ touched found k.
Proof.
  exists rc3, lg3, (mkSel rc3 0 6), found3, [mkSel rc3 5 6], (mkSel rc3 5 6), 5.
  split; [exact history3|]. split; [exact proper3|]. split; [exact (D_whole false rc3 _ eq_refl)|].
  split; [exact found3_eq|]. split; [exact split3_eq|]. split; [now left|]. split; [unfold covers; simpl; lia|].
  exists (mkSel rc3 0 5), (of_string "z"). split; [left; reflexivity|unfold covers; simpl; lia].
Qed.

(** C29: [trim_end] keeps token 0 although its match reaches back to it, ... *)
Definition line29 : LLLine := Eval vm_compute in line_from [InText (of_string " ") []].
Lemma thm_C29_trim_end_refuted :
  exists rc lg s bs p,
    History (rc_line rc) lg /\ proper lg /\ derived false rc s
    /\ x_whitespace (Bwd (end_idx s)) (rc_line rc) = Ok bs /\ first_match_bwd bs (start_idx s)
    /\ trim_end s x_whitespace = Ok (Some p) /\ covers p (start_idx s).
Proof.
  set (rc := mkRc 1 line29).
  exists rc, (log_from [InText (of_string " ") []]), (mkSel rc 0 0), [(tt, 0)], (mkSel rc 0 0).
  split; [apply (history_from [InText (of_string " ") []]); [wf_inputs|by_comp|by_comp]|].
  split; [apply properb; by_comp|]. split; [eapply D_whole; by_comp|]. split; [by_comp|].
  split; [exists tt, 0, []; auto|]. split; [by_comp|]. unfold covers. simpl. lia.
Qed.

(** ... and so does [trim], with a matcher that behaves differently forwards. *)
Definition in29 : list InputToken := [InText (of_string "a b") [any_of TNum 7%N]].
Definition line29b : LLLine := Eval vm_compute in line_from in29.
Lemma thm_C29_trim_refuted :
  exists rc lg s (m : matcher N) fs bs p,
    History (rc_line rc) lg /\ proper lg /\ derived false rc s /\ lib_matcher any_ty true N m
    /\ m (Fwd (start_idx s)) (rc_line rc) = Ok fs /\ m (Bwd (end_idx s)) (rc_line rc) = Ok bs
    /\ first_match_bwd bs (start_idx s) /\ trim s m = Ok (Some p) /\ covers p (start_idx s).
Proof.
  set (rc := mkRc 1 line29b).
  exists rc, (log_from in29), (mkSel rc 0 2), (x_token_has_any TNum N.eqb [7%N]), [], [(7%N, 0)], (mkSel rc 0 0).
  split; [apply (history_from in29); [wf_inputs|by_comp|by_comp]|].
  split; [apply properb; by_comp|]. split; [eapply D_whole; by_comp|].
  split; [apply (LM_token_has_any any_ty TNum); exact I|]. split; [by_comp|]. split; [by_comp|].
  split; [exists 7%N, 0, []; auto|]. split; [by_comp|]. unfold covers. simpl. lia.
Qed.

(** C31: [after] is None although a token follows, ... *)
Lemma thm_C31_none_refuted :
  exists rc lg s, History (rc_line rc) lg /\ derived false rc s /\ sel_ok s
    /\ S (end_idx s) < line_len s /\ sel_after s = Ok None.
Proof.
  exists rc2, lg2, (mkSel rc2 5 5). split; [exact history2|]. split; [|split; [|split]].
  - exact (D_find_by false rc2 (mkSel rc2 0 6) false str x_token_text found2 _ (of_string "Bob")
      (D_whole false rc2 _ eq_refl) (LM_token_text any_ty) found2_eq ltac:(unfold found2; simpl; tauto)).
  - split; [apply Nat.leb_le; by_comp|apply Nat.ltb_lt; by_comp].
  - apply Nat.ltb_lt. by_comp.
  - by_comp.
Qed.

(** ... and is a selection although no token follows. *)
Lemma thm_C31_some_refuted :
  exists rc lg s p, History (rc_line rc) lg /\ derived false rc s /\ sel_ok s
    /\ S (end_idx s) = line_len s /\ sel_after s = Ok (Some p).
Proof.
  set (rc := mkRc 1 line2). exists rc, lg2, (mkSel rc 0 6), (mkSel rc 7 6). split; [exact history2|]. split; [eapply D_whole; by_comp|].
  split; [vm_compute; lia|]. split; by_comp.
Qed.

(** C38: an entry of a case-insensitive table is not found. *)
Definition line38 : LLLine := Eval vm_compute in line_from [InText (of_string "Foo") []].
Definition lg38 : list entry := Eval vm_compute in log_from [InText (of_string "Foo") []].
Lemma history38 : History line38 lg38.
Proof. apply (history_from [InText (of_string "Foo") []]); [wf_inputs|by_comp|by_comp]. Qed.
Lemma thm_C38_refuted :
  exists (UC : Unicode) l lg (table : list (str * list (den TNum))) out v,
    History l lg /\ NoDup (map fst table) /\ In (of_string "Foo", [v]) table
    /\ text_tokens (ll_tokens l) = [(0, of_string "Foo")]
    /\ runs_to 5 l lg (text_match_go (text_match_new_ci table)) out /\ ~ In ((0, 0), v) out.
Proof.
  exists latin, line38, lg38, [(of_string "Foo", [1%N]); (of_string "foo", [2%N])], [((0, 0), 2%N)], 1%N.
  split; [exact history38|]. split.
  { repeat constructor; simpl; intuition discriminate. }
  split; [now left|]. split; [by_comp|]. split; [|intros [E|[]]; discriminate E].
  exact (thm_C38_last_wins TNum 5%N line38 lg38 [(of_string "Foo", [1%N]); (of_string "foo", [2%N])] history38).
Qed.

(** The same for the array constructor. *)
Lemma thm_C38_array_refuted :
  exists (UC : Unicode) l lg (table : list (str * den TNum)) l' v,
    History l lg /\ NoDup (map fst table) /\ In (of_string "Foo", v) table
    /\ text_tokens (ll_tokens l) = [(0, of_string "Foo")]
    /\ run 5 l (text_match_go (text_match_new_ci_arr table)) = Ok l'
    /\ query l' TNum = Ok [((0, 0), of_string "Foo", [2%N])] /\ v <> 2%N.
Proof.
  exists latin, line38, lg38, [(of_string "Foo", 1%N); (of_string "foo", 2%N)]. eexists. exists 1%N.
  split; [exact history38|]. split.
  { repeat constructor; simpl; intuition discriminate. }
  split; [now left|]. split; [by_comp|]. split; [by_comp|]. split; [by_comp|discriminate].
Qed.

(** C42: two neighbouring numbers are one amount. *)
Definition in42 : list InputToken := [InText (of_string "1") []; InText (of_string "2") []].
Definition line42 : LLLine := Eval vm_compute in line_from in42.
Lemma thm_C42_refuted :
  exists input l l',
    create_line_from_input_tokens tg64 input str_len = Ok l
    /\ map (fun tok => ltext (token tok)) (ll_tokens l) = [of_string "1"; of_string "2"]
    /\ run 5 l (amount_go parse_decimal amount_english) = Ok l'
    /\ query l' TAmount = Ok [((0, 1), of_string "12", [mkDecimal 12 0])].
Proof. exists in42, line42. eexists. split; [by_comp|]. split; [by_comp|]. split; by_comp. Qed.

(** C43: the documented examples of the presets.  [reads r s ds]: the text is read as
    the amounts [ds], each with its text. *)
Definition amounts_read (r : AmountResolver) (s : str) : res (list (str * Decimal)) :=
  l <- create_line_from_string tg64 s;;
  l' <- run 5 l (amount_go parse_decimal r);;
  q <- query l' TAmount;;
  Ok (flat_map (fun '(_, text, vs) => map (pair text) vs) q).
Definition reads (r : AmountResolver) (s : string) (ds : list (string * Decimal)) : Prop :=
  amounts_read r (of_string s) = Ok (map (fun '(t, d) => (of_string t, d)) ds).

Lemma thm_C43_documented :
  reads amount_english "1'000'240.00" [("1'000'240.00"%string, mkDecimal 100024000 2)]
  /\ reads amount_english "1,000,000" [("1,000,000"%string, mkDecimal 1000000 0)]
  /\ reads amount_english "1,00,00" [("1,00,00"%string, mkDecimal 10000 0)]
  /\ reads amount_french "1 000 000" [("1 000 000"%string, mkDecimal 1000000 0)].
Proof. repeat split; by_comp. Qed.

(** Documented as 1.0000. *)
Lemma thm_C43_english_refuted :
  reads amount_english "1.00,00" [("1.00"%string, mkDecimal 100 2); ("00"%string, mkDecimal 0 0)]
  /\ ~ reads amount_english "1.00,00" [("1.00,00"%string, mkDecimal 10000 4)].
Proof. split; [by_comp|vm_compute; discriminate]. Qed.

(** Documented as 1000240.00, 1.00 and 100.00. *)
Lemma thm_C43_french_refuted :
  reads amount_french "1'000'240,00" [("1'000'240"%string, mkDecimal 1000240 0); ("00"%string, mkDecimal 0 0)]
  /\ reads amount_french "1,00" [("1"%string, mkDecimal 1 0); ("00"%string, mkDecimal 0 0)]
  /\ reads amount_french "1.00,00" [("1.00"%string, mkDecimal 100 0); ("00"%string, mkDecimal 0 0)]
  /\ ~ reads amount_french "1'000'240,00" [("1'000'240,00"%string, mkDecimal 100024000 2)]
  /\ ~ reads amount_french "1,00" [("1,00"%string, mkDecimal 100 2)]
  /\ ~ reads amount_french "1.00,00" [("1.00,00"%string, mkDecimal 10000 2)].
Proof.
  split; [by_comp|]. split; [by_comp|]. split; [by_comp|]. repeat split; vm_compute; discriminate.
Qed.

(** C46: a configured word that is not lowercase is not recognised. *)
Lemma thm_C46_refuted :
  exists (UC : Unicode) l lg r w out,
    History l lg /\ configured r w /\ text_tokens (ll_tokens l) = [(0, w)]
    /\ runs_to 5 l lg (clause_keyword_go r) out /\ out = [].
Proof.
  exists latin, line38, lg38, (mkClauseKeywordResolver [of_string "Foo"] [] []), (of_string "Foo"), [].
  split; [exact history38|]. split; [left; now left|]. split; [by_comp|]. split; [|reflexivity].
  destruct (thm_C45_keywords 5%N line38 lg38 (mkClauseKeywordResolver [of_string "Foo"] [] []) history38) as (out & HR & HO & _).
  replace out with (@nil (LRange * ClauseKeyword)) in HR; [exact HR|].
  destruct out as [|[[a b] k] out]; [reflexivity|]. exfalso.
  destruct (proj1 (HO a b k) (or_introl eq_refl)) as (_ & tok & text & tag & Hn & Et & Hc).
  destruct a as [|a]; [|destruct a; discriminate]. simpl in Hn. inversion Hn; subst. simpl in Et. inversion Et; subst.
  destruct k; simpl in Hc; intuition discriminate.
Qed.

(** C49: a clause of whitespace only. *)
Definition line49 : LLLine := Eval vm_compute in line_from [InText [32; 9; 32]%N []].
Lemma thm_C49_refuted :
  exists (UC : Unicode) l l',
    create_line_from_string tg64 [32; 9; 32]%N = Ok l
    /\ map token (ll_tokens l) = [LText [32%N] SPACE; LText [9%N] SPACE; LText [32%N] SPACE]
    /\ run 5 l clause_go = Ok l' /\ query l' TClause = Ok [((1, 1), [9%N], [Independent])].
Proof. exists latin, line49. eexists. split; [by_comp|]. split; [by_comp|]. split; by_comp. Qed.

(** C68: with [any_of] a match across the seam can hide one inside the first part: the
    second alternative is not tried at a token where the first one matches. *)
Definition in68a : list InputToken := [InCustom 1 [any_of TNum 7%N]].
Definition in68b : list InputToken := [InCustom 1 [any_of TNum 9%N]].
Definition e68 : mexp (AnyOf2 (N * N) N) := M_any2 _ _ (M_seq2 _ _ (M_attr TNum) (M_attr TNum)) (M_attr TNum).
Lemma thm_C68_any_of_refuted :
  exists (UC : Unicode) tg (sz : str -> N) i1 i2 l l1 A (e : mexp A) f f1,
    Forall wf_input i1 /\ Forall wf_input i2 /\ create_line_from_input_tokens tg (i1 ++ i2) sz = Ok l
    /\ create_line_from_input_tokens tg i1 sz = Ok l1 /\ uses_has_any e = false
    /\ find_by (whole 1 l) (matcher_of e) = Ok f /\ find_by (whole 2 l1) (matcher_of e) = Ok f1
    /\ found_pairs f1 <> [] /\ within 0 (length (ll_tokens l1)) (found_pairs f) = [].
Proof.
  exists latin, tg64, (fun s => N.of_nat (length s)), in68a, in68b.
  do 2 eexists. exists _, e68. do 2 eexists.
  split; [wf_inputs|]. split; [wf_inputs|]. split; [by_comp|]. split; [by_comp|]. split; [by_comp|]. split; [by_comp|]. split; [by_comp|].
  split; [vm_compute; discriminate|by_comp].
Qed.

(** C73: without a quiet seam an amount can lie across it: "pay 1" and ",000". *)
Definition in73a : list InputToken := [InText (of_string "pay 1") []].
Definition in73b : list InputToken := [InText (of_string ",000") []].
Lemma thm_C73_seam_refuted :
  exists (UC : Unicode) tg (sz : str -> N) i1 i2 l l1 l2 parse r l' l1' l2',
    Forall wf_input i1 /\ Forall wf_input i2 /\ none_of TTextTag (i1 ++ i2) /\ none_of TChar (i1 ++ i2)
    /\ create_line_from_input_tokens tg (i1 ++ i2) sz = Ok l
    /\ create_line_from_input_tokens tg i1 sz = Ok l1 /\ create_line_from_input_tokens tg i2 sz = Ok l2
    /\ after_steps l [(1%N, RunAmount parse r)] l' /\ after_steps l1 [(1%N, RunAmount parse r)] l1'
    /\ after_steps l2 [(1%N, RunAmount parse r)] l2' /\ ~ answers_side_by_side l' l1' l2'.
Proof.
  exists latin, tg64, (fun s => N.of_nat (length s)), in73a, in73b.
  exists (get no_line (create_line_from_input_tokens tg64 (in73a ++ in73b) (fun s => N.of_nat (length s)))).
  exists (get no_line (create_line_from_input_tokens tg64 in73a (fun s => N.of_nat (length s)))).
  exists (get no_line (create_line_from_input_tokens tg64 in73b (fun s => N.of_nat (length s)))).
  exists parse_decimal, amount_english. do 3 eexists.
  split; [wf_inputs|]. split; [wf_inputs|]. split; [intros it a [<-|[<-|[]]] []|]. split; [intros it a [<-|[<-|[]]] []|].
  do 3 (split; [by_comp|]). do 3 (split; [eapply AS_step; [by_comp|apply AS_done]|]).
  intros H. destruct (H TAmount) as (q & q1 & q2 & E & E1 & E2 & P). apply Permutation.Permutation_length in P. rewrite app_length, map_length in P.
  vm_compute in E, E1, E2. injection E as <-. injection E1 as <-. injection E2 as <-. discriminate P.
Qed.

(** C74: without a separator at the seam a clause can lie across it: "it rains" and " today". *)
Definition in74a : list InputToken := [InText (of_string "it rains") []].
Definition in74b : list InputToken := [InText (of_string " today") []].
Lemma thm_C74_seam_refuted :
  exists (UC : Unicode) tg (sz : str -> N) i1 i2 l l1 l2 r rows rows1 rows2,
    Forall wf_input i1 /\ Forall wf_input i2
    /\ none_of TKeyword (i1 ++ i2) /\ none_of TTextTag (i1 ++ i2) /\ none_of TClause (i1 ++ i2)
    /\ create_line_from_input_tokens tg (i1 ++ i2) sz = Ok l
    /\ create_line_from_input_tokens tg i1 sz = Ok l1 /\ create_line_from_input_tokens tg i2 sz = Ok l2
    /\ clauses_reported 1 2 r l rows /\ clauses_reported 1 2 r l1 rows1 /\ clauses_reported 1 2 r l2 rows2
    /\ map (fun x => fst (fst x)) rows = [(0, 4)] /\ map (fun x => fst (fst x)) rows1 = [(0, 2)] /\ map (fun x => fst (fst x)) rows2 = [(1, 1)].
Proof.
  exists latin, tg64, (fun s => N.of_nat (length s)), in74a, in74b.
  exists (get no_line (create_line_from_input_tokens tg64 (in74a ++ in74b) (fun s => N.of_nat (length s)))).
  exists (get no_line (create_line_from_input_tokens tg64 in74a (fun s => N.of_nat (length s)))).
  exists (get no_line (create_line_from_input_tokens tg64 in74b (fun s => N.of_nat (length s)))).
  exists words. do 3 eexists.
  split; [wf_inputs|]. split; [wf_inputs|]. do 3 (split; [intros it a [<-|[<-|[]]] []|]).
  do 3 (split; [by_comp|]). do 3 (split; [eexists; eexists; split; [by_comp|split; by_comp]|]). split; [by_comp|]. split; by_comp.
Qed.

(** C69: a value printed with a line break can look like two values. *)
Definition xs69a : list (LRange * den TStr) := [((0, 0), [120; 10; 9584; 9583; 121]%N)].
Definition xs69b : list (LRange * den TStr) := [((0, 0), [121]%N); ((0, 0), [120]%N)].
Lemma thm_C69_any_text_refuted :
  exists (UC : Unicode) tg l1 l2 lg1 lg2 (dbg : den TStr -> str) s,
    History l1 lg1 /\ History l2 lg2 /\ proper lg1 /\ proper lg2
    /\ ll_tokens l1 = ll_tokens l2 /\ 0 < u_width 32%N /\ (forall v w, dbg v = dbg w -> v = w)
    /\ show tg l1 [existT _ TStr dbg] = Ok s /\ show tg l2 [existT _ TStr dbg] = Ok s
    /\ rows_of [existT _ TStr dbg] lg1 <> rows_of [existT _ TStr dbg] lg2.
Proof.
  exists latin, tg64, (get no_line (run 5 line1 (assign (t := TStr) xs69a))),
    (get no_line (run 5 line1 (assign (t := TStr) xs69b))),
    (lg1 ++ map (fun '(r, v) => (r, mkany TStr v)) xs69a), (lg1 ++ map (fun '(r, v) => (r, mkany TStr v)) xs69b),
    (fun s => s : str).
  eexists.
  split; [exact (history_assign line1 lg1 5 xs69a history1 ltac:(discriminate) ltac:(by_comp))|].
  split; [exact (history_assign line1 lg1 5 xs69b history1 ltac:(discriminate) ltac:(by_comp))|].
  split; [apply properb; by_comp|]. split; [apply properb; by_comp|]. split; [by_comp|].
  split; [apply Nat.ltb_lt; by_comp|]. split; [auto|]. split; [by_comp|]. split; [by_comp|].
  vm_compute. discriminate.
Qed.

(** C71: a matcher may ask to go on after token 0 wherever it is, and so match backwards; what
    is finished with its result makes [query] panic. *)
Definition after_first (d : direction) : program str :=
  P_after _ d 0 (fun o => match o with
                          | Some d' => P_text _ d' (fun r => P_return _ (opt_list r))
                          | None => P_return _ [] end).
Definition matcher71 : matcher str := fun d l => execute l (after_first d).
Definition resolver71 : Resolver TStr := fun s =>
  fs <- find_by s matcher71;; Ok (mkGo (map (fun '(s', v) => finish_with_attr (t := TStr) s' v) fs) false).
Lemma user71 l : user_matcher l str matcher71.
Proof.
  exists after_first. split; [reflexivity|]. intros d. unfold after_first. apply Honest_after; [reflexivity|].
  intros [d'|].
  - apply Honest_text; [auto|]. intros r. apply Honest_return. intros a j Hin. right. apply in_map_iff. exists (a, j). auto.
  - apply Honest_return. intros a j [].
Qed.
Lemma thm_C71_reversed_refuted :
  exists l lg id (r : Resolver TStr) g l' p,
    History l lg /\ proper lg /\ r (whole id l) = Ok g /\ finishes (user_matcher l) id l g
    /\ run id l r = Ok l' /\ query l' TStr = Panic p.
Proof.
  exists line1, lg1, 5%N, resolver71. do 3 eexists.
  split; [exact history1|]. split; [apply properb; by_comp|].
  assert (HF : find_by (whole 5 line1) matcher71 = Ok (map (fun i => (mkSel (mkRc 5 line1) i 1, of_string " ")) (seq 0 16))) by by_comp.
  split; [unfold resolver71; rewrite HF; reflexivity|].
  split.
  - split; [reflexivity|]. intros x Hx. cbn [go_assignments] in Hx. apply in_map_iff in Hx.
    destruct Hx as ([s v] & <- & Hin). exists s, v. split; [|reflexivity].
    eapply R_find_by; [apply R_whole; reflexivity|exact (user71 _)|exact HF|exact Hin].
  - split; [by_comp|by_comp].
Qed.

Lemma latin_table_laws : TableLaws.
Proof.
  constructor.
  - intros c. change (latin_alphabetic c = true -> latin_whitespace c = false). unfold latin_alphabetic, latin_whitespace, ExUnicode.between.
    rewrite !orb_true_iff, !andb_true_iff, !orb_false_iff, !andb_false_iff, !N.eqb_eq, !N.eqb_neq, !N.leb_le, !N.leb_gt. lia.
  - intros c H. unfold documented_punctuation in H. simpl in H. repeat (destruct H as [<-|H]; [split; reflexivity|]). easy.
Qed.

(** C75: the matcher for any number of consecutive spaces (src/ll_line/x/functions.rs:47)
    takes only one of the two white space tokens of a space and a line break, and trimming
    with it leaves a selection that starts with white space. *)
Definition line75 : LLLine := Eval vm_compute in line_from [InText [32; 10; 97]%N []].
Lemma thm_C75_documented_refuted :
  exists (UC : Unicode), SegmenterLaws /\ CharLaws /\ TableLaws /\
  exists s l ms s0 p,
    create_line_from_string tg64 s = Ok l
    /\ tag_at (ll_tokens l) 0 SPACE /\ tag_at (ll_tokens l) 1 SPACE
    /\ x_whitespace (Fwd 0) l = Ok ms /\ (~ exists v, In (v, 1) ms)
    /\ from_line (mkRc 1 l) = Some s0 /\ trim s0 x_whitespace = Ok (Some p) /\ tag_at (ll_tokens l) (start_idx p) SPACE.
Proof.
  exists latin. split; [exact latin_segmenter|]. split; [exact latin_tables|]. split; [exact latin_table_laws|].
  exists [32; 10; 97]%N, line75, [(tt, 0)], (mkSel (mkRc 1 line75) 0 2), (mkSel (mkRc 1 line75) 1 2).
  split; [by_comp|]. split; [eexists; eexists; split; [reflexivity|reflexivity]|]. split; [eexists; eexists; split; [reflexivity|reflexivity]|].
  split; [by_comp|]. split; [intros (v & [E|[]]); discriminate|]. split; [by_comp|]. split; [by_comp|].
  eexists; eexists; split; [reflexivity|reflexivity].
Qed.

(** C77: v2, and don't with the typographic apostrophe, are one word each by the Unicode
    rules, but the tag is SYMB, not WORD (src/ll_line.rs:32), and they get no part of speech. *)
Lemma thm_C77_documented_refuted :
  exists (UC : Unicode), SegmenterLaws /\ CharLaws /\ TableLaws /\
  forall s, s = of_string "v2" \/ s = of_string "don" ++ [8217%N] ++ of_string "t" ->
    exists c l l', In c s /\ u_alphabetic c = true /\ u_words s = [s]
    /\ create_line_from_string tg64 s = Ok l /\ map token (ll_tokens l) = [LText s SYMB]
    /\ run 1 l (pos_go (fun _ => None) 8%N) = Ok l' /\ query l' TPos = Ok [].
Proof.
  exists latin. split; [exact latin_segmenter|]. split; [exact latin_tables|]. split; [exact latin_table_laws|].
  intros s [->| ->].
  - exists 118%N. do 2 eexists. split; [left; reflexivity|]. repeat (split; [by_comp|]). by_comp.
  - exists 100%N. do 2 eexists. split; [left; reflexivity|]. repeat (split; [by_comp|]). by_comp.
Qed.

(** C05: a value token has no text tag, although each token is said to be assigned one
    (src/ll_line.rs:20). *)
Lemma thm_C05_each_token_refuted :
  exists (UC : Unicode), SegmenterLaws /\ CharLaws /\ TableLaws /\
  exists sz input l lg, Forall wf_input input /\ create_line_from_input_tokens tg64 input sz = Ok l
    /\ History l lg /\ length (ll_tokens l) = 1 /\ values_on TTextTag (0, 0) lg = [].
Proof.
  exists latin. split; [exact latin_segmenter|]. split; [exact latin_tables|]. split; [exact latin_table_laws|].
  exists (fun _ => 1%N), [InCustom 1%N [any_of TNum 7%N]], (line_from [InCustom 1%N [any_of TNum 7%N]]), (log_from [InCustom 1%N [any_of TNum 7%N]]).
  split; [wf_inputs|]. split; [by_comp|].
  split; [apply (history_from [InCustom 1%N [any_of TNum 7%N]]); [wf_inputs|by_comp|by_comp]|]. split; by_comp.
Qed.

(** C77: these words (src/create_tokens/get_word_tag.rs:27) are not counted as words when
    they occur in a text: the segmenter cuts them first. *)
Lemma thm_C77_compounds_refuted :
  exists (UC : Unicode), SegmenterLaws /\ CharLaws /\ TableLaws /\
  forall s, s = of_string "peoples'" \/ s = of_string "baseball-card" ->
    word_like s /\ exists l, create_line_from_string tg64 s = Ok l /\ forall tok, In tok (ll_tokens l) -> ltext (token tok) <> s.
Proof.
  exists latin. split; [exact latin_segmenter|]. split; [exact latin_tables|]. split; [exact latin_table_laws|].
  intros s [->| ->]; (split; [eexists _, _; split; [reflexivity|]; split; [reflexivity|];
    repeat (apply Forall_cons; [first [left; reflexivity|right; simpl; tauto]|]); apply Forall_nil|]);
  (eexists; split; [by_comp|]; intros tok Hin; simpl in Hin; repeat (destruct Hin as [<-|Hin]; [discriminate|]); easy).
Qed.

(** C71: [ToIdx] can be kept: an index of the last token of one line, returned on a shorter line, makes
    [find] and [run] panic. *)
Lemma thm_C71_foreign_refuted :
  exists l lg l2 lg2 ms a j p q,
    History l lg /\ History l2 lg2 /\ x_token_text (Fwd (length (ll_tokens l2) - 1)) l2 = Ok ms /\ In (a, j) ms
    /\ find l (fun _ _ => Ok [(a, j)]) = Panic p
    /\ run 5 l (find_resolver TStr (fun _ _ => Ok [(a, j)]) (fun s => s)) = Panic q.
Proof.
  exists line2, lg2, line1, lg1, [(of_string "50", 15)], (of_string "50"), 15. do 2 eexists.
  split; [exact history2|]. split; [exact history1|]. split; [by_comp|]. split; [now left|]. split; by_comp.
Qed.

(** C84: a matcher that lets only its first match through. *)
Definition once {A} (m : matcher A) : mem_matcher bool A := fun d l done =>
  if done then (true, Ok []) else
  match m d l with
  | Ok (x :: _) => (true, Ok [x])
  | r => (false, r)
  end.
Lemma thm_C84_again_refuted :
  exists M A lg s (mm : mem_matcher M A) st st' found,
    History (line_of s) lg /\ sel_ok s /\ mem_find_by s mm st = (st', Ok found) /\ snd (mem_find_by s mm st') <> Ok found.
Proof.
  exists bool, str, lg3, (mkSel (mkRc 1 line3) 0 6), (once (x_attr TStr)), false, true. eexists.
  split; [exact history3|]. split; [vm_compute; lia|]. split; [by_comp|]. vm_compute. discriminate.
Qed.
Lemma thm_C84_seq_refuted :
  exists M A B l lg (ma : matcher A) (mb : mem_matcher M B) st d,
    History l lg /\ forall mb' : matcher B, snd (mem_seq2 (memoryless ma) mb d l st) <> x_seq2 ma mb' d l.
Proof.
  exists bool, str, str, line3, lg3, (x_attr TStr), (once x_token_text), false, (Fwd 3).
  split; [exact history3|]. intros mb' E.
  assert (E1 : x_seq2 (A := den TStr) (B := str) (x_attr TStr) mb' (Fwd 3) line3 = Ok [((of_string "x", of_string "2"), 6)])
    by (symmetry; etransitivity; [|exact E]; by_comp).
  clear E. rename E1 into E. unfold x_seq2 in E.
  assert (E2 : x_attr TStr (Fwd 3) line3 = Ok [(of_string "x", 5); (of_string "y", 5); (of_string "v", 5)]) by by_comp.
  rewrite E2 in E. clear E2. cbn [bind] in E. unfold flat_mapM, go_after in E.
  assert (E3 : dir_after (Fwd 3) 5 line3 = Some (Fwd 6)) by by_comp.
  cbn [mapM] in E. rewrite E3 in E. destruct (mb' (Fwd 6) line3) as [[|x bl]| |]; cbn in E; try discriminate.
  injection E as _ E. apply app_eq_nil in E as [_ E]. discriminate E.
Qed.

(** C85: a layer whose results are read does change the clauses, and a layer that is not read does
    matter to [token_has_any] where a token has no attributes. *)
Definition line85t : LLLine := Eval vm_compute in get no_line (run 7 line1 (assign (t := TTextTag) [((2, 2), PUNC)])).
Definition clauses85 (l : LLLine) : LLLine :=
  get no_line (l1 <- run_step 1 l (RunClauseKeyword words);; run_step 2 l1 RunClause).
Definition line85p : LLLine := Eval vm_compute in clauses85 line1.
Definition line85q : LLLine := Eval vm_compute in clauses85 line85t.
Lemma thm_C85_read_refuted :
  exists l0 lg0 id (r : Resolver TTextTag) l ss lp l',
    History l0 lg0 /\ run id l0 r = Ok l /\ after_any l0 ss lp /\ after_any l ss l'
    /\ (forall x, In x ss -> writes (snd x) <> TTextTag) /\ query lp TClause <> query l' TClause.
Proof.
  exists line1, lg1, 7%N, (assign (t := TTextTag) [((2, 2), PUNC)]), line85t,
    [(1%N, Lib (RunClauseKeyword words)); (2%N, Lib RunClause)], line85p, line85q.
  split; [exact history1|]. split; [by_comp|].
  split; [eapply AA_step; [by_comp|]; eapply AA_step; [by_comp|]; apply AA_done|].
  split; [eapply AA_step; [by_comp|]; eapply AA_step; [by_comp|]; apply AA_done|].
  split; [intros x [<-|[<-|[]]]; discriminate|]. vm_compute. discriminate.
Qed.
Lemma thm_C85_unattributed_refuted :
  exists (P : ty -> Prop) l0 lg0 t id (r : Resolver t) l id' s,
    History l0 lg0 /\ ~ P t /\ run id l0 r = Ok l /\ P (writes s) /\ (forall t', In t' (SpecOrder.reads s) -> P t')
    /\ (exists l', run_any id' l s = Ok l') /\ exists p, run_any id' l0 s = Panic p.
Proof.
  exists (fun t => t <> TNum), line2, lg2, TNum, 5%N, (assign (t := TNum) [((2, 2), 9%N)]), line12, 6%N,
    (Find TStr _ (M_has_any TTextTag TextTag_eqb [PUNC]) (fun _ => of_string "p")).
  split; [exact history2|]. split; [congruence|]. split; [by_comp|]. split; [discriminate|].
  split; [intros t' [<-|[]]; discriminate|]. split; eexists; by_comp.
Qed.

(** C88: a comparison that can tell the values apart sees the difference. *)
Definition in88r (n : N) : list InputToken := [InText "Pay"%string [any_of TNum n]].
Lemma thm_C88_compared_refuted :
  exists l l' t eqT v d, lines_corr (fun _ _ _ => True) l l' /\ x_attr_eq t eqT v d l <> x_attr_eq t eqT v d l'.
Proof.
  exists (line_from (in88r 7)), (line_from (in88r 8)), TNum, N.eqb, 7%N, (Fwd 0). split; [|vm_compute; discriminate].
  split; [by_comp|]. exists (log_from (in88r 7)), (log_from (in88r 8)).
  split; [apply history_from; [wf_inputs|by_comp|by_comp]|]. split; [apply history_from; [wf_inputs|by_comp|by_comp]|].
  change (log_from (in88r 7)) with [((0, 0), mkany TTextTag WORD); ((0, 0), mkany TNum 7%N)].
  change (log_from (in88r 8)) with [((0, 0), mkany TTextTag WORD); ((0, 0), mkany TNum 8%N)].
  constructor; [split; [reflexivity|exact (Any_corr _ TTextTag WORD WORD I)]|]. constructor; [split; [reflexivity|exact (Any_corr _ TNum 7%N 8%N I)]|].
  constructor.
Qed.

(** C91: the comma of 1,500 is punctuation for the clause resolver, so the number is in no clause. *)
Definition text91r : str := of_string "pay 1,500 dollars".
Definition line91r : LLLine := line_from [InText text91r []].
Lemma thm_C91_numbers_refuted :
  exists (UC : Unicode), SegmenterLaws /\ CharLaws /\ TableLaws /\
  exists s l r d l' rows i j, create_line_from_string tg64 s = Ok l
    /\ run 1 l (amount_go parse_decimal amount_english) = Ok l' /\ query l' TAmount = Ok [((i, j), of_string "1,500", [d])]
    /\ clauses_reported 2 3 r l rows /\ rows <> []
    /\ forall a b text ks, In ((a, b), text, ks) rows -> ~ (a <= i /\ j <= b).
Proof.
  exists latin. split; [exact latin_segmenter|]. split; [exact latin_tables|]. split; [exact latin_table_laws|].
  exists text91r, line91r, words, (mkDecimal 1500 0). eexists.
  exists [((0, 2), of_string "pay 1", [LeadingEffect]); ((4, 6), of_string "500 dollars", [LeadingEffect])], 2, 4.
  split; [by_comp|]. split; [by_comp|]. split; [by_comp|].
  split; [eexists; eexists; split; [by_comp|]; split; [by_comp|]; by_comp|]. split; [discriminate|].
  intros a b text ks [E|[E|[]]]; injection E as <- <- _ _; lia.
Qed.
