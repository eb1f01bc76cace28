(** Resolver runs on joined inputs (C73, C74), with concrete cases. *)

From Verif Require Export PropCross PropEnd ThmSeam.

Local Open Scope string_scope.
Local Open Scope list_scope.

(** ** C73 Pipelines on joined inputs *)
Theorem C73_pipelines {UC : Unicode} {U : UserTypes} :
  forall tg sz i1 i2 l l1 l2 ss,
    Forall wf_input i1 -> Forall wf_input i2 -> none_of TTextTag (i1 ++ i2) -> none_of TChar (i1 ++ i2) ->
    create_line_from_input_tokens tg (i1 ++ i2) sz = Ok l ->
    create_line_from_input_tokens tg i1 sz = Ok l1 -> create_line_from_input_tokens tg i2 sz = Ok l2 ->
    Forall (keeps_apart l1 l2) ss ->
    ((exists l', after_steps l ss l') <-> (exists l1', after_steps l1 ss l1') /\ (exists l2', after_steps l2 ss l2'))
    /\ forall l' l1' l2', after_steps l ss l' -> after_steps l1 ss l1' -> after_steps l2 ss l2' -> answers_side_by_side l' l1' l2'.
Proof. exact thm_C73_pipelines. Qed.
Theorem C73_seam_refuted :
  exists (UC : Unicode) tg (sz : str -> N) i1 i2 l l1 l2 parse r l' l1' l2',
    Forall wf_input i1 /\ Forall wf_input i2 /\ none_of TTextTag (i1 ++ i2) /\ none_of TChar (i1 ++ i2)
    /\ create_line_from_input_tokens tg (i1 ++ i2) sz = Ok l
    /\ create_line_from_input_tokens tg i1 sz = Ok l1 /\ create_line_from_input_tokens tg i2 sz = Ok l2
    /\ after_steps l [(1%N, RunAmount parse r)] l' /\ after_steps l1 [(1%N, RunAmount parse r)] l1'
    /\ after_steps l2 [(1%N, RunAmount parse r)] l2' /\ ~ answers_side_by_side l' l1' l2'.
Proof. exact thm_C73_seam_refuted. Qed.
(** "If it rains, pay 1,000.50" and " but 7 if not": the seam is quiet. *)
Definition in73l : list InputToken := [InText (of_string "If it rains, pay 1,000.50") []].
Definition in73r : list InputToken := [InText (of_string " but 7 if not") []].
Definition line73 : LLLine := Eval vm_compute in get_line (create_line_from_input_tokens tg64 (in73l ++ in73r) len68).
Definition line73l : LLLine := Eval vm_compute in get_line (create_line_from_input_tokens tg64 in73l len68).
Definition line73r : LLLine := Eval vm_compute in get_line (create_line_from_input_tokens tg64 in73r len68).
Definition steps73 : list (N * step) :=
  [(1%N, RunAmount parse_decimal amount_english); (2%N, RunClauseKeyword words);
   (3%N, RunTextMatch TNum (text_match_new (t := TNum) [(of_string "pay", [5%N]); (of_string "but", [6%N])]));
   (4%N, RunPOSTag (fun _ => Some [8%N]) 0%N)].
Fixpoint run_all (l : LLLine) (ss : list (N * step)) : res LLLine :=
  match ss with [] => Ok l | (id, s) :: ss => l' <- run_step id l s;; run_all l' ss end.
Lemma run_all_after ss : forall l l', run_all l ss = Ok l' -> after_steps l ss l'.
Proof.
  induction ss as [|[id s] ss IH]; intros l l' H; cbn [run_all] in H.
  - injection H as <-. constructor.
  - destruct (run_step id l s) as [x|p|] eqn:E; try discriminate H. econstructor; eauto.
Qed.
Example C73_case :
  Forall wf_input in73l /\ Forall wf_input in73r /\ none_of TTextTag (in73l ++ in73r) /\ none_of TChar (in73l ++ in73r)
  /\ create_line_from_input_tokens tg64 (in73l ++ in73r) len68 = Ok line73
  /\ create_line_from_input_tokens tg64 in73l len68 = Ok line73l
  /\ create_line_from_input_tokens tg64 in73r len68 = Ok line73r
  /\ Forall (keeps_apart line73l line73r) steps73
  /\ exists l' l1' l2', after_steps line73 steps73 l' /\ after_steps line73l steps73 l1' /\ after_steps line73r steps73 l2'
     /\ rmap (map fst) (query l' TAmount) = Ok [((9, 13), of_string "1,000.50"); ((17, 17), of_string "7")]
     /\ rmap (map fst) (query l1' TAmount) = Ok [((9, 13), of_string "1,000.50")]
     /\ rmap (map fst) (query l2' TAmount) = Ok [((3, 3), of_string "7")]
     /\ query l' TNum = Ok [((7, 7), of_string "pay", [5%N]); ((15, 15), of_string "but", [6%N])].
Proof.
  split; [wf_inputs|]. split; [wf_inputs|]. split; [intros it a [<-|[<-|[]]] []|]. split; [intros it a [<-|[<-|[]]] []|].
  do 3 (split; [fact|]). split.
  { repeat (apply Forall_cons; [unfold keeps_apart; cbn [snd steps73]; first [exact I|split; discriminate|idtac]|]); [|apply Forall_nil].
    right. eexists _, _. split; [vm_compute; reflexivity|]. eexists _, _. split; [reflexivity|]. split; [discriminate|].
    intros c E. injection E as <-. vm_compute. intuition discriminate. }
  do 3 eexists. do 3 (split; [apply run_all_after; vm_compute; reflexivity|]). do 3 (split; [vm_compute; reflexivity|]). vm_compute; reflexivity.
Qed.

(** ** C74 Clauses on joined inputs *)
Theorem C74_ranges {UC : Unicode} {U : UserTypes} :
  forall tg sz i1 i2 l l1 l2 r id id',
    Forall wf_input i1 -> Forall wf_input i2 ->
    none_of TKeyword (i1 ++ i2) -> none_of TTextTag (i1 ++ i2) -> none_of TClause (i1 ++ i2) ->
    create_line_from_input_tokens tg (i1 ++ i2) sz = Ok l ->
    create_line_from_input_tokens tg i1 sz = Ok l1 -> create_line_from_input_tokens tg i2 sz = Ok l2 ->
    separated_seam r (ll_tokens l1) (ll_tokens l2) ->
    exists rows rows1 rows2,
      clauses_reported id id' r l rows /\ clauses_reported id id' r l1 rows1 /\ clauses_reported id id' r l2 rows2
      /\ map fst rows = map fst rows1 ++ map (fun x => (moved_range (length (ll_tokens l1)) (fst x), snd x)) (map fst rows2).
Proof. exact thm_C74_ranges. Qed.
Theorem C74_kinds {UC : Unicode} {U : UserTypes} :
  forall tg sz i1 i2 l l1 l2 r id id' rows rows1 rows2,
    Forall wf_input i1 -> Forall wf_input i2 ->
    none_of TKeyword (i1 ++ i2) -> none_of TTextTag (i1 ++ i2) -> none_of TClause (i1 ++ i2) ->
    create_line_from_input_tokens tg (i1 ++ i2) sz = Ok l ->
    create_line_from_input_tokens tg i1 sz = Ok l1 -> create_line_from_input_tokens tg i2 sz = Ok l2 ->
    separated_seam r (ll_tokens l1) (ll_tokens l2) ->
    clauses_reported id id' r l rows -> clauses_reported id id' r l1 rows1 -> clauses_reported id id' r l2 rows2 ->
    (forall rg text c1 c, In (rg, text, [c1]) rows1 -> In (rg, text, [c]) rows ->
       c = c1 \/ (c1 = Independent /\ c <> Condition))
    /\ ((forall k, ~ keyword_at (ll_tokens l1) r (length (ll_tokens l1) - 1) k) ->
        forall rg text c2 c, In (rg, text, [c2]) rows2 -> In (moved_range (length (ll_tokens l1)) rg, text, [c]) rows ->
          c = c2 \/ (c2 = Independent /\ c <> Condition) \/ (c2 = LeadingEffect /\ c = TrailingEffect)).
Proof. exact thm_C74_kinds. Qed.
Theorem C74_seam_refuted :
  exists (UC : Unicode) tg (sz : str -> N) i1 i2 l l1 l2 r rows rows1 rows2,
    Forall wf_input i1 /\ Forall wf_input i2
    /\ none_of TKeyword (i1 ++ i2) /\ none_of TTextTag (i1 ++ i2) /\ none_of TClause (i1 ++ i2)
    /\ create_line_from_input_tokens tg (i1 ++ i2) sz = Ok l
    /\ create_line_from_input_tokens tg i1 sz = Ok l1 /\ create_line_from_input_tokens tg i2 sz = Ok l2
    /\ clauses_reported 1 2 r l rows /\ clauses_reported 1 2 r l1 rows1 /\ clauses_reported 1 2 r l2 rows2
    /\ map (fun x => fst (fst x)) rows = [(0, 4)] /\ map (fun x => fst (fst x)) rows1 = [(0, 2)] /\ map (fun x => fst (fst x)) rows2 = [(1, 1)].
Proof. exact thm_C74_seam_refuted. Qed.
(** "If it rains" and ", pay now": the comma separates; the only clause of the second part
    becomes a trailing effect. *)
Definition in74l : list InputToken := [InText (of_string "If it rains") []].
Definition in74r : list InputToken := [InText (of_string ", pay now") []].
Definition line74 : LLLine := Eval vm_compute in get_line (create_line_from_input_tokens tg64 (in74l ++ in74r) len68).
Definition line74l : LLLine := Eval vm_compute in get_line (create_line_from_input_tokens tg64 in74l len68).
Definition line74r : LLLine := Eval vm_compute in get_line (create_line_from_input_tokens tg64 in74r len68).
Example C74_case :
  Forall wf_input in74l /\ Forall wf_input in74r
  /\ none_of TKeyword (in74l ++ in74r) /\ none_of TTextTag (in74l ++ in74r) /\ none_of TClause (in74l ++ in74r)
  /\ create_line_from_input_tokens tg64 (in74l ++ in74r) len68 = Ok line74
  /\ create_line_from_input_tokens tg64 in74l len68 = Ok line74l
  /\ create_line_from_input_tokens tg64 in74r len68 = Ok line74r
  /\ separated_seam words (ll_tokens line74l) (ll_tokens line74r)
  /\ (forall k, ~ keyword_at (ll_tokens line74l) words (length (ll_tokens line74l) - 1) k)
  /\ clauses_reported 1 2 words line74 [((2, 4), of_string "it rains", [Condition]); ((7, 9), of_string "pay now", [TrailingEffect])]
  /\ clauses_reported 1 2 words line74l [((2, 4), of_string "it rains", [Condition])]
  /\ clauses_reported 1 2 words line74r [((2, 4), of_string "pay now", [Independent])].
Proof.
  split; [wf_inputs|]. split; [wf_inputs|]. do 3 (split; [intros it a [<-|[<-|[]]] []|]).
  do 3 (split; [fact|]). split; [right; right; at_fact|]. split.
  { intros k (text & H & Hk). not_at H.
    destruct k; vm_compute in Hk; intuition discriminate. }
  split; [|split]; eexists _, _; (split; [vm_compute; reflexivity|]); (split; [vm_compute; reflexivity|]); vm_compute; reflexivity.
Qed.
