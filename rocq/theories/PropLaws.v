(** Laws between operations, each with a concrete case: C60 to C63. *)

From Verif Require Import PropMatch.
From Verif Require Export PropOrder ThmLaws.
From Coq Require Import Sorted.

Local Open Scope string_scope.
Local Open Scope list_scope.

(** ** C60 Selections side by side, trimming, sequences *)
Theorem C60_adjacent {UC : Unicode} {U : UserTypes} :
  forall A p q (m : matcher A), side_by_side p q ->
    find_by (together p q) m = both (find_by p m) (find_by q m)
    /\ find_by_forwards_and_backwards (together p q) m
       = both (find_by_forwards_and_backwards p m) (find_by_forwards_and_backwards q m).
Proof. exact thm_C60_adjacent. Qed.
Theorem C60_first {UC : Unicode} {U : UserTypes} :
  forall A p q (m : matcher A) found, side_by_side p q -> find_by q m = Ok found ->
    find_first_by (together p q) m
    = (o <- find_first_by p m;; match o with Some x => Ok (Some x) | None => find_first_by q m end).
Proof. exact thm_C60_first. Qed.
Theorem C60_split_with {UC : Unicode} {U : UserTypes} :
  forall A s o lo ro (m : matcher A),
    sel_line o = sel_line s -> start_idx s <= start_idx o -> start_idx o <= end_idx o -> end_idx o <= end_idx s ->
    split_with s o = Ok (lo, ro) ->
    find_by s m = both (search (fun p => find_by p m) lo) (both (find_by o m) (search (fun p => find_by p m) ro)).
Proof. exact thm_C60_split_with. Qed.
Theorem C60_trim {UC : Unicode} {U : UserTypes} :
  forall A s (m : matcher A) fs bs,
    sel_ok s -> bounded m (line_of s) ->
    m (Fwd (start_idx s)) (line_of s) = Ok fs -> m (Bwd (end_idx s)) (line_of s) = Ok bs ->
    trim s m = (o <- trim_start s m;; match o with Some p => trim_end p m | None => Ok None end)
    /\ trim s m = (o <- trim_end s m;; match o with Some p => trim_start p m | None => Ok None end).
Proof. exact thm_C60_trim. Qed.
Theorem C60_seq_forwards {UC : Unicode} {U : UserTypes} :
  forall A B s (ma : matcher A) (mb : matcher B),
    sel_ok s -> bounded ma (line_of s) ->
    match_forwards s (x_seq2 ma mb) = (found <- match_forwards s ma;; extended (fun p => match_forwards p mb) found).
Proof. exact thm_C60_seq_forwards. Qed.
Theorem C60_seq_backwards {UC : Unicode} {U : UserTypes} :
  forall A B s (ma : matcher A) (mb : matcher B),
    match_backwards s (x_seq2 ma mb) = (found <- match_backwards s ma;; extended (fun p => match_backwards p mb) found).
Proof. exact thm_C60_seq_backwards. Qed.
Theorem C60_seq_find {UC : Unicode} {U : UserTypes} :
  forall A B s (ma : matcher A) (mb : matcher B) found,
    sel_ok s -> bounded ma (line_of s) ->
    find_by s (x_seq2 ma mb) = Ok found <->
    (fa <- find_by s ma;; extended (fun p => match_forwards p mb) fa) = Ok found.
Proof. exact thm_C60_seq_find. Qed.
Theorem C60_split_again {UC : Unicode} {U : UserTypes} :
  forall A s (m : matcher A) found ps,
    sel_ok s -> bounded m (line_of s) -> find_by s m = Ok found ->
    StronglySorted le (map (fun x => end_idx (fst x)) found) ->
    split_by s m = Ok ps -> forall p, In p ps -> find_by p m = Ok [] /\ split_by p m = Ok [p].
Proof. exact thm_C60_split_again. Qed.
(** "it rains, then pay": its first three tokens and the others. *)
Example C60_case :
  side_by_side (mkSel rc1 2 4) (mkSel rc1 5 9) /\ together (mkSel rc1 2 4) (mkSel rc1 5 9) = mkSel rc1 2 9
  /\ find_by (mkSel rc1 2 4) x_whitespace = Ok [(mkSel rc1 3 3, tt)]
  /\ find_by (mkSel rc1 5 9) x_whitespace = Ok [(mkSel rc1 6 6, tt); (mkSel rc1 8 8, tt)]
  /\ find_by (mkSel rc1 2 9) x_whitespace = Ok [(mkSel rc1 3 3, tt); (mkSel rc1 6 6, tt); (mkSel rc1 8 8, tt)]
  /\ split_with (mkSel rc1 2 9) (mkSel rc1 5 6) = Ok (Some (mkSel rc1 2 4), Some (mkSel rc1 7 9))
  /\ find_by (mkSel rc1 5 6) x_whitespace = Ok [(mkSel rc1 6 6, tt)]
  /\ find_first_by (mkSel rc1 4 5) x_whitespace = Ok None
  /\ find_first_by (mkSel rc1 4 9) x_whitespace = Ok (Some (mkSel rc1 6 6, tt)).
Proof. conj; try fact. repeat split; cbn; lia. Qed.
Example C60_trim_case :
  sel_ok (mkSel rc1 1 3) /\ bounded x_whitespace (line_of (mkSel rc1 1 3))
  /\ x_whitespace (Fwd 1) line1 = Ok [(tt, 1)] /\ x_whitespace (Bwd 3) line1 = Ok [(tt, 3)]
  /\ trim (mkSel rc1 1 3) x_whitespace = Ok (Some (mkSel rc1 2 2))
  /\ sel_ok (mkSel rc1 1 1) /\ trim_start (mkSel rc1 1 1) x_whitespace = Ok None.
Proof. conj; try fact. exact (bounded_space line1 lg1 history1 proper1). Qed.
Example C60_seq_case :
  sel_ok (mkSel rc12 0 6) /\ bounded (x_attr TNum) (line_of (mkSel rc12 0 6))
  /\ find_by (mkSel rc12 0 6) (x_seq2 (x_attr TNum) (x_attr TNum))
     = Ok [(mkSel rc12 0 2, (7%N, 9%N)); (mkSel rc12 2 5, (9%N, 1%N))]
  /\ extended (fun p => match_forwards p (x_attr TNum)) [(mkSel rc12 0 1, 7%N); (mkSel rc12 2 2, 9%N); (mkSel rc12 3 5, 1%N)]
     = Ok [(mkSel rc12 0 2, (7%N, 9%N)); (mkSel rc12 2 5, (9%N, 1%N))]
  /\ match_backwards (mkSel rc12 6 6) (x_seq2 (x_attr TNum) (x_attr TNum)) = Ok [(mkSel rc12 2 6, (1%N, 9%N))]
  /\ match_forwards (mkSel rc12 0 1) (x_seq2 (x_attr TNum) (x_attr TNum)) = Ok [(mkSel rc12 0 5, (9%N, 1%N))].
Proof. conj; try fact. exact (bounded_attr line12 lg12 TNum history12 proper12). Qed.
Example C60_split_again_case :
  sel_ok (mkSel rc2 0 6) /\ bounded (x_attr TNum) (line_of (mkSel rc2 0 6))
  /\ (exists found, find_by (mkSel rc2 0 6) (x_attr TNum) = Ok found
      /\ found = [(mkSel rc2 0 1, 7%N); (mkSel rc2 3 5, 1%N)]
      /\ StronglySorted le (map (fun x => end_idx (fst x)) found))
  /\ split_by (mkSel rc2 0 6) (x_attr TNum) = Ok [mkSel rc2 2 2; mkSel rc2 6 6]
  /\ split_by (mkSel rc2 2 2) (x_attr TNum) = Ok [mkSel rc2 2 2].
Proof.
  destruct C27_runs_case as (H1 & H2 & H3 & H4). split; [exact H1|]. split; [exact H2|]. split; [exact H3|]. split; [exact H4|]. fact.
Qed.

(** ** C61 Sizes and positions *)
Theorem C61_sizes {UC : Unicode} {U : UserTypes} :
  forall tg tg' sz sz' input input' l l' ss,
    Forall wf_input input -> Forall2 resized input input' ->
    create_line_from_input_tokens tg input sz = Ok l -> create_line_from_input_tokens tg' input' sz' = Ok l' ->
    ((exists l1, after_any l ss l1) <-> (exists l1', after_any l' ss l1'))
    /\ forall l1 l1', after_any l ss l1 -> after_any l' ss l1' -> same_but_positions l1 l1'.
Proof. exact thm_C61_sizes. Qed.
(** A line with a value token of size 5 or 900, sizes counted in characters or all zero,
    64 or 8 bits wide. *)
Definition in61 : list InputToken := [InText (of_string "if it") []; InCustom 900 []; InText (of_string "rains") []].
Definition tg8 : Target := mkTarget 8 false.
Definition get_line (r : res LLLine) : LLLine := match r with Ok l => l | _ => line1 end.
Definition line61 : LLLine := Eval vm_compute in get_line (create_line_from_input_tokens tg8 in61 (fun _ => 0%N)).
Example C61_case :
  Forall wf_input in58 /\ Forall2 resized in58 in61
  /\ create_line_from_input_tokens tg64 in58 str_len = Ok line58c
  /\ create_line_from_input_tokens tg8 in61 (fun _ => 0%N) = Ok line61
  /\ ll_tokens line58c <> ll_tokens line61
  /\ (exists l1, after_any line58c [pair58; txt58] l1 /\ query l1 TNum <> Ok []).
Proof.
  conj; try fact.
  - repeat constructor.
  - repeat constructor.
  - eexists. split; [apply after58_any; vm_compute; reflexivity|]. vm_compute. discriminate.
Qed.

(** ** C62 Attributes given with the input *)
Theorem C62_attributes {UC : Unicode} {U : UserTypes} :
  forall (SL : SegmenterLaws) tg sz input l,
    Forall wf_input input -> create_line_from_input_tokens tg input sz = Ok l ->
    exists groups l0,
      Forall2 cut_of input groups /\ concat groups = map token (ll_tokens l)
      /\ create_line_from_input_tokens tg (map bare input) sz = Ok l0
      /\ after_assigning l0 (input_log 0 groups input) l.
Proof. exact thm_C62_attributes. Qed.
Definition line62 : LLLine := Eval vm_compute in line_from (map bare in2).
Example C62_case :
  SegmenterLaws /\ Forall wf_input in2 /\ create_line_from_input_tokens tg64 in2 str_len = Ok line2
  /\ create_line_from_input_tokens tg64 (map bare in2) str_len = Ok line62
  /\ query line62 TNum = Ok []
  /\ query line2 TNum = Ok [((0, 1), of_string "Pay ", [7%N]); ((3, 5), of_string "to Bob", [1%N])]
  /\ input_log 0 (map (map fst) (groups_from in2)) in2
     = [((0, 1), mkany TNum 7%N); ((3, 5), mkany TStr (of_string "x")); ((3, 5), mkany TNum 1%N)].
Proof. conj; try fact. Qed.

(** ** C63 Repeated runs *)
Theorem C63_again {UC : Unicode} {U : UserTypes} :
  forall l lg s id l1 id',
    History l lg -> attributed_for [(id, s)] l lg -> ~ In (writes s) (reads s) -> run_any id l s = Ok l1 ->
    exists l2,
      run_any id' l1 s = Ok l2
      /\ ll_tokens l2 = ll_tokens l1
      /\ (forall t, t <> writes s -> query l2 t = query l1 t)
      /\ (forall q1, query l1 (writes s) = Ok q1 ->
           exists q0 added,
             query l (writes s) = Ok q0
             /\ Forall (fun '(r, _, vs) => vs = reported q0 r ++ added r) q1
             /\ query l2 (writes s) = Ok (map (fun '(r, text, vs) => (r, text, vs ++ added r)) q1)).
Proof. exact thm_C63_again. Qed.
Theorem C63_created {UC : Unicode} {U : UserTypes} :
  forall tg sz input l s id l1 id',
    Forall wf_input input -> create_line_from_input_tokens tg input sz = Ok l ->
    (Forall is_text input \/ uses_chars s = false) -> query l (writes s) = Ok [] ->
    ~ In (writes s) (reads s) -> run_any id l s = Ok l1 ->
    exists l2,
      run_any id' l1 s = Ok l2
      /\ (forall t, t <> writes s -> query l2 t = query l1 t)
      /\ (forall q1, query l1 (writes s) = Ok q1 ->
           query l2 (writes s) = Ok (map (fun '(r, text, vs) => (r, text, vs ++ vs)) q1)).
Proof. exact thm_C63_created. Qed.
(** A find of the words of "Pay to Bob2" that adds the length of each text. *)
Definition len63 : any_step := Find TNum _ M_text (fun text => N.of_nat (length text)).
Definition line63 : LLLine := Eval vm_compute in get_line (run_any 1 line2 len63).
Definition line63b : LLLine := Eval vm_compute in get_line (run_any 2 line63 len63).
Example C63_case :
  History line2 lg2 /\ attributed_for [(1%N, len63)] line2 lg2 /\ ~ In (writes len63) (reads len63)
  /\ run_any 1 line2 len63 = Ok line63 /\ run_any 2 line63 len63 = Ok line63b
  /\ rmap (map (fun '(r, _, vs) => (r, vs))) (query line2 TNum) = Ok [((0, 1), [7%N]); ((3, 5), [1%N])]
  /\ rmap (map (fun '(r, _, vs) => (r, vs))) (query line63 TNum)
     = Ok [((0, 1), [7%N]); ((3, 5), [1%N]); ((0, 0), [3%N]); ((1, 1), [1%N]); ((3, 3), [2%N]); ((4, 4), [1%N]); ((5, 5), [3%N]); ((6, 6), [1%N])]
  /\ rmap (map (fun '(r, _, vs) => (r, vs))) (query line63b TNum)
     = Ok [((0, 1), [7%N]); ((3, 5), [1%N]); ((0, 0), [3%N; 3%N]); ((1, 1), [1%N; 1%N]); ((3, 3), [2%N; 2%N]); ((4, 4), [1%N; 1%N]); ((5, 5), [3%N; 3%N]); ((6, 6), [1%N; 1%N])].
Proof.
  conj; try fact.
  - intros (x & [<-|[]] & E). discriminate E.
Qed.
(** The amounts of "If it rains, then pay 1,000.50", found twice. *)
Definition line63c : LLLine := Eval vm_compute in get_line (run_any 4 line1 (snd am58)).
Example C63_created_case :
  Forall wf_input in1 /\ create_line_from_input_tokens tg64 in1 str_len = Ok line1
  /\ Forall is_text in1 /\ query line1 TAmount = Ok [] /\ ~ In (writes (snd am58)) (reads (snd am58))
  /\ run_any 4 line1 (snd am58) = Ok line63c
  /\ (exists v, rmap (map (fun '(r, _, vs) => (r, vs))) (query line63c TAmount) = Ok [((11, 15), [v])]
      /\ exists l2, run_any 4 line63c (snd am58) = Ok l2 /\ rmap (map (fun '(r, _, vs) => (r, vs))) (query l2 TAmount) = Ok [((11, 15), [v; v])]).
Proof.
  conj; try fact.
  - repeat constructor.
  - cbn. intuition discriminate.
  - eexists. split; [vm_compute; reflexivity|]. eexists. split; vm_compute; reflexivity.
Qed.
