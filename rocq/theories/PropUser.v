(** Matchers and resolvers written by users (C71, C72), with concrete cases. *)

From Verif Require Export PropRead ThmCode.

Local Open Scope string_scope.
Local Open Scope list_scope.

(** ** C71 Matchers written by users cannot leave the line *)
Theorem C71_inside {UC : Unicode} {U : UserTypes} :
  forall l lg A (m : matcher A) d ms a j,
    History l lg -> user_matcher l A m -> m d l = Ok ms -> In (a, j) ms -> j < length (ll_tokens l).
Proof. exact thm_C71_inside. Qed.
Theorem C71_library {UC : Unicode} {U : UserTypes} :
  forall l P has A (m : matcher A), lib_matcher P has A m -> user_matcher l A m.
Proof. exact thm_C71_library. Qed.
Theorem C71_ends {UC : Unicode} {U : UserTypes} :
  forall rc lg aft s,
    History (rc_line rc) lg -> reached (user_matcher (rc_line rc)) aft rc s ->
    sel_line s = rc /\ end_idx s < line_len s
    /\ (start_idx s < line_len s \/ (aft = true /\ start_idx s = line_len s)).
Proof. exact thm_C71_ends. Qed.
Theorem C71_onward {UC : Unicode} {U : UserTypes} :
  forall rc aft s,
    reached (onward_matcher (rc_line rc)) aft rc s ->
    sel_line s = rc /\ (sel_ok s \/ (aft = true /\ sel_past_end s)).
Proof. exact thm_C71_onward. Qed.
Theorem C71_run {UC : Unicode} {U : UserTypes} :
  forall t l lg id (r : Resolver t) g,
    History l lg -> ll_tokens l <> [] ->
    r (whole id l) = Ok g -> finishes (user_matcher l) id l g ->
    exists l', run id l r = Ok l' /\ History l' (lg ++ map assignment_entry (go_assignments g)).
Proof. exact thm_C71_run. Qed.
Theorem C71_find {UC : Unicode} {U : UserTypes} :
  forall l lg A (m : matcher A),
    History l lg -> user_matcher l A m ->
    ((exists fs, find l m = Ok fs) <-> forall i, i < length (ll_tokens l) -> exists ms, m (Fwd i) l = Ok ms).
Proof. exact thm_C71_find. Qed.
Theorem C71_whole {UC : Unicode} {U : UserTypes} :
  forall id l, ll_tokens l <> [] ->
    from_line (mkRc id l) = Some (whole id l)
    /\ (forall i, covers (whole id l) i <-> i < length (ll_tokens l))
    /\ forall t (r r' : Resolver t), (forall s, from_line (mkRc id l) = Some s -> r s = r' s) -> run id l r = run id l r'.
Proof. exact thm_C71_whole. Qed.
Theorem C71_code {UC : Unicode} {U : UserTypes} :
  forall t l lg id (c : LRange -> code t),
    History l lg -> ll_tokens l <> [] ->
    (forall r, honest_code (length (ll_tokens l)) false (eq r) (c r)) ->
    ((exists l', run id l (resolver_by c) = Ok l')
       <-> exists g, resolver_by c (whole id l) = Ok g /\ go_retained g = false)
    /\ forall g, resolver_by c (whole id l) = Ok g -> go_retained g = false -> finishes (user_matcher l) id l g.
Proof. exact thm_C71_code. Qed.
Theorem C71_find_any {UC : Unicode} {U : UserTypes} :
  forall l A (m : matcher A),
    (exists fs, find l m = Ok fs)
    <-> (forall i, i < length (ll_tokens l) ->
           exists ms, m (Fwd i) l = Ok ms /\ forall a j, In (a, j) ms -> j < length (ll_tokens l)).
Proof. exact thm_C71_find_any. Qed.
Theorem C71_reversed_refuted :
  exists l lg id (r : Resolver TStr) g l' p,
    History l lg /\ proper lg /\ r (whole id l) = Ok g /\ finishes (user_matcher l) id l g
    /\ run id l r = Ok l' /\ query l' TStr = Panic p.
Proof. exact thm_C71_reversed_refuted. Qed.
Theorem C71_foreign_refuted :
  exists l lg l2 lg2 ms a j p q,
    History l lg /\ History l2 lg2 /\ x_token_text (Fwd (length (ll_tokens l2) - 1)) l2 = Ok ms /\ In (a, j) ms
    /\ find l (fun _ _ => Ok [(a, j)]) = Panic p
    /\ run 5 l (find_resolver TStr (fun _ _ => Ok [(a, j)]) (fun s => s)) = Panic q.
Proof. exact thm_C71_foreign_refuted. Qed.
(** A matcher that the library does not have: a number not followed by a text [","]. *)
Definition go71 (d : direction) : program N :=
  P_attr _ d TNum (fun r =>
    P_after _ d 0 (fun o => match o with
                            | Some d' => P_text _ d' (fun x => match x with
                                | Some (s, _) => if str_eqb s (of_string ",") then P_return _ [] else P_return _ r
                                | None => P_return _ r end)
                            | None => P_return _ r end)).
Definition own71 : matcher N := fun d l => execute l (go71 d).
Definition finish71 : Resolver TNum := fun s =>
  fs <- find_by s own71;; Ok (mkGo (map (fun '(s', v) => finish_with_attr (t := TNum) s' (v + 1)%N) fs) false).
Lemma own71_user l : user_matcher l N own71.
Proof.
  exists go71. split; [reflexivity|]. intros d. unfold go71. apply Honest_attr; [reflexivity|]. intros r.
  assert (HR : forall (I : nat -> Prop) D, (forall j, In j (map snd r) -> I j) -> honest I D (P_return N r)).
  { intros I D HI. apply Honest_return. intros a j Hin. apply HI. apply in_map_iff. exists (a, j). auto. }
  apply Honest_after; [reflexivity|]. intros [d'|].
  - apply Honest_text; [auto|]. intros [[s j]|].
    + destruct (str_eqb s (of_string ",")); [apply Honest_return; intros a k []|]. apply HR. auto.
    + apply HR. auto.
  - apply HR. auto.
Qed.
Example C71_case :
  exists g l',
  History line2 lg2 /\ ll_tokens line2 <> [] /\ user_matcher line2 N own71
  /\ own71 (Fwd 3) line2 = Ok [(1%N, 5)] /\ own71 (Bwd 5) line2 = Ok [(1%N, 3)]
  /\ finish71 (whole 9 line2) = Ok g /\ finishes (user_matcher line2) 9 line2 g
  /\ run 9 line2 finish71 = Ok l'
  /\ values_on TNum (0, 1) (lg2 ++ map assignment_entry (go_assignments g)) = [7; 8]%N
  /\ (forall i, i < length (ll_tokens line2) -> exists ms, own71 (Fwd i) line2 = Ok ms)
  /\ rmap (map (fun f => (start_pos_at f, end_pos_at f, found f))) (find line2 own71) = Ok [(0, 4, 7); (7, 13, 1)]%N
  /\ (forall i, covers (whole 9 line2) i <-> i < 7).
Proof.
  do 2 eexists. split; [exact history2|]. split; [discriminate|]. split; [apply own71_user|]. split; [fact|]. split; [fact|].
  assert (HF : find_by (whole 9 line2) own71 = Ok [(mkSel (mkRc 9 line2) 0 1, 7%N); (mkSel (mkRc 9 line2) 3 5, 1%N)]) by fact.
  split; [unfold finish71; rewrite HF; reflexivity|].
  split.
  { split; [reflexivity|]. intros x Hx. cbn [go_assignments] in Hx. apply in_map_iff in Hx.
    destruct Hx as ([s v] & <- & Hin). exists s, (v + 1)%N. split; [|reflexivity].
    eapply R_find_by; [apply R_whole; reflexivity|apply own71_user|exact HF|exact Hin]. }
  split; [vm_compute; reflexivity|]. split; [fact|].
  split.
  { intros i Hi. change (length (ll_tokens line2)) with 7 in Hi.
    do 7 (destruct i as [|i]; [eexists; vm_compute; reflexivity|]). lia. }
  split; [fact|]. intros i. exact (proj1 (proj2 (thm_C71_whole 9 line2 ltac:(discriminate))) i).
Qed.

(** A resolver of a user: words directly followed by punctuation, together with it. *)
Definition word_body (d : direction) : program str :=
  P_attr_eq _ d TTextTag TextTag_eqb WORD (fun ws => P_text _ d (fun x =>
    P_return _ (match x with Some (s, j) => map (fun _ => (s, j)) ws | None => [] end))).
Definition punc_body (d : direction) : program unit :=
  P_attr_eq _ d TTextTag TextTag_eqb PUNC (fun ps => P_return _ ps).
Fixpoint each_word (found : list (LRange * str)) (acc : list (LRange * den TStr)) : code TStr :=
  match found with
  | [] => C_done TStr acc false
  | (s, w) :: found' =>
      C_call TStr _ (Call_match_first_forwards s unit punc_body)
        (fun o => match o with Some (s', _) => each_word found' (acc ++ [(s', w)]) | None => each_word found' acc end)
  end.
Definition code72 (r : LRange) : code TStr := C_call TStr _ (Call_find_by r str word_body) (fun found => each_word found []).

Lemma word_asks d : asks (fun t => In t [TTextTag]) false (word_body d).
Proof. apply Asks_attr_eq; [now left|]. intros ws. apply Asks_text. intros x. apply Asks_return. Qed.
Lemma punc_asks d : asks (fun t => In t [TTextTag]) false (punc_body d).
Proof. apply Asks_attr_eq; [now left|]. intros ws. apply Asks_return. Qed.
Lemma code72_asks r : code_asks (fun t => In t [TTextTag]) false (code72 r).
Proof.
  apply CO_call; [apply CA_find_by; exact word_asks|]. intros found. generalize (@nil (LRange * den TStr)).
  induction found as [|[s w] found IH]; intros acc; cbn [each_word]; [apply CO_done|].
  apply CO_call; [apply CA_match_first_forwards; exact punc_asks|]. intros [[s' u]|]; apply IH.
Qed.
Lemma word_honest (I : nat -> Prop) d : honest I (eq d) (word_body d).
Proof.
  apply Honest_attr_eq; [reflexivity|]. intros ws. apply Honest_text; [reflexivity|]. intros [[s j]|]; apply Honest_return.
  - intros a i Hin. apply in_map_iff in Hin. destruct Hin as ([[] k] & E & _). injection E as _ <-. right. now left.
  - intros a i [].
Qed.
Lemma punc_honest (I : nat -> Prop) d : honest I (eq d) (punc_body d).
Proof.
  apply Honest_attr_eq; [reflexivity|]. intros ws. apply Honest_return. intros a i Hin. right. apply in_map_iff. exists (a, i). auto.
Qed.
Lemma each_honest n found : forall (S : LRange -> Prop) acc, (forall s w, In (s, w) found -> S s) -> (forall r v, In (r, v) acc -> S r) ->
  honest_code n false S (each_word found acc).
Proof.
  induction found as [|[s w] found IH]; intros S acc HF HA; cbn [each_word]; [now apply HC_done|].
  apply HC_call; [apply ON_match_first_forwards; [eapply HF; now left|exact (punc_honest _)]|].
  intros [[s' u]|]; apply IH.
  - intros s0 w0 Hin. left. eapply HF. right. exact Hin.
  - intros r v Hin. apply in_app_or in Hin. destruct Hin as [Hin|[Hin|[]]]; [left; eauto|]. injection Hin as <- _. right. now left.
  - intros s0 w0 Hin. left. eapply HF. right. exact Hin.
  - intros r v Hin. left. eauto.
Qed.
Lemma code72_honest n r : honest_code n false (eq r) (code72 r).
Proof.
  apply HC_call; [apply ON_find_by; [reflexivity|exact (word_honest _)]|]. intros found. apply each_honest.
  - intros s w Hin. right. cbn [answered]. apply in_map_iff. exists (s, w). auto.
  - intros r' v [].
Qed.
Definition user72 : any_step := User TStr code72 [TTextTag] false code72_asks.
Example C71_code_case :
  History line1 lg1 /\ ll_tokens line1 <> [] /\ (forall r, honest_code (length (ll_tokens line1)) false (eq r) (code72 r))
  /\ rmap (fun g => map as_pair (go_assignments g)) (resolver_by code72 (whole 3 line1)) = Ok [((4, 5), of_string "rains")]
  /\ exists l', run 3 line1 (resolver_by code72) = Ok l' /\ query l' TStr = Ok [((4, 5), of_string "rains,", [of_string "rains"])].
Proof.
  split; [exact history1|]. split; [discriminate|]. split; [exact (code72_honest _)|]. split; [fact|].
  eexists. split; fact.
Qed.

(** A matcher that asks the line with [find] whether it has any punctuation, and shows it with its text tags:
    words of lines with both. *)
Definition nested_body (d : direction) : program str :=
  P_find _ unit punc_body (fun fs => match fs with
    | [] => P_return _ []
    | _ => P_show _ tg64 [existT (fun t => den t -> str) TTextTag (fun tag => dbg_text_tag tag)] (fun shown =>
             if str_eqb shown [] then P_return _ [] else word_body d)
    end).
Lemma nested_honest (I : nat -> Prop) d : honest I (eq d) (nested_body d).
Proof.
  apply Honest_find; [exact (punc_honest I)|]. intros [|f fs]; [apply Honest_return; intros a j []|].
  apply Honest_show. intros shown. destruct (str_eqb shown []); [apply Honest_return; intros a j []|apply word_honest].
Qed.
Lemma nested_asks d : asks (fun t => In t [TTextTag]) false (nested_body d).
Proof.
  apply Asks_find; [exact punc_asks| |].
  - intros [|f fs] [|g gs] E; try discriminate E; reflexivity.
  - intros [|f fs]; [apply Asks_return|]. apply Asks_show; [intros x [<-|[]]; now left|].
    intros shown. destruct (str_eqb shown []); [apply Asks_return|apply word_asks].
Qed.
Example C71_nested_case :
  user_matcher line1 str (matcher_by nested_body)
  /\ (forall d, asks (fun t => In t [TTextTag]) false (nested_body d))
  /\ matcher_by nested_body (Fwd 4) line1 = Ok [(of_string "rains", 4)]
  /\ matcher_by nested_body (Fwd 0) line44 = Ok [].
Proof.
  split; [exists nested_body; split; [reflexivity|intros d; apply nested_honest]|]. split; [exact nested_asks|].
  split; vm_compute; reflexivity.
Qed.

(** ** C72 What code written by users can see *)
Theorem C72_sees {UC : Unicode} {U : UserTypes} :
  forall (P : ty -> Prop) h l lg l' lg',
    History l lg -> History l' lg' ->
    map token (ll_tokens l) = map token (ll_tokens l') ->
    (forall t, P t -> assigned t lg = assigned t lg') ->
    (h = true -> forall i, attributed i lg <-> attributed i lg') ->
    (forall A (go : direction -> program A), (forall d, asks P h (go d)) ->
       forall d, matcher_by go d l = matcher_by go d l')
    /\ forall t (c : LRange -> code t) id id', (forall r, code_asks P h (c r)) ->
         resolver_by c (whole id l) = resolver_by c (whole id' l').
Proof. exact thm_C72_sees. Qed.
Theorem C72_unaffected {UC : Unicode} {U : UserTypes} :
  forall (P : ty -> Prop) h l lg t (r : Resolver t) id l',
    History l lg -> run id l r = Ok l' -> ~ P t ->
    (h = true -> forall i, i < length (ll_tokens l) -> attributed i lg) ->
    (forall A (go : direction -> program A), (forall d, asks P h (go d)) ->
       forall d, matcher_by go d l' = matcher_by go d l)
    /\ forall t' (c : LRange -> code t') id1 id2, (forall r', code_asks P h (c r')) ->
         resolver_by c (whole id1 l') = resolver_by c (whole id2 l).
Proof. exact thm_C72_unaffected. Qed.
Theorem C72_library {UC : Unicode} {U : UserTypes} :
  forall P has A (m : matcher A), lib_matcher P has A m ->
    exists go : direction -> program A,
      (forall d l, m d l = matcher_by go d l) /\ (forall d, asks P has (go d))
      /\ forall d, honest (fun _ => False) (eq d) (go d).
Proof. exact thm_C72_library. Qed.
Definition line72 : LLLine := Eval vm_compute in get_line (run_any 4 line1 (snd am58)).
Example C72_case :
  History line1 lg1 /\ run 4 line1 (amount_go parse_decimal amount_english) = Ok line72
  /\ ~ In TAmount [TTextTag]
  /\ (forall d, asks (fun t => In t [TTextTag]) false (word_body d))
  /\ (forall r, code_asks (fun t => In t [TTextTag]) false (code72 r))
  /\ query line72 TAmount <> query line1 TAmount
  /\ matcher_by word_body (Fwd 4) line72 = Ok [(of_string "rains", 4)]
  /\ (forall id, exists l', run id line72 (resolver_by code72) = Ok l').
Proof.
  split; [exact history1|]. split; [fact|]. split; [intros [E|[]]; discriminate|]. split; [exact word_asks|]. split; [exact code72_asks|].
  split; [vm_compute; discriminate|]. split; [fact|]. intros id. eexists. vm_compute. reflexivity.
Qed.
(** C58, C61 and C63 hold for such resolvers too. *)
Example C58_user_case :
  reordered [(7%N, user72); am58; pos58] [am58; pos58; (7%N, user72)]
  /\ exists l1 l2, after_any line1 [(7%N, user72); am58; pos58] l1 /\ after_any line1 [am58; pos58; (7%N, user72)] l2
       /\ query l1 TStr = query l2 TStr /\ query l1 TStr = Ok [((4, 5), of_string "rains,", [of_string "rains"])].
Proof.
  split.
  - eapply R_trans; [apply R_swap|apply R_skip; apply R_swap];
      (split; [cbn; discriminate|]; split; cbn; intros HI; repeat (destruct HI as [HI|HI]; [discriminate HI|]); exact HI).
  - do 2 eexists. split; [apply (after58_any [(7%N, user72); am58; pos58] line1); vm_compute; reflexivity|].
    split; [apply (after58_any [am58; pos58; (7%N, user72)] line1); vm_compute; reflexivity|]. split; fact.
Qed.
