(** The lines of the examples. *)

From Verif Require Export ExUnicode ThmPipe ThmDisplay.

Local Open Scope list_scope.

Definition no_line : LLLine := mkLine [] (mkAttrs [] [] [] []).
Definition get {A} (d : A) (r : res A) : A := match r with Ok a => a | _ => d end.

(** A resolver with a fixed answer. *)
Definition assign {t : ty} (xs : list (LRange * den t)) : Resolver t :=
  fun _ => Ok (mkGo (map (fun '(r, v) => mkAssign (t := t) (fst r) (snd r) v) xs) false).

Definition text_of_line (l : LLLine) : list str := map (fun tok => ltext (token tok)) (ll_tokens l).

(** Make a line from input tokens. *)
Definition line_from (input : list InputToken) : LLLine :=
  get no_line (create_line_from_input_tokens tg64 input str_len).
Definition groups_from (input : list InputToken) : list (list (LToken * N)) :=
  get [] (mapM (input_ltokens str_len) input).
Definition log_from (input : list InputToken) : list entry :=
  creation_log (map (map fst) (groups_from input)) input.

Definition any_of (t : ty) (v : den t) : AnyAttribute := any_attribute_new t v.

Lemma any_wf t v : wf_attribute (any_of t v).
Proof. now exists t, v. Qed.

Lemma mapM_Forall2 {A B} (f : A -> res B) xs ys : mapM f xs = Ok ys -> Forall2 (fun x y => f x = Ok y) xs ys.
Proof.
  revert ys. induction xs as [|x xs IH]; intros ys H; simpl in H.
  - inversion H. constructor.
  - destruct (f x) as [y| |] eqn:E; simpl in H; try discriminate. destruct (mapM f xs) as [ys'| |]; simpl in H; try discriminate.
    inversion H; subst. constructor; auto.
Qed.

Lemma history_from input :
  Forall wf_input input ->
  create_line_from_input_tokens tg64 input str_len = Ok (line_from input) ->
  mapM (input_ltokens str_len) input = Ok (groups_from input) ->
  History (line_from input) (log_from input).
Proof. intros HW HC HM. eapply H_create; eauto. now apply mapM_Forall2. Qed.

Lemma history_assign {t} l lg id (xs : list (LRange * den t)) :
  History l lg -> ll_tokens l <> [] ->
  run id l (assign xs) = Ok (get no_line (run id l (assign xs))) ->
  History (get no_line (run id l (assign xs))) (lg ++ map (fun '(r, v) => (r, mkany t v)) xs).
Proof.
  intros H HN HR. replace (map (fun '(r, v) => (r, mkany t v)) xs)
    with (map assignment_entry (map (fun '(r, v) => mkAssign (t := t) (fst r) (snd r) v) xs)).
  - eapply H_run with (r := assign xs) (g := mkGo _ false); eauto.
  - rewrite map_map. apply map_ext. intros [[a b] v]. reflexivity.
Qed.

Ltac wf_inputs := repeat first [apply Forall_nil | apply Forall_cons | apply any_wf].

(** ** A text *)
Definition in1 : list InputToken := [InText "If it rains, then pay 1,000.50"%string []].
Definition line1 : LLLine := Eval vm_compute in line_from in1.
Definition lg1 : list entry := Eval vm_compute in log_from in1.

Lemma wf1 : Forall wf_input in1. Proof. wf_inputs. Qed.
Lemma created1 : create_line_from_input_tokens tg64 in1 str_len = Ok line1.
Proof. vm_compute. reflexivity. Qed.
Lemma created1' : create_line_from_string tg64 "If it rains, then pay 1,000.50"%string = Ok line1.
Proof. vm_compute. reflexivity. Qed.
Lemma history1 : History line1 lg1.
Proof. exact (history_from in1 wf1 created1 eq_refl). Qed.
Example text1 : text_of_line line1 = map of_string
  ["If"; " "; "it"; " "; "rains"; ","; " "; "then"; " "; "pay"; " "; "1"; ","; "000"; "."; "50"]%string.
Proof. reflexivity. Qed.

(** ** Texts and a custom token, with attributes on several tokens *)
Definition in2 : list InputToken :=
  [InText "Pay "%string [any_of TNum 7%N];
   InCustom 3 [];
   InText "to Bob"%string [any_of TStr (of_string "x"); any_of TNum 1%N];
   InText "2"%string []].
Definition line2 : LLLine := Eval vm_compute in line_from in2.
Definition lg2 : list entry := Eval vm_compute in log_from in2.

Lemma wf2 : Forall wf_input in2.
Proof. wf_inputs. Qed.
Lemma created2 : create_line_from_input_tokens tg64 in2 str_len = Ok line2.
Proof. vm_compute. reflexivity. Qed.
Lemma history2 : History line2 lg2.
Proof. exact (history_from in2 wf2 created2 eq_refl). Qed.
Example text2 : text_of_line line2 = map of_string ["Pay"; " "; ""; "to"; " "; "Bob"; "2"]%string.
Proof. reflexivity. Qed.

(** ** Clause keywords *)
Definition words : ClauseKeywordResolver :=
  mkClauseKeywordResolver (map of_string ["if"; "when"]%string) (map of_string ["and"]%string) (map of_string ["then"]%string).

(** ** The second line after a resolver run: nested ranges *)
Definition xs3 : list (LRange * den TStr) :=
  [((3, 5), of_string "y"); ((0, 5), of_string "z"); ((4, 4), of_string "w"); ((3, 5), of_string "v")].
Definition line3 : LLLine := Eval vm_compute in get no_line (run 5 line2 (assign (t := TStr) xs3)).
Definition lg3 : list entry := Eval vm_compute in lg2 ++ map (fun '(r, v) => (r, mkany TStr v)) xs3.
Lemma run3 : run 5 line2 (assign (t := TStr) xs3) = Ok line3.
Proof. vm_compute. reflexivity. Qed.
Lemma history3 : History line3 lg3.
Proof. exact (history_assign line2 lg2 5 xs3 history2 ltac:(discriminate) run3). Qed.

(** ** The second line with a reversed range *)
Definition xs4 : list (LRange * den TStr) := [((5, 0), of_string "back")].
Definition line4 : LLLine := Eval vm_compute in get no_line (run 5 line2 (assign (t := TStr) xs4)).
Definition lg4 : list entry := Eval vm_compute in lg2 ++ map (fun '(r, v) => (r, mkany TStr v)) xs4.
Lemma run4 : run 5 line2 (assign (t := TStr) xs4) = Ok line4.
Proof. vm_compute. reflexivity. Qed.
Lemma history4 : History line4 lg4.
Proof. exact (history_assign line2 lg2 5 xs4 history2 ltac:(discriminate) run4). Qed.

(** ** The line of in1 with its keywords *)
Definition line5 : LLLine := Eval vm_compute in get no_line (run 5 line1 (clause_keyword_go words)).
Definition xs5 : list (LRange * den TKeyword) := [((0, 0), KConditionStart); ((7, 7), KThen)].
Definition lg5 : list entry := Eval vm_compute in lg1 ++ map (fun '(r, v) => (r, mkany TKeyword v)) xs5.
Lemma run5 : run 5 line1 (clause_keyword_go words) = Ok line5.
Proof. vm_compute. reflexivity. Qed.
Lemma run5' : run 5 line1 (assign (t := TKeyword) xs5) = Ok line5.
Proof. vm_compute. reflexivity. Qed.
Lemma history5 : History line5 lg5.
Proof. exact (history_assign line1 lg1 5 xs5 history1 ltac:(discriminate) run5'). Qed.

(** ** Proper logs *)
Lemma properb lg : forallb (fun e : entry => Nat.leb (fst (fst e)) (snd (fst e))) lg = true -> proper lg.
Proof. intros H. apply Forall_forall. intros e Hin. rewrite forallb_forall in H. apply Nat.leb_le. auto. Qed.
Lemma proper1 : proper lg1. Proof. apply properb. reflexivity. Qed.
Lemma proper2 : proper lg2. Proof. apply properb. reflexivity. Qed.
Lemma proper3 : proper lg3. Proof. apply properb. reflexivity. Qed.
Lemma proper5 : proper lg5. Proof. apply properb. reflexivity. Qed.

(** ** Plain and single *)
Lemma singleb t lg : forallb (fun x : LRange * den t => Nat.eqb (fst (fst x)) (snd (fst x))) (assigned t lg) = true -> single lg t.
Proof. intros H rg v Hin. rewrite forallb_forall in H. apply Nat.eqb_eq. exact (H (rg, v) Hin). Qed.
Lemma single_keyword5 : single lg5 TKeyword. Proof. apply singleb. reflexivity. Qed.
Lemma single_tag5 : single lg5 TTextTag. Proof. apply singleb. reflexivity. Qed.
Lemma plain_tag1 : plain TTextTag line1 lg1. Proof. reflexivity. Qed.
Lemma plain_char1 : plain TChar line1 lg1. Proof. reflexivity. Qed.
Lemma text_only1 : text_only line1.
Proof. intros tok Hin E. simpl in Hin. repeat (destruct Hin as [<-|Hin]; [discriminate E|]). easy. Qed.

(** ** Proving concrete facts *)
#[export] Hint Resolve latin_segmenter latin_tables wf1 wf2 created1 created2 history1 history2 history3
  history4 history5 proper1 proper2 proper3 proper5 run3 run4 run5 : cases.
Ltac conj := repeat match goal with |- _ /\ _ => split end.
Ltac fact := first [solve [auto with cases] | discriminate | (vm_compute; reflexivity) | (vm_compute; discriminate) | (vm_compute; lia)].
Ltac facts := conj; fact.
