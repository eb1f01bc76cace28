(** Pieces replaced by others (C100), with concrete cases. *)

From Verif Require Export PropFiner ThmReplaced.

Local Open Scope string_scope.
Local Open Scope list_scope.

(** ** C100 Translation and placeholders *)
Theorem C100_clauses {UC : Unicode} {U : UserTypes} :
  forall tg tg' sz sz' xs ys l l' r r' id1 id2 id1' id2',
    Forall wf_input (concat xs) -> none_of TKeyword (concat xs) -> none_of TTextTag (concat xs) -> none_of TClause (concat xs) ->
    Forall wf_input (concat ys) -> none_of TKeyword (concat ys) -> none_of TTextTag (concat ys) -> none_of TClause (concat ys) ->
    create_line_from_input_tokens tg (concat xs) sz = Ok l -> create_line_from_input_tokens tg' (concat ys) sz' = Ok l' ->
    Forall2 (same_roles tg tg' sz sz' r r') xs ys ->
    exists rows rows', clauses_reported id1 id2 r l rows /\ clauses_reported id1' id2' r' l' rows' /\ map place rows = map place rows'.
Proof. exact thm_C100_clauses. Qed.
Theorem C100_amounts {UC : Unicode} {U : UserTypes} :
  forall tg tg' sz sz' xs ys l l' parse r r' id id',
    Forall wf_input (concat xs) -> none_of TTextTag (concat xs) -> none_of TChar (concat xs) -> none_of TAmount (concat xs) ->
    Forall wf_input (concat ys) -> none_of TTextTag (concat ys) -> none_of TChar (concat ys) -> none_of TAmount (concat ys) ->
    create_line_from_input_tokens tg (concat xs) sz = Ok l -> create_line_from_input_tokens tg' (concat ys) sz' = Ok l' ->
    no_digit_signs r -> no_digit_signs r' -> Forall2 (same_numbers tg tg' sz sz' r r') xs ys ->
    (exists l1 l1' rows rows', run id l (amount_go parse r) = Ok l1 /\ run id' l' (amount_go parse r') = Ok l1'
       /\ query l1 TAmount = Ok rows /\ query l1' TAmount = Ok rows' /\ map place rows = map place rows')
    \/ (exists p p', run id l (amount_go parse r) = Panic p /\ run id' l' (amount_go parse r') = Panic p').
Proof. exact thm_C100_amounts. Qed.
Theorem C100_matches {UC : Unicode} {U : UserTypes} :
  forall t tg tg' sz sz' xs ys l l' (a b : Table t) id id',
    Forall wf_input (concat xs) -> none_of t (concat xs) -> Forall wf_input (concat ys) -> none_of t (concat ys) ->
    t <> TChar -> t <> TTextTag -> hash_table a -> hash_table b ->
    create_line_from_input_tokens tg (concat xs) sz = Ok l -> create_line_from_input_tokens tg' (concat ys) sz' = Ok l' ->
    Forall2 (same_values tg tg' sz sz' a b) xs ys ->
    exists l1 l1' rows rows', run id l (text_match_go (text_match_of a)) = Ok l1 /\ run id' l' (text_match_go (text_match_of b)) = Ok l1'
      /\ query l1 t = Ok rows /\ query l1' t = Ok rows' /\ map place rows = map place rows'.
Proof. exact thm_C100_matches. Qed.
Theorem C100_parts_of_speech {UC : Unicode} {U : UserTypes} :
  forall tg tg' sz sz' xs ys l l' dict dict' noun noun' id id',
    Forall wf_input (concat xs) -> none_of TTextTag (concat xs) -> none_of TPos (concat xs) ->
    Forall wf_input (concat ys) -> none_of TTextTag (concat ys) -> none_of TPos (concat ys) ->
    create_line_from_input_tokens tg (concat xs) sz = Ok l -> create_line_from_input_tokens tg' (concat ys) sz' = Ok l' ->
    Forall2 (same_parts tg tg' sz sz' dict dict' noun noun') xs ys ->
    exists l1 l1' rows rows', run id l (pos_go dict noun) = Ok l1 /\ run id' l' (pos_go dict' noun') = Ok l1'
      /\ query l1 TPos = Ok rows /\ query l1' TPos = Ok rows' /\ map place rows = map place rows'.
Proof. exact thm_C100_parts_of_speech. Qed.
(** "If Bob pays, then we ship" and, with German keywords and a placeholder for the name, "Wenn ... zahlt, dann ...". *)
Definition text100 (s : string) : InputToken := InText (of_string s) [].
Definition xs100 : list (list InputToken) := [[text100 "If "]; [text100 "Bob"]; [text100 " pays, then we ship"]].
Definition ys100 : list (list InputToken) := [[text100 "WENN "]; [InCustom 7%N [any_attribute_new TNum 4%N]]; [text100 " zahlt, dann wir liefern"]].
Definition german100 : ClauseKeywordResolver := mkClauseKeywordResolver [of_string "wenn"] [of_string "und"] [of_string "dann"].
Definition line100 (x : list InputToken) : LLLine := get no_line (create_line_from_input_tokens tg64 x str_len).
Ltac marks100 := first
  [ exists (MKey KConditionStart); split; vm_compute; tauto | exists (MKey KThen); split; vm_compute; intuition discriminate
  | exists MStop; split; (split; [intros [| |]; vm_compute; intuition discriminate|reflexivity])
  | exists MBlank; split; (split; [intros [| |]; vm_compute; intuition discriminate|reflexivity])
  | exists MOther; split; first [reflexivity|split; [intros [| |]; vm_compute; intuition discriminate|split; discriminate]] ].
Example C100_case_clauses :
  Forall wf_input (concat xs100) /\ Forall wf_input (concat ys100)
  /\ (forall t, t = TKeyword \/ t = TTextTag \/ t = TClause -> none_of t (concat xs100) /\ none_of t (concat ys100))
  /\ create_line_from_input_tokens tg64 (concat xs100) str_len = Ok (line100 (concat xs100))
  /\ create_line_from_input_tokens tg64 (concat ys100) str_len = Ok (line100 (concat ys100))
  /\ Forall2 (same_roles tg64 tg64 str_len str_len words german100) xs100 ys100
  /\ clauses_reported 1 2 words (line100 (concat xs100))
       [((2, 4), of_string "Bob pays", [Condition]); ((9, 11), of_string "we ship", [TrailingEffect])]
  /\ clauses_reported 1 2 german100 (line100 (concat ys100))
       [((2, 4), of_string " zahlt", [Condition]); ((9, 11), of_string "wir liefern", [TrailingEffect])].
Proof.
  split; [wf_inputs|]. split; [wf_inputs|]. split.
  { intros t Ht. split; intros it a [<-|[<-|[<-|[]]]]; try (intros []; fail). intros [<-|[]]. destruct Ht as [->|[->| ->]]; reflexivity. }
  split; [vm_compute; reflexivity|]. split; [vm_compute; reflexivity|]. split.
  { repeat (constructor; [do 2 eexists; split; [vm_compute; reflexivity|]; split; [vm_compute; reflexivity|]; repeat (constructor; [marks100|]); constructor|]). constructor. }
  split; do 2 eexists; (split; [vm_compute; reflexivity|]); (split; [vm_compute; reflexivity|]); vm_compute; reflexivity.
Qed.
(** "1,000.50 now" in English, "1.000,50 ..." with a placeholder in another notation. *)
Definition xs100a : list (list InputToken) := [[text100 "1,000.50 "]; [text100 "now"]].
Definition ys100a : list (list InputToken) := [[text100 "1.000,50 "]; [InCustom 7%N [any_attribute_new TNum 4%N]]].
Definition dots100 : AmountResolver := mkAmountResolver [46%N] 44%N.
Example C100_case_amounts :
  Forall wf_input (concat xs100a) /\ Forall wf_input (concat ys100a)
  /\ (forall t, t = TTextTag \/ t = TChar \/ t = TAmount -> none_of t (concat xs100a) /\ none_of t (concat ys100a))
  /\ create_line_from_input_tokens tg64 (concat xs100a) str_len = Ok (line100 (concat xs100a))
  /\ create_line_from_input_tokens tg64 (concat ys100a) str_len = Ok (line100 (concat ys100a))
  /\ no_digit_signs amount_english /\ no_digit_signs dots100
  /\ Forall2 (same_numbers tg64 tg64 str_len str_len amount_english dots100) xs100a ys100a
  /\ (exists l1, run 1 (line100 (concat xs100a)) (amount_go parse_decimal amount_english) = Ok l1 /\ query l1 TAmount = Ok [((0, 4), of_string "1,000.50", [mkDecimal 100050 2])])
  /\ (exists l2, run 1 (line100 (concat ys100a)) (amount_go parse_decimal dots100) = Ok l2 /\ query l2 TAmount = Ok [((0, 4), of_string "1.000,50", [mkDecimal 100050 2])]).
Proof.
  split; [wf_inputs|]. split; [wf_inputs|]. split.
  { intros t Ht. split; intros it a [<-|[<-|[]]]; try (intros []; fail). intros [<-|[]]. destruct Ht as [->|[->| ->]]; reflexivity. }
  split; [vm_compute; reflexivity|]. split; [vm_compute; reflexivity|]. split; [repeat constructor|]. split; [repeat constructor|]. split.
  { constructor; [|constructor; [|constructor]].
    - do 2 eexists. exists [NNumber (of_string "1"); NDelimiter; NNumber (of_string "000"); NPoint; NNumber (of_string "50"); NOther].
      split; [vm_compute; reflexivity|]. split; [vm_compute; reflexivity|]. split; number_marks_by fail.
    - do 2 eexists. exists [NOther]. split; [vm_compute; reflexivity|]. split; [vm_compute; reflexivity|].
      split; [number_marks_by fail|]. number_marks_by ltac:(let HB := fresh "HB" in intros HB; exact (HB TNum _ _ eq_refl (or_introl eq_refl) eq_refl)). }
  split; eexists; split; vm_compute; reflexivity.
Qed.
(** "pay Bob 5" with a table used as it is, "Zahle ... 7" with one that ignores case. *)
Definition xs100m : list (list InputToken) := [[text100 "pay "]; [text100 "Bob"]; [text100 " 5"]].
Definition ys100m : list (list InputToken) := [[text100 "Zahle "]; [InCustom 7%N [any_attribute_new TClause Condition]]; [text100 " 7"]].
Definition pay100 : Table TNum := AsWritten (t := TNum) [(of_string "pay", [1; 2]%N); (of_string "5", [3]%N)].
Definition zahle100 : Table TNum := IgnoringCase (t := TNum) [(of_string "ZAHLE", [1; 2]%N); (of_string "7", [3]%N)].
Example C100_case_matches :
  Forall wf_input (concat xs100m) /\ Forall wf_input (concat ys100m) /\ none_of TNum (concat xs100m) /\ none_of TNum (concat ys100m)
  /\ hash_table pay100 /\ hash_table zahle100
  /\ create_line_from_input_tokens tg64 (concat xs100m) str_len = Ok (line100 (concat xs100m))
  /\ create_line_from_input_tokens tg64 (concat ys100m) str_len = Ok (line100 (concat ys100m))
  /\ Forall2 (same_values tg64 tg64 str_len str_len pay100 zahle100) xs100m ys100m
  /\ (exists l1, run 1 (line100 (concat xs100m)) (text_match_go (text_match_of pay100)) = Ok l1
       /\ query l1 TNum = Ok [((0, 0), of_string "pay", [1; 2]%N); ((4, 4), of_string "5", [3]%N)])
  /\ (exists l2, run 1 (line100 (concat ys100m)) (text_match_go (text_match_of zahle100)) = Ok l2
       /\ query l2 TNum = Ok [((0, 0), of_string "Zahle", [1; 2]%N); ((4, 4), of_string "7", [3]%N)]).
Proof.
  split; [wf_inputs|]. split; [wf_inputs|].
  split; [intros it a [<-|[<-|[<-|[]]]]; intros []|]. split; [intros it a [<-|[<-|[<-|[]]]]; try (intros []; fail); intros [<-|[]]; reflexivity|].
  split; [repeat constructor; cbn; intuition discriminate|]. split; [exact I|].
  split; [vm_compute; reflexivity|]. split; [vm_compute; reflexivity|]. split.
  { repeat (constructor; [do 2 eexists; split; [vm_compute; reflexivity|]; split; [vm_compute; reflexivity|]; repeat (constructor; [vm_compute; reflexivity|]); constructor|]). constructor. }
  split; eexists; split; vm_compute; reflexivity.
Qed.
(** "Pay now!" and "Zahle jetzt." with a dictionary each. *)
Definition xs100p : list (list InputToken) := [[text100 "Pay "]; [text100 "now!"]].
Definition ys100p : list (list InputToken) := [[text100 "Zahle "]; [text100 "jetzt."]].
Definition one_word100 (w : string) (tags : list N) (s : str) : option (list N) := if str_eqb s (of_string w) then Some tags else None.
Example C100_case_parts_of_speech :
  Forall wf_input (concat xs100p) /\ Forall wf_input (concat ys100p)
  /\ (forall t, none_of t (concat xs100p) /\ none_of t (concat ys100p))
  /\ create_line_from_input_tokens tg64 (concat xs100p) str_len = Ok (line100 (concat xs100p))
  /\ create_line_from_input_tokens tg64 (concat ys100p) str_len = Ok (line100 (concat ys100p))
  /\ Forall2 (same_parts tg64 tg64 str_len str_len (one_word100 "pay" [3; 4]%N) (one_word100 "zahle" [3; 4]%N) 1%N 1%N) xs100p ys100p
  /\ (exists l1, run 1 (line100 (concat xs100p)) (pos_go (one_word100 "pay" [3; 4]%N) 1%N) = Ok l1
       /\ query l1 TPos = Ok [((0, 0), of_string "Pay", [3; 4]%N); ((2, 2), of_string "now", [1]%N)])
  /\ (exists l2, run 1 (line100 (concat ys100p)) (pos_go (one_word100 "zahle" [3; 4]%N) 1%N) = Ok l2
       /\ query l2 TPos = Ok [((0, 0), of_string "Zahle", [3; 4]%N); ((2, 2), of_string "jetzt", [1]%N)]).
Proof.
  split; [wf_inputs|]. split; [wf_inputs|]. split; [intros t; split; intros it a [<-|[<-|[]]]; intros []|].
  split; [vm_compute; reflexivity|]. split; [vm_compute; reflexivity|]. split.
  { repeat (constructor; [do 2 eexists; split; [vm_compute; reflexivity|]; split; [vm_compute; reflexivity|]; repeat (constructor; [vm_compute; reflexivity|]); constructor|]). constructor. }
  split; eexists; split; vm_compute; reflexivity.
Qed.
