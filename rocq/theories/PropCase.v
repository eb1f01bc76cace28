(** Texts of the same shape, and upper and lower case (C95), with concrete cases. *)

From Verif Require Export PropWordy ThmCase.

Local Open Scope string_scope.
Local Open Scope list_scope.

(** ** C95 Shape and case of ASCII text *)
Theorem C95_shape {UC : Unicode} {U : UserTypes} :
  forall (SL : SegmenterLaws) colon (AL : AsciiLaws colon) l l',
    lines_like same_shape [] l l' -> Forall2 (token_like same_shape) (map token (ll_tokens l)) (map token (ll_tokens l')).
Proof. exact thm_C95_shape. Qed.
Theorem C95_string {UC : Unicode} {U : UserTypes} :
  forall (SL : SegmenterLaws) colon (AL : AsciiLaws colon) tg s s' l,
    ascii s -> same_shape s s' -> create_line_from_string tg s = Ok l ->
    exists l', create_line_from_string tg s' = Ok l'
      /\ Forall2 (fun t t' => same_place t t' /\ token_like same_shape (token t) (token t')) (ll_tokens l) (ll_tokens l').
Proof. exact thm_C95_string. Qed.
Theorem C95_parts_of_speech {UC : Unicode} {U : UserTypes} :
  forall (SL : SegmenterLaws) colon (AL : AsciiLaws colon) (LL : AsciiLower) l l' id id' dict noun,
    lines_like same_case [TTextTag; TPos] l l' ->
    exists l1 l1' rows rows', run id l (pos_go dict noun) = Ok l1 /\ run id' l' (pos_go dict noun) = Ok l1'
      /\ query l1 TPos = Ok rows /\ query l1' TPos = Ok rows' /\ Forall2 (row_like same_case) rows rows'.
Proof. exact thm_C95_parts_of_speech. Qed.
Theorem C95_matches {UC : Unicode} {U : UserTypes} :
  forall (SL : SegmenterLaws) colon (AL : AsciiLaws colon) (LL : AsciiLower) t l l' id id' (table : list (str * list (den t))),
    lines_like same_case [t] l l' -> t <> TChar -> t <> TTextTag ->
    exists l1 l1' rows rows', run id l (text_match_go (text_match_new_ci table)) = Ok l1 /\ run id' l' (text_match_go (text_match_new_ci table)) = Ok l1'
      /\ query l1 t = Ok rows /\ query l1' t = Ok rows' /\ Forall2 (row_like same_case) rows rows'.
Proof. exact thm_C95_matches. Qed.
Theorem C95_clauses {UC : Unicode} {U : UserTypes} :
  forall (SL : SegmenterLaws) colon (AL : AsciiLaws colon) (LL : AsciiLower) l l' r i1 i2 j1 j2,
    lines_like same_case [TKeyword; TTextTag; TClause] l l' ->
    exists rows rows', clauses_reported i1 i2 r l rows /\ clauses_reported j1 j2 r l' rows' /\ Forall2 (row_like same_case) rows rows'.
Proof. exact thm_C95_clauses. Qed.
Theorem C95_amount_places {UC : Unicode} {U : UserTypes} :
  forall (SL : SegmenterLaws) colon (AL : AsciiLaws colon) l l' id id' parse parse' r l1 l1',
    lines_like same_shape [TTextTag; TChar; TAmount] l l' -> all_text l -> no_digit_signs r -> (forall c, In c (signs r) -> ~ ascii_letter c) ->
    run id l (amount_go parse r) = Ok l1 -> run id' l' (amount_go parse' r) = Ok l1' ->
    exists rows rows', query l1 TAmount = Ok rows /\ query l1' TAmount = Ok rows' /\ Forall2 (row_placed same_shape) rows rows'.
Proof. exact thm_C95_amount_places. Qed.
Theorem C95_amounts {UC : Unicode} {U : UserTypes} :
  forall (SL : SegmenterLaws) colon (AL : AsciiLaws colon) l l' id id' parse r,
    lines_like same_case [TTextTag; TChar; TAmount] l l' -> all_text l -> no_digit_signs r -> (forall c, In c (signs r) -> ~ ascii_letter c) ->
    (exists l1 l1' rows rows', run id l (amount_go parse r) = Ok l1 /\ run id' l' (amount_go parse r) = Ok l1'
       /\ query l1 TAmount = Ok rows /\ query l1' TAmount = Ok rows' /\ Forall2 (row_like same_case) rows rows')
    \/ (exists p p', run id l (amount_go parse r) = Panic p /\ run id' l' (amount_go parse r) = Panic p').
Proof. exact thm_C95_amounts. Qed.
(** Letters for letters and digits for digits: "v2" stays one token, "3rd" stays two. *)
Definition text95 : str := of_string "Pay v2 3rd 12.50, Bob's".
Definition text95' : str := of_string "Owe x7 8th 99.99, Ann't".
Ltac kin_by := first [left; reflexivity | right; left; unfold ascii_letter; split; lia | right; right; unfold ascii_digit; split; lia].
Ltac shape_by := match goal with |- same_shape ?a ?b => let a' := eval vm_compute in a in let b' := eval vm_compute in b in change (Forall2 kin a' b') end;
  repeat (apply Forall2_cons; [kin_by|]); apply Forall2_nil.
Ltac lines_by R s s' := exists tg64, tg64, str_len, str_len, [InText s []], [InText s' []];
  split; [vm_compute; reflexivity|]; split; [vm_compute; reflexivity|]; split; [apply Forall2_cons; [cbn [input_like]; R|apply Forall2_nil]|];
  split; [apply Forall_cons; [apply is_ascii; reflexivity|apply Forall_nil]|]; split; [repeat constructor|]; split; [repeat constructor|];
  intros ? _; split; intros ? ? [<-|[]] [].
Definition amount95 : AmountResolver := amount_english.
Example C95_case_shape :
  ascii text95 /\ same_shape text95 text95' /\ is_line89 text95 /\ is_line89 text95'
  /\ lines_like same_shape [TTextTag; TChar; TAmount] (line89 text95) (line89 text95') /\ all_text (line89 text95)
  /\ no_digit_signs amount95 /\ (forall c, In c (signs amount95) -> ~ ascii_letter c)
  /\ map token (ll_tokens (line89 text95)) = [LText (of_string "Pay") WORD; LText (of_string " ") SPACE; LText (of_string "v2") SYMB; LText (of_string " ") SPACE;
       LText (of_string "3") NATN; LText (of_string "rd") WORD; LText (of_string " ") SPACE; LText (of_string "12") NATN; LText (of_string ".") PUNC; LText (of_string "50") NATN;
       LText (of_string ",") PUNC; LText (of_string " ") SPACE; LText (of_string "Bob's") WORD]
  /\ map token (ll_tokens (line89 text95')) = [LText (of_string "Owe") WORD; LText (of_string " ") SPACE; LText (of_string "x7") SYMB; LText (of_string " ") SPACE;
       LText (of_string "8") NATN; LText (of_string "th") WORD; LText (of_string " ") SPACE; LText (of_string "99") NATN; LText (of_string ".") PUNC; LText (of_string "99") NATN;
       LText (of_string ",") PUNC; LText (of_string " ") SPACE; LText (of_string "Ann't") WORD]
  /\ (exists l1 l1' d1 d2 d1' d2', run 1 (line89 text95) (amount_go parse_decimal amount95) = Ok l1 /\ run 1 (line89 text95') (amount_go parse_decimal amount95) = Ok l1'
        /\ query l1 TAmount = Ok [((4, 4), of_string "3", [d1]); ((7, 9), of_string "12.50", [d2])]
        /\ query l1' TAmount = Ok [((4, 4), of_string "8", [d1']); ((7, 9), of_string "99.99", [d2'])] /\ d1 <> d1' /\ d2 <> d2').
Proof.
  split; [apply is_ascii; reflexivity|]. split; [shape_by|]. split; [vm_compute; reflexivity|]. split; [vm_compute; reflexivity|].
  split; [lines_by ltac:(shape_by) text95 text95'|].
  split; [intros tok H; vm_compute in H; repeat (destruct H as [<-|H]; [discriminate|]); destruct H|].
  split; [repeat constructor|].
  split; [intros c H; cbn in H; unfold ascii_letter; lia|]. split; [vm_compute; reflexivity|]. split; [vm_compute; reflexivity|].
  do 6 eexists. split; [vm_compute; reflexivity|]. split; [vm_compute; reflexivity|]. split; [vm_compute; reflexivity|]. split; [vm_compute; reflexivity|]. split; discriminate.
Qed.
(** The same sentence in two spellings. *)
Definition text95c : str := of_string "If It rains, THEN Pay Bob 1,500.25 eur".
Definition text95c' : str := of_string "IF it Rains, then PAY bob 1,500.25 EUR".
Definition table95 := [ent92 "Bob" 5%N; ent92 "eUR" 6%N].
Example C95_case_case :
  ascii text95c /\ same_case text95c text95c' /\ is_line89 text95c /\ is_line89 text95c' /\ AsciiLower
  /\ (forall ts, lines_like same_case ts (line89 text95c) (line89 text95c')) /\ all_text (line89 text95c)
  /\ (exists l1 l1', run 1 (line89 text95c) (pos_go dict94 9%N) = Ok l1 /\ run 1 (line89 text95c') (pos_go dict94 9%N) = Ok l1'
        /\ query l1 TPos = Ok [((0, 0), of_string "If", [9%N]); ((2, 2), of_string "It", [9%N]); ((4, 4), of_string "rains", [9%N]); ((7, 7), of_string "THEN", [9%N]);
             ((9, 9), of_string "Pay", [1%N; 2%N]); ((11, 11), of_string "Bob", [9%N]); ((19, 19), of_string "eur", [9%N])]
        /\ query l1' TPos = Ok [((0, 0), of_string "IF", [9%N]); ((2, 2), of_string "it", [9%N]); ((4, 4), of_string "Rains", [9%N]); ((7, 7), of_string "then", [9%N]);
             ((9, 9), of_string "PAY", [1%N; 2%N]); ((11, 11), of_string "bob", [9%N]); ((19, 19), of_string "EUR", [9%N])])
  /\ (exists l1 l1', run 1 (line89 text95c) (text_match_go (text_match_new_ci table95)) = Ok l1 /\ run 1 (line89 text95c') (text_match_go (text_match_new_ci table95)) = Ok l1'
        /\ query l1 TNum = Ok [((11, 11), of_string "Bob", [5%N]); ((19, 19), of_string "eur", [6%N])]
        /\ query l1' TNum = Ok [((11, 11), of_string "bob", [5%N]); ((19, 19), of_string "EUR", [6%N])])
  /\ clauses_reported 1 2 words (line89 text95c) [((2, 4), of_string "It rains", [Condition]); ((9, 13), of_string "Pay Bob 1", [TrailingEffect]);
       ((15, 15), of_string "500", [TrailingEffect]); ((17, 19), of_string "25 eur", [TrailingEffect])]
  /\ clauses_reported 1 2 words (line89 text95c') [((2, 4), of_string "it Rains", [Condition]); ((9, 13), of_string "PAY bob 1", [TrailingEffect]);
       ((15, 15), of_string "500", [TrailingEffect]); ((17, 19), of_string "25 EUR", [TrailingEffect])]
  /\ (exists l1 l1' d, run 1 (line89 text95c) (amount_go parse_decimal amount95) = Ok l1 /\ run 1 (line89 text95c') (amount_go parse_decimal amount95) = Ok l1'
        /\ query l1 TAmount = Ok [((13, 17), of_string "1,500.25", [d])] /\ query l1' TAmount = Ok [((13, 17), of_string "1,500.25", [d])]).
Proof.
  split; [apply is_ascii; reflexivity|]. split; [vm_compute; reflexivity|]. split; [vm_compute; reflexivity|]. split; [vm_compute; reflexivity|]. split; [exact latin_ascii_lower|].
  split; [intros ts; lines_by ltac:(vm_compute; reflexivity) text95c text95c'|].
  split; [intros tok H; vm_compute in H; repeat (destruct H as [<-|H]; [discriminate|]); destruct H|].
  split; [do 2 eexists; split; [vm_compute; reflexivity|]; split; [vm_compute; reflexivity|]; split; vm_compute; reflexivity|].
  split; [do 2 eexists; split; [vm_compute; reflexivity|]; split; [vm_compute; reflexivity|]; split; vm_compute; reflexivity|].
  split; [do 2 eexists; split; [vm_compute; reflexivity|]; split; vm_compute; reflexivity|].
  split; [do 2 eexists; split; [vm_compute; reflexivity|]; split; vm_compute; reflexivity|].
  do 3 eexists; split; [vm_compute; reflexivity|]; split; [vm_compute; reflexivity|]; split; vm_compute; reflexivity.
Qed.
