(** The clauses of written sentences (C91), with concrete cases. *)

From Verif Require Export PropChars ThmSentence ThmRefuted.

Local Open Scope string_scope.
Local Open Scope list_scope.

(** ** C91 Clauses of a written sentence *)
Theorem C91_clauses {UC : Unicode} {U : UserTypes} :
  forall (SL : SegmenterLaws) colon (AL : AsciiLaws colon) tg sz ps ats l r id id',
    proper_sentence colon r ps -> no_keyword r [32%N] -> Forall wf_attribute ats ->
    (forall t, In t [TKeyword; TTextTag; TClause] -> none_of t [InText (sentence ps) ats]) ->
    create_line_from_input_tokens tg [InText (sentence ps) ats] sz = Ok l ->
    exists rows, clauses_reported id id' r l rows /\ Forall2 (clause_on l) (clauses_said ps) rows.
Proof. exact thm_C91_clauses. Qed.
Theorem C91_numbers_refuted :
  exists (UC : Unicode), SegmenterLaws /\ CharLaws /\ TableLaws /\
  exists s l r d l' rows i j, create_line_from_string tg64 s = Ok l
    /\ run 1 l (amount_go parse_decimal amount_english) = Ok l' /\ query l' TAmount = Ok [((i, j), of_string "1,500", [d])]
    /\ clauses_reported 2 3 r l rows /\ rows <> []
    /\ forall a b text ks, In ((a, b), text, ks) rows -> ~ (a <= i /\ j <= b).
Proof. exact thm_C91_numbers_refuted. Qed.
Ltac not_keyword := let k := fresh "k" in intros k; destruct k; vm_compute; intuition discriminate.
Ltac letter_by := vm_compute; first [left; split; discriminate|right; split; discriminate].
Ltac dotted_by := first
  [ solve [apply D_one; letter_by]
  | solve [apply D_letter; [letter_by|dotted_by]]
  | solve [apply D_mid; [letter_by|left; cbn [In]; tauto|dotted_by]] ].
Ltac word_by := match goal with |- proper_word _ ?w => let w' := eval vm_compute in w in change w with w' end;
  first [left; solve [dotted_by] | right; split; [discriminate|repeat constructor; unfold ascii_digit; lia]].

(** "If you don't pay, then I call Bob e.g and wait 3 days." *)
Definition said91 : list Saying :=
  [mkSaying (Some (of_string "If", KConditionStart)) (map of_string ["you"; "don't"; "pay"]) (Some 44%N);
   mkSaying (Some (of_string "then", KThen)) (map of_string ["I"; "call"; "Bob"; "e.g"]) None;
   mkSaying (Some (of_string "AND", KAnd)) (map of_string ["wait"; "3"; "days"]) (Some 59%N);
   mkSaying None (map of_string ["thanks"]) (Some 46%N)].
Example C91_case :
  proper_sentence true words said91 /\ no_keyword words [32%N]
  /\ sentence said91 = of_string "If you don't pay, then I call Bob e.g AND wait 3 days; thanks."
  /\ (forall t, In t [TKeyword; TTextTag; TClause] -> none_of t [InText (sentence said91) []])
  /\ is_line89 (sentence said91)
  /\ clauses_said said91 =
       [(of_string "If ", of_string "you don't pay", Condition);
        (of_string "If you don't pay, then ", of_string "I call Bob e.g", TrailingEffect);
        (of_string "If you don't pay, then I call Bob e.g AND ", of_string "wait 3 days", TrailingEffect);
        (of_string "If you don't pay, then I call Bob e.g AND wait 3 days; ", of_string "thanks", TrailingEffect)]
  /\ clauses_reported 1 2 words (line89 (sentence said91))
       [((2, 6), of_string "you don't pay", [Condition]); ((11, 17), of_string "I call Bob e.g", [TrailingEffect]);
        ((21, 25), of_string "wait 3 days", [TrailingEffect]); ((28, 28), of_string "thanks", [TrailingEffect])].
Proof.
  split.
  { split; [discriminate|]. split.
    - repeat (apply Forall_cons; [|]); try apply Forall_nil;
        (split; [intros w k E; (discriminate E || (injection E as <- <-; split; [word_by|vm_compute; intuition discriminate]))|];
         split; [discriminate|];
         split; [cbn [map said_words]; repeat (apply Forall_cons; [split; [word_by|not_keyword]|]); apply Forall_nil|];
         intros c E; (discriminate E || (injection E as <-; split; [unfold documented_punctuation; cbn [In]; tauto|not_keyword]))).
    - intros ps1 p q ps2 E. destruct ps1 as [|? [|? [|? [|? ?]]]]; cbn in E; injection E; intros; subst; cbn [closing opener]; first [left; discriminate|right; discriminate|idtac].
      all: match goal with H : [] = ?l ++ _ |- _ => destruct l; discriminate H | H : [] = _ :: _ |- _ => discriminate H | _ => idtac end. }
  split; [not_keyword|]. split; [vm_compute; reflexivity|]. split; [intros t _ it a [<-|[]] []|]. split; [vm_compute; reflexivity|]. split; [vm_compute; reflexivity|].
  eexists. eexists. split; [vm_compute; reflexivity|]. split; vm_compute; reflexivity.
Qed.
(** Alone, the words after "then" are an independent clause. *)
Definition alone91 : list Saying := [mkSaying (Some (of_string "then", KThen)) (map of_string ["we"; "pay"]) (Some 33%N)].
Example C91_case_alone :
  clauses_said alone91 = [(of_string "then ", of_string "we pay", Independent)]
  /\ is_line89 (sentence alone91) /\ clauses_reported 1 2 words (line89 (sentence alone91)) [((2, 4), of_string "we pay", [Independent])].
Proof.
  split; [vm_compute; reflexivity|]. split; [vm_compute; reflexivity|].
  eexists. eexists. split; [vm_compute; reflexivity|]. split; vm_compute; reflexivity.
Qed.
