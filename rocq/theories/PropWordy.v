(** Texts of words and marks (C94), with concrete cases. *)

From Verif Require Export PropPrices ThmWordy.

Local Open Scope string_scope.
Local Open Scope list_scope.

(** ** C94 Texts of words and marks *)
Theorem C94_tokens {UC : Unicode} {U : UserTypes} :
  forall (SL : SegmenterLaws) colon (AL : AsciiLaws colon) tg sz ws ats l,
    proper_wordy colon ws -> Forall wf_attribute ats ->
    create_line_from_input_tokens tg [InText (wordy_text ws) ats] sz = Ok l ->
    map token (ll_tokens l) = map (fun p => LText (fst p) (snd p)) (read_as ws).
Proof. exact thm_C94_tokens. Qed.
Theorem C94_tags {UC : Unicode} {U : UserTypes} :
  forall (SL : SegmenterLaws) colon (AL : AsciiLaws colon) tg sz ws ats l id dict noun,
    proper_wordy colon ws -> Forall wf_attribute ats ->
    none_of TTextTag [InText (wordy_text ws) ats] -> none_of TPos [InText (wordy_text ws) ats] ->
    create_line_from_input_tokens tg [InText (wordy_text ws) ats] sz = Ok l ->
    exists l' rows, run id l (pos_go dict noun) = Ok l' /\ query l' TPos = Ok rows
      /\ Forall2 (piece_row l) (valued (fun text tag => match tag with WORD => match dict (u_lower text) with Some tags => tags | None => [noun] end | _ => [] end) [] (read_as ws)) rows.
Proof. exact thm_C94_tags. Qed.
Theorem C94_matches {UC : Unicode} {U : UserTypes} :
  forall (SL : SegmenterLaws) colon (AL : AsciiLaws colon) t tg sz ws ats l id (table : list (str * list (den t))),
    proper_wordy colon ws -> Forall wf_attribute ats -> none_of t [InText (wordy_text ws) ats] -> t <> TChar -> t <> TTextTag ->
    create_line_from_input_tokens tg [InText (wordy_text ws) ats] sz = Ok l ->
    (NoDup (map fst table) ->
       exists l' rows, run id l (text_match_go (text_match_new table)) = Ok l' /\ query l' t = Ok rows
         /\ Forall2 (piece_row l) (valued (fun text _ => entry_values (fun k => str_eqb k text) table) [] (read_as ws)) rows)
    /\ exists l' rows, run id l (text_match_go (text_match_new_ci table)) = Ok l' /\ query l' t = Ok rows
         /\ Forall2 (piece_row l) (valued (fun text _ => last_entry_values (fun k => same_ignoring_case k text) table) [] (read_as ws)) rows.
Proof. exact thm_C94_matches. Qed.
Definition wordy94 : Wordy := [(of_string "Don't", None); (of_string "pay", Some 44%N); (of_string "e.g", None); (of_string "Bob", Some 58%N); (of_string "1500", Some 33%N)].
Definition dict94 (w : str) : option (list N) :=
  if str_eqb w (of_string "pay") then Some [1%N; 2%N] else if str_eqb w (of_string "don't") then Some [] else None.
Definition tag94 (text : str) (tag : TextTag) : list N :=
  match tag with WORD => match dict94 (u_lower text) with Some tags => tags | None => [9%N] end | _ => [] end.
Definition table94 := [ent92 "bob" 5%N; ent92 "!" 6%N; ent92 "pay" 7%N; ent92 "BOB" 8%N].
Example C94_case :
  proper_wordy true wordy94 /\ wordy_text wordy94 = of_string "Don't pay, e.g Bob: 1500!" /\ is_line89 (wordy_text wordy94)
  /\ none_of TTextTag [InText (wordy_text wordy94) []] /\ none_of TPos [InText (wordy_text wordy94) []] /\ none_of TNum [InText (wordy_text wordy94) []]
  /\ read_as wordy94 = [(of_string "Don't", WORD); (of_string " ", SPACE); (of_string "pay", WORD); (of_string ",", PUNC); (of_string " ", SPACE);
       (of_string "e.g", SYMB); (of_string " ", SPACE); (of_string "Bob", WORD); (of_string ":", PUNC); (of_string " ", SPACE); (of_string "1500", NATN); (of_string "!", PUNC)]
  /\ valued tag94 [] (read_as wordy94) = [(of_string "Don't ", of_string "pay", [1%N; 2%N]); (of_string "Don't pay, e.g ", of_string "Bob", [9%N])]
  /\ (exists l', run 1 (line89 (wordy_text wordy94)) (pos_go dict94 9%N) = Ok l'
        /\ query l' TPos = Ok [((2, 2), of_string "pay", [1%N; 2%N]); ((7, 7), of_string "Bob", [9%N])])
  /\ NoDup (map fst table94)
  /\ (exists l', run 1 (line89 (wordy_text wordy94)) (text_match_go (text_match_new table94)) = Ok l'
        /\ query l' TNum = Ok [((2, 2), of_string "pay", [7%N]); ((11, 11), of_string "!", [6%N])])
  /\ (exists l', run 1 (line89 (wordy_text wordy94)) (text_match_go (text_match_new_ci table94)) = Ok l'
        /\ query l' TNum = Ok [((2, 2), of_string "pay", [7%N]); ((7, 7), of_string "Bob", [8%N]); ((11, 11), of_string "!", [6%N])]).
Proof.
  split.
  { split; [discriminate|]. unfold wordy94. repeat (apply Forall_cons; [cbn [fst snd]; split; [word_by|intros c E; (discriminate E || (injection E as <-; unfold documented_punctuation; cbn [In]; tauto))]|]). apply Forall_nil. }
  split; [vm_compute; reflexivity|]. split; [vm_compute; reflexivity|]. split; [intros it a [<-|[]] []|]. split; [intros it a [<-|[]] []|]. split; [intros it a [<-|[]] []|].
  split; [vm_compute; reflexivity|]. split; [vm_compute; reflexivity|].
  split; [eexists; split; [vm_compute; reflexivity|]; vm_compute; reflexivity|].
  split; [vm_compute; repeat constructor; cbn [In]; intuition discriminate|].
  split; (eexists; split; [vm_compute; reflexivity|]; vm_compute; reflexivity).
Qed.
