(** White space matching, tokens given again as inputs, tags by text (C75-C77), with
    concrete cases. *)

From Verif Require Export PropSeam ThmWords.

Local Open Scope string_scope.
Local Open Scope list_scope.

(** ** C75 White space matching *)
Theorem C75_whitespace {UC : Unicode} {U : UserTypes} :
  forall tg sz input l l' i,
    Forall wf_input input -> none_of TTextTag input -> create_line_from_input_tokens tg input sz = Ok l ->
    runs_of_others TTextTag l l' -> i < length (ll_tokens l) ->
    (tag_at (ll_tokens l) i SPACE -> x_whitespace (Fwd i) l' = Ok [(tt, i)] /\ x_whitespace (Bwd i) l' = Ok [(tt, i)])
    /\ (~ tag_at (ll_tokens l) i SPACE -> x_whitespace (Fwd i) l' = Ok [] /\ x_whitespace (Bwd i) l' = Ok []).
Proof. exact thm_C75_whitespace. Qed.
Theorem C75_documented_refuted :
  exists (UC : Unicode), SegmenterLaws /\ CharLaws /\ TableLaws /\
  exists s l ms s0 p,
    create_line_from_string tg64 s = Ok l
    /\ tag_at (ll_tokens l) 0 SPACE /\ tag_at (ll_tokens l) 1 SPACE
    /\ x_whitespace (Fwd 0) l = Ok ms /\ (~ exists v, In (v, 1) ms)
    /\ from_line (mkRc 1 l) = Some s0 /\ trim s0 x_whitespace = Ok (Some p) /\ tag_at (ll_tokens l) (start_idx p) SPACE.
Proof. exact thm_C75_documented_refuted. Qed.
(** After a run of the amount resolver, and on "a \n b": tokens 1, 2 and 3 are white space. *)
Definition in75 : list InputToken := [InText [97; 32; 10; 32; 98; 53]%N []].
Definition line75a : LLLine := Eval vm_compute in get_line (create_line_from_input_tokens tg64 in75 len68).
Example C75_case :
  Forall wf_input in75 /\ none_of TTextTag in75 /\ create_line_from_input_tokens tg64 in75 len68 = Ok line75a
  /\ exists l', runs_of_others TTextTag line75a l'
     /\ tag_at (ll_tokens line75a) 1 SPACE /\ ~ tag_at (ll_tokens line75a) 0 SPACE
     /\ x_whitespace (Fwd 1) l' = Ok [(tt, 1)] /\ x_whitespace (Bwd 2) l' = Ok [(tt, 2)] /\ x_whitespace (Fwd 0) l' = Ok [].
Proof.
  split; [wf_inputs|]. split; [intros it a [<-|[]] []|]. split; [fact|]. eexists. split.
  - eapply (RO_run TTextTag _ TAmount 1 (amount_go parse_decimal amount_english)); [discriminate|vm_compute; reflexivity|].
    eapply (RO_run TTextTag _ TPos 2 (pos_go (fun _ => None) 8%N)); [discriminate|vm_compute; reflexivity|apply RO_none].
  - split; [eexists; eexists; split; [reflexivity|reflexivity]|]. split.
    + intros (tok & text & E & Et). injection E as <-. discriminate.
    + repeat (split; [vm_compute; reflexivity|]). vm_compute; reflexivity.
Qed.

(** ** C76 The tokens of a line given again as inputs *)
Theorem C76_again {UC : Unicode} {U : UserTypes} :
  forall (TL : TableLaws) (CL : CharLaws) tg sz texts l,
    create_line_from_input_tokens tg (texts_as_input texts) sz = Ok l ->
    (forall s, In s (token_texts l) -> u_words s = [s]) ->
    exists l', create_line_from_input_tokens tg (texts_as_input (token_texts l)) sz = Ok l'
      /\ Forall2 same_but_tag (ll_tokens l) (ll_tokens l').
Proof. exact thm_C76_again. Qed.
(** "1_000 don't" gives again the same tokens except for the underscore. *)
Definition line76 : LLLine := Eval vm_compute in get_line (create_line_from_input_tokens tg64 (texts_as_input [of_string "1_000 don't"]) len68).
Example C76_case :
  TableLaws /\ CharLaws /\ create_line_from_input_tokens tg64 (texts_as_input [of_string "1_000 don't"]) len68 = Ok line76
  /\ token_texts line76 = [of_string "1"; of_string "_"; of_string "000"; of_string " "; of_string "don't"]
  /\ (forall s, In s (token_texts line76) -> u_words s = [s])
  /\ exists l', create_line_from_input_tokens tg64 (texts_as_input (token_texts line76)) len68 = Ok l'
     /\ map token (ll_tokens line76) = [LText (of_string "1") NATN; LText (of_string "_") PUNC; LText (of_string "000") NATN;
          LText (of_string " ") SPACE; LText (of_string "don't") WORD]
     /\ map token (ll_tokens l') = [LText (of_string "1") NATN; LText (of_string "_") SYMB; LText (of_string "000") NATN;
          LText (of_string " ") SPACE; LText (of_string "don't") WORD].
Proof.
  split; [exact latin_table_laws|]. split; [exact latin_tables|]. split; [fact|]. split; [vm_compute; reflexivity|].
  split; [intros s Hs; vm_compute in Hs; repeat (destruct Hs as [<-|Hs]; [vm_compute; reflexivity|]); easy|].
  eexists. split; [vm_compute; reflexivity|]. split; vm_compute; reflexivity.
Qed.

(** ** C77 Tags by text *)
Theorem C77_tags {UC : Unicode} {U : UserTypes} :
  forall (TL : TableLaws) (CL : CharLaws) tg sz input l tok s tag,
    Forall wf_input input -> create_line_from_input_tokens tg input sz = Ok l ->
    In tok (ll_tokens l) -> token tok = LText s tag ->
    (tag = NATN <-> s <> [] /\ Forall (fun c => decimal_digit c = true) s)
    /\ (tag = WORD <-> word_like s)
    /\ (one_punctuation s -> tag = PUNC)
    /\ (tag = PUNC -> exists c, s = [c] /\ decimal_digit c = false /\ u_alphabetic c = false)
    /\ (tag = SPACE -> all_space s)
    /\ (all_space s -> tag = SPACE \/ tag = PUNC).
Proof. exact thm_C77_tags. Qed.
Theorem C77_parts_of_speech {UC : Unicode} {U : UserTypes} :
  forall (TL : TableLaws) (CL : CharLaws) tg sz input l id dict noun,
    Forall wf_input input -> none_of TTextTag input -> none_of TPos input ->
    create_line_from_input_tokens tg input sz = Ok l ->
    exists l' rows, run id l (pos_go dict noun) = Ok l' /\ query l' TPos = Ok rows
      /\ forall a b text tags, In ((a, b), text, tags) rows <->
           a = b /\ text_at (ll_tokens l) a text /\ word_like text /\ tags <> []
           /\ ((dict (u_lower text) = Some tags) \/ (dict (u_lower text) = None /\ tags = [noun])).
Proof. exact thm_C77_parts_of_speech. Qed.
Theorem C77_documented_refuted :
  exists (UC : Unicode), SegmenterLaws /\ CharLaws /\ TableLaws /\
  forall s, s = of_string "v2" \/ s = of_string "don" ++ [8217%N] ++ of_string "t" ->
    exists c l l', In c s /\ u_alphabetic c = true /\ u_words s = [s]
    /\ create_line_from_string tg64 s = Ok l /\ map token (ll_tokens l) = [LText s SYMB]
    /\ run 1 l (pos_go (fun _ => None) 8%N) = Ok l' /\ query l' TPos = Ok [].
Proof. exact thm_C77_documented_refuted. Qed.
Theorem C77_compounds_refuted :
  exists (UC : Unicode), SegmenterLaws /\ CharLaws /\ TableLaws /\
  forall s, s = of_string "peoples'" \/ s = of_string "baseball-card" ->
    word_like s /\ exists l, create_line_from_string tg64 s = Ok l /\ forall tok, In tok (ll_tokens l) -> ltext (token tok) <> s.
Proof. exact thm_C77_compounds_refuted. Qed.
Theorem C05_each_token_refuted :
  exists (UC : Unicode), SegmenterLaws /\ CharLaws /\ TableLaws /\
  exists sz input l lg, Forall wf_input input /\ create_line_from_input_tokens tg64 input sz = Ok l
    /\ History l lg /\ length (ll_tokens l) = 1 /\ values_on TTextTag (0, 0) lg = [].
Proof. exact thm_C05_each_token_refuted. Qed.
(** "don't pay 7_" with a dictionary that has nothing for one of the words. *)
Definition in77 : list InputToken := [InText (of_string "Don't pay 7_ v2") []; InCustom 1%N []].
Definition line77 : LLLine := Eval vm_compute in get_line (create_line_from_input_tokens tg64 in77 len68).
Definition dict77 (s : str) : option (list N) := if str_eqb s (of_string "don't") then Some [1%N; 2%N] else None.
Example C77_case :
  TableLaws /\ CharLaws /\ Forall wf_input in77 /\ none_of TTextTag in77 /\ none_of TPos in77
  /\ create_line_from_input_tokens tg64 in77 len68 = Ok line77
  /\ map token (ll_tokens line77) = [LText (of_string "Don't") WORD; LText (of_string " ") SPACE; LText (of_string "pay") WORD;
       LText (of_string " ") SPACE; LText (of_string "7") NATN; LText (of_string "_") PUNC; LText (of_string " ") SPACE; LText (of_string "v2") SYMB; LValue]
  /\ exists l', run 1 line77 (pos_go dict77 8%N) = Ok l'
     /\ query l' TPos = Ok [((0, 0), of_string "Don't", [1%N; 2%N]); ((2, 2), of_string "pay", [8%N])].
Proof.
  split; [exact latin_table_laws|]. split; [exact latin_tables|]. split; [wf_inputs|].
  split; [intros it a [<-|[<-|[]]] []|]. split; [intros it a [<-|[<-|[]]] []|]. split; [fact|]. split; [vm_compute; reflexivity|].
  eexists. split; vm_compute; reflexivity.
Qed.
