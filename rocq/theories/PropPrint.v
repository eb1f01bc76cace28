(** Printed characters, texts and tokens (C83), with concrete cases. *)

From Verif Require Export PropPass ThmPrint.

Local Open Scope string_scope.
Local Open Scope list_scope.

(** ** C83 Printed tokens *)
Theorem C83_literal_once {UC : Unicode} {U : UserTypes} :
  forall quote t1 t2 cs1 cs2 r1 r2, quote <> 92%N ->
    Literal quote t1 cs1 -> Literal quote t2 cs2 -> t1 ++ r1 = t2 ++ r2 -> cs1 = cs2 /\ r1 = r2.
Proof. exact thm_C83_literal_once. Qed.
Theorem C83_literals {UC : Unicode} {U : UserTypes} :
  (forall tb c, Literal 39%N (dbg_char tb c) [c]) /\ (forall tb s, Literal 34%N (dbg_str tb s) s).
Proof. exact thm_C83_literals. Qed.
Theorem C83_escapes {UC : Unicode} {U : UserTypes} :
  forall tb,
    (forall c, exists body, printed_as tb 39%N c body /\ dbg_char tb c = [39%N] ++ body ++ [39%N])
    /\ (forall s, exists bodies, Forall2 (printed_as tb 34%N) s bodies /\ dbg_str tb s = [34%N] ++ concat bodies ++ [34%N]).
Proof. exact thm_C83_escapes. Qed.
Theorem C83_apart {UC : Unicode} {U : UserTypes} :
  forall tb, self_delimiting (dbg_char tb) /\ self_delimiting (dbg_str tb) /\ self_delimiting (dbg_ltoken tb)
    /\ self_delimiting (dbg_lltoken tb) /\ self_delimiting (dbg_slice (dbg_lltoken tb)).
Proof. exact thm_C83_apart. Qed.
Theorem C83_layout {UC : Unicode} {U : UserTypes} :
  forall tb,
    (forall text tag, dbg_ltoken tb (LText text tag) = as_tuple "Text" [dbg_str tb text; dbg_text_tag tag])
    /\ dbg_ltoken tb LValue = literal "Value"
    /\ (forall t, dbg_lltoken tb t
         = as_struct "LLToken" [("token_idx", dbg_N (N.of_nat (token_idx t))); ("pos_starts_at", dbg_N (pos_starts_at t));
                                ("pos_ends_at", dbg_N (pos_ends_at t)); ("token", dbg_ltoken tb (token t))])
    /\ (forall ts, dbg_slice (dbg_lltoken tb) ts = literal "[" ++ comma_separated (map (dbg_lltoken tb) ts) ++ literal "]").
Proof. exact thm_C83_layout. Qed.
Theorem C83_display {UC : Unicode} {U : UserTypes} :
  forall tg1 tg2 l1 l2 lg1 lg2 incs,
    History l1 lg1 -> History l2 lg2 -> proper lg1 -> proper lg2 ->
    ll_tokens l1 = ll_tokens l2 -> 0 < u_width 32%N ->
    Forall prints_plain incs -> distinguishable incs -> NoDup (map (@projT1 _ _) incs) ->
    (show tg1 l1 incs = show tg2 l2 incs <-> forall x, In x incs -> query l1 (projT1 x) = query l2 (projT1 x)).
Proof. exact thm_C83_display. Qed.
Theorem C83_types {UC : Unicode} {U : UserTypes} :
  forall tb, Forall prints_plain (char_type tb :: library_types)
    /\ distinguishable (char_type tb :: library_types)
    /\ NoDup (map (@projT1 _ _) (char_type tb :: library_types)).
Proof. exact thm_C83_types. Qed.
Theorem C83_source {UC : Unicode} {U : UserTypes} :
  forall (SL : SegmenterLaws) tb tg1 tg2 s1 s2 l1 l2,
    create_line_from_string tg1 s1 = Ok l1 -> create_line_from_string tg2 s2 = Ok l2 ->
    dbg_slice (dbg_lltoken tb) (ll_tokens l1) = dbg_slice (dbg_lltoken tb) (ll_tokens l2) -> s1 = s2.
Proof. exact thm_C83_source. Qed.
(** A table with ASCII and U+00E9 printable and the combining U+0300; a text with both quotes, a
    backslash, a line break and characters without a form of their own. *)
Definition tb83 : PrintTable :=
  mkPrintTable (fun c => ExUnicode.between 32 c 126 || N.eqb c 233 || N.eqb c 768)%N (fun c => N.eqb c 768) true.
Definition line83 : LLLine := Eval vm_compute in get_line (create_line_from_string tg64 (of_string "a, 12")).
Definition keywords83 : list { t : ty & den t -> str } := [char_type tb83; existT (fun t => den t -> str) TTextTag dbg_text_tag].
Example C83_case :
  map (dbg_char tb83) [97; 39; 34; 92; 10; 9; 0; 233; 768; 8203]%N
  = map of_string ["'a'"; "'\''"; "'""'"; "'\\'"; "'\n'"; "'\t'"; "'\0'"] ++ [[39; 233; 39]%N] ++ map of_string ["'\u{300}'"; "'\u{200b}'"]
  /\ dbg_str tb83 (of_string "it's ""x\y""" ++ [13; 8203]%N) = of_string """it's \""x\\y\""\r\u{200b}"""
  /\ HexNumber (of_string "200b") 8203%N /\ Denotes 34%N (of_string "\u{200b}") 8203%N
  /\ Literal 34%N (of_string """a\n""") [97; 10]%N /\ 34%N <> 92%N
  /\ dbg_slice (dbg_lltoken tb83) (firstn 2 (ll_tokens line83) ++ [mkLLToken 2 2 7 LValue]%N)
     = of_string "[LLToken { token_idx: 0, pos_starts_at: 0, pos_ends_at: 1, token: Text(""a"", WORD) }, LLToken { token_idx: 1, pos_starts_at: 1, pos_ends_at: 2, token: Text("","", PUNC) }, LLToken { token_idx: 2, pos_starts_at: 2, pos_ends_at: 7, token: Value }]"
  /\ dbg_slice (dbg_lltoken tb83) [] = of_string "[]"
  /\ create_line_from_string tg64 (of_string "a, 12") = Ok line83
  /\ rmap ascii_underlines (show tg64 line83 keywords83) = Ok (lines_of
      ["a  ,     12";
       "('a'";
       "   (','";
       "      (' '";
       "(WORD";
       "   (PUNC";
       "      (SPACE";
       "         ()NATN"])
  /\ Forall prints_plain keywords83 /\ distinguishable keywords83 /\ NoDup (map (@projT1 _ _) keywords83).
Proof.
  split; [fact|]. split; [fact|].
  assert (HX : HexNumber (of_string "200b") 8203%N).
  { apply (Hex_more (of_string "200") 512%N 98%N 11%N); [|reflexivity]. apply (Hex_more (of_string "20") 32%N 48%N 0%N); [|reflexivity].
    apply (Hex_more (of_string "2") 2%N 48%N 0%N); [|reflexivity]. now apply Hex_one. }
  split; [exact HX|]. split; [exact (Den_unicode 34%N _ _ HX)|].
  split; [exists [[97]; [92; 110]]%N; split; [|fact]; constructor; [now apply Den_itself|constructor; [apply Den_short; cbn; tauto|constructor]]|].
  split; [discriminate|]. do 4 (split; [fact|]).
  destruct (thm_C83_types tb83) as (HA & HB & HC).
  split; [apply Forall_forall; intros x Hx; rewrite Forall_forall in HA; apply HA; destruct Hx as [<-|[<-|[]]]; cbn; auto|].
  split.
  - intros x y v w Hx Hy. apply HB; [destruct Hx as [<-|[<-|[]]]|destruct Hy as [<-|[<-|[]]]]; cbn; auto.
  - cbn. repeat constructor; cbn; intuition discriminate.
Qed.
