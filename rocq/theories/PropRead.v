(** Reading a display back (C69) and printed texts (C70), with concrete cases. *)

From Verif Require Export PropCross ThmDebug.

Local Open Scope string_scope.
Local Open Scope list_scope.

(** ** C69 The display can be read back *)
Theorem C69_read {UC : Unicode} {U : UserTypes} :
  forall tg1 tg2 l1 l2 lg1 lg2 (incs1 incs2 : list { t : ty & den t -> str }) s,
    History l1 lg1 -> History l2 lg2 -> proper lg1 -> proper lg2 ->
    ll_tokens l1 = ll_tokens l2 -> 0 < u_width 32%N ->
    Forall prints_plain incs1 -> Forall prints_plain incs2 ->
    show tg1 l1 incs1 = Ok s -> show tg2 l2 incs2 = Ok s ->
    rows_of incs1 lg1 = rows_of incs2 lg2.
Proof. exact thm_C69_read. Qed.
Theorem C69_query {UC : Unicode} {U : UserTypes} :
  forall tg1 tg2 l1 l2 lg1 lg2 t (dbg : den t -> str) s,
    History l1 lg1 -> History l2 lg2 -> proper lg1 -> proper lg2 ->
    ll_tokens l1 = ll_tokens l2 -> 0 < u_width 32%N ->
    (forall v, plain (dbg v)) -> (forall v w, dbg v = dbg w -> v = w) ->
    show tg1 l1 [existT _ t dbg] = Ok s -> show tg2 l2 [existT _ t dbg] = Ok s ->
    query l1 t = query l2 t
    /\ ranges_of t lg1 = ranges_of t lg2
    /\ forall r, values_on t r lg1 = values_on t r lg2.
Proof. exact thm_C69_query. Qed.
Theorem C69_any_text_refuted :
  exists (UC : Unicode) tg l1 l2 lg1 lg2 (dbg : den TStr -> str) s,
    History l1 lg1 /\ History l2 lg2 /\ proper lg1 /\ proper lg2
    /\ ll_tokens l1 = ll_tokens l2 /\ 0 < u_width 32%N /\ (forall v w, dbg v = dbg w -> v = w)
    /\ show tg l1 [existT _ TStr dbg] = Ok s /\ show tg l2 [existT _ TStr dbg] = Ok s
    /\ rows_of [existT _ TStr dbg] lg1 <> rows_of [existT _ TStr dbg] lg2.
Proof. exact thm_C69_any_text_refuted. Qed.
(** The keywords and a number on one line, the keywords and texts on the other: the displays of
    the keywords agree, those of all three types do not. *)
Definition xs69n : list (LRange * den TAmount) := [((11, 15), mkDecimal 100050 2); ((13, 13), mkDecimal 0 0)].
Definition xs69s : list (LRange * den TClause) := [((0, 4), Condition); ((7, 15), TrailingEffect); ((7, 15), Independent)].
Definition line69n : LLLine := Eval vm_compute in get_line (run 6 line5 (assign (t := TAmount) xs69n)).
Definition line69s : LLLine := Eval vm_compute in get_line (run 6 line5 (assign (t := TClause) xs69s)).
Definition lg69n : list entry := Eval vm_compute in lg5 ++ map (fun '(r, v) => (r, mkany TAmount v)) xs69n.
Definition lg69s : list entry := Eval vm_compute in lg5 ++ map (fun '(r, v) => (r, mkany TClause v)) xs69s.
Lemma history69n : History line69n lg69n.
Proof. exact (history_assign line5 lg5 6 xs69n history5 ltac:(discriminate) ltac:(fact)). Qed.
Lemma history69s : History line69s lg69s.
Proof. exact (history_assign line5 lg5 6 xs69s history5 ltac:(discriminate) ltac:(fact)). Qed.
Definition keywords69 : list { t : ty & den t -> str } := [existT (fun t => den t -> str) TKeyword dbg_keyword].
Example C69_case :
  History line69n lg69n /\ History line69s lg69s /\ proper lg69n /\ proper lg69s
  /\ ll_tokens line69n = ll_tokens line69s /\ 0 < u_width 32%N
  /\ Forall prints_plain keywords69 /\ Forall prints_plain library_types
  /\ (forall v, plain (dbg_keyword v)) /\ (forall v w, dbg_keyword v = dbg_keyword w -> v = w)
  /\ show tg64 line69n keywords69 = show tg64 line69s keywords69
  /\ rmap ascii_underlines (show tg64 line69n keywords69) = Ok (lines_of
      ["If     it     rains  ,     then     pay     1  ,  000  .  50";
       "()ConditionStart";
       "                           (--)Then"])
  /\ show tg64 line69n library_types <> show tg64 line69s library_types
  /\ rows_of keywords69 lg69n
     = [((0, 0), of_string "ConditionStart"); ((7, 7), of_string "Then")]
  /\ rows_of keywords69 lg69n = rows_of keywords69 lg69s.
Proof.
  split; [exact history69n|]. split; [exact history69s|]. split; [apply properb; fact|]. split; [apply properb; fact|].
  split; [fact|]. split; [apply Nat.ltb_lt; fact|].
  split; [apply Forall_forall; intros x [<-|[]]; pose proof thm_C70_plain as F; rewrite Forall_forall in F; apply F; cbn; auto|].
  split; [exact thm_C70_plain|].
  split; [intros v; pose proof thm_C70_plain as F; rewrite Forall_forall in F;
          exact (F (existT (fun t => den t -> str) TKeyword dbg_keyword) (or_intror (or_intror (or_introl eq_refl))) v)|].
  split; [intros [] []; cbn; congruence|].
  split; [fact|]. split; [fact|]. split; [vm_compute; discriminate|]. split; fact.
Qed.

(** ** C70 Printed texts tell values apart *)
Theorem C70_number {UC : Unicode} {U : UserTypes} :
  forall n, number_of (dbg_N n) = n /\ Forall digit (dbg_N n) /\ dbg_N n <> [].
Proof. exact thm_C70_number. Qed.
Theorem C70_plain {UC : Unicode} {U : UserTypes} :
  Forall prints_plain library_types.
Proof. exact thm_C70_plain. Qed.
Theorem C70_apart {UC : Unicode} {U : UserTypes} :
  forall x y (v : den (projT1 x)) (w : den (projT1 y)),
    In x library_types -> In y library_types ->
    projT2 x v = projT2 y w -> existT den (projT1 x) v = existT den (projT1 y) w.
Proof. exact thm_C70_apart. Qed.
Theorem C70_display {UC : Unicode} {U : UserTypes} :
  forall tg1 tg2 l1 l2 lg1 lg2 incs,
    History l1 lg1 -> History l2 lg2 -> proper lg1 -> proper lg2 ->
    ll_tokens l1 = ll_tokens l2 -> 0 < u_width 32%N ->
    incl incs library_types -> NoDup (map (@projT1 _ _) incs) ->
    (show tg1 l1 incs = show tg2 l2 incs <-> forall x, In x incs -> query l1 (projT1 x) = query l2 (projT1 x)).
Proof. exact thm_C70_display. Qed.
Theorem C70_selection {UC : Unicode} {U : UserTypes} :
  forall a b, dbg_selection a = dbg_selection b <-> start_idx a = start_idx b /\ end_idx a = end_idx b.
Proof. exact thm_C70_selection. Qed.
Theorem C70_selection_eq {UC : Unicode} {U : UserTypes} :
  forall a b, rc_id (sel_line a) = rc_id (sel_line b) ->
    (dbg_selection a = dbg_selection b <-> sel_eqb a b = true).
Proof. exact thm_C70_selection_eq. Qed.
Theorem C70_find {UC : Unicode} {U : UserTypes} :
  forall A (da : A -> str), tells_apart da -> tells_apart (dbg_find da).
Proof. exact thm_C70_find. Qed.
Theorem C70_assignment {UC : Unicode} {U : UserTypes} :
  forall t (dv : den t -> str), tells_apart dv -> tells_apart (dbg_assignment dv).
Proof. exact thm_C70_assignment. Qed.
Theorem C70_any_of {UC : Unicode} {U : UserTypes} :
  forall A B C (da : A -> str) (db : B -> str) (dc : C -> str),
    tells_apart da -> tells_apart db -> tells_apart dc ->
    tells_apart (dbg_any_of2 da db) /\ tells_apart (dbg_any_of3 da db dc).
Proof. exact thm_C70_any_of. Qed.
Theorem C70_layout {UC : Unicode} {U : UserTypes} :
  (forall s, dbg_selection s
     = as_struct "LLSelection" [("start_idx", dbg_N (N.of_nat (start_idx s))); ("end_idx", dbg_N (N.of_nat (end_idx s)))])
  /\ (forall A (da : A -> str) f, dbg_find da f
     = as_struct "LLLineFind" [("start", dbg_N (start_pos_at f)); ("end", dbg_N (end_pos_at f)); ("found", da (found f))])
  /\ (forall t (dv : den t -> str) x, dbg_assignment dv x
     = as_struct "LLCursorAssignment" [("start_idx", dbg_N (N.of_nat (as_start x)));
                                       ("end_idx", dbg_N (N.of_nat (as_end x))); ("value", dv (as_value x))])
  /\ (forall a, dbg_any_attribute a = literal "AnyAttribute")
  /\ (forall A B (da : A -> str) (db : B -> str),
     (forall a, dbg_any_of2 da db (A2_A a) = as_tuple "A" [da a])
     /\ (forall b, dbg_any_of2 da db (A2_B b) = as_tuple "B" [db b]))
  /\ (forall A B C (da : A -> str) (db : B -> str) (dc : C -> str),
     (forall a, dbg_any_of3 da db dc (A3_A a) = as_tuple "A" [da a])
     /\ (forall b, dbg_any_of3 da db dc (A3_B b) = as_tuple "B" [db b])
     /\ (forall c, dbg_any_of3 da db dc (A3_C c) = as_tuple "C" [dc c]))
  /\ (forall d, dbg_amount d = as_tuple "Amount" [dbg_decimal d])
  /\ map dbg_text_tag [NATN; PUNC; SYMB; SPACE; WORD] = map literal ["NATN"; "PUNC"; "SYMB"; "SPACE"; "WORD"]
  /\ map dbg_keyword [KConditionStart; KThen; KAnd] = map literal ["ConditionStart"; "Then"; "And"]
  /\ map dbg_clause [LeadingEffect; TrailingEffect; Condition; Independent]
     = map literal ["LeadingEffect"; "TrailingEffect"; "Condition"; "Independent"].
Proof. exact thm_C70_layout. Qed.
Theorem C70_decimal {UC : Unicode} {U : UserTypes} :
  forall d, exists whole frac,
    dbg_decimal d = (if (dec_coeff d <? 0)%Z then literal "-" else []) ++ whole
                    ++ (match frac with [] => [] | _ => literal "." ++ frac end)
    /\ length frac = dec_scale d /\ Forall digit (whole ++ frac) /\ number_of (whole ++ frac) = Z.abs_N (dec_coeff d)
    /\ whole <> [] /\ forall rest, whole = 48%N :: rest -> rest = [].
Proof. exact thm_C70_decimal. Qed.
Example C70_case :
  dbg_N 0 = of_string "0" /\ dbg_N 10203 = of_string "10203"
  /\ dbg_amount (mkDecimal 100050 2) = of_string "Amount(1000.50)"
  /\ dbg_amount (mkDecimal (-5) 3) = of_string "Amount(-0.005)"
  /\ dbg_amount (mkDecimal 15 1) <> dbg_amount (mkDecimal 150 2)
  /\ dbg_selection (mkSel (mkRc 3 line1) 2 14) = of_string "LLSelection { start_idx: 2, end_idx: 14 }"
  /\ dbg_find dbg_keyword (mkFind 14 18 KThen)%N = of_string "LLLineFind { start: 14, end: 18, found: Then }"
  /\ dbg_assignment (t := TClause) dbg_clause (mkAssign (t := TClause) 0 4 Condition)
     = of_string "LLCursorAssignment { start_idx: 0, end_idx: 4, value: Condition }"
  /\ dbg_any_of2 dbg_keyword dbg_text_tag (A2_B PUNC) = of_string "B(PUNC)"
  /\ dbg_any_of3 dbg_keyword dbg_text_tag dbg_clause (A3_C Condition) = of_string "C(Condition)"
  /\ tells_apart dbg_keyword /\ tells_apart dbg_clause
  /\ incl library_types library_types /\ NoDup (map (@projT1 _ _) library_types)
  /\ rmap ascii_underlines (show tg64 line69s (tl library_types)) = Ok (lines_of
      ["If     it     rains  ,     then     pay     1  ,  000  .  50";
       "()ConditionStart";
       "                           (--)Then";
       "(-----------------)Condition";
       "                           (-------------------------------)Independent";
       "                           (-------------------------------)TrailingEffect"])
  /\ rmap ascii_underlines (show tg64 line69n (tl library_types)) = Ok (lines_of
      ["If     it     rains  ,     then     pay     1  ,  000  .  50";
       "                                            (--------------)Amount(1000.50)";
       "                                                  (-)Amount(0)";
       "()ConditionStart";
       "                           (--)Then"])
  /\ query line69s TClause <> query line69n TClause
  /\ query line69s TKeyword = query line69n TKeyword.
Proof.
  do 4 (split; [fact|]). split; [vm_compute; discriminate|]. do 5 (split; [fact|]).
  split; [intros [] []; cbn; congruence|]. split; [intros [] []; cbn; congruence|].
  split; [intros x Hx; exact Hx|].
  split; [cbn; repeat constructor; cbn; intuition discriminate|].
  split; [fact|]. split; [fact|]. split; [vm_compute; discriminate|fact].
Qed.
