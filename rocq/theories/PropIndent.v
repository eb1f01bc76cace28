(** The indented form of printed values (C87), with concrete cases. *)

From Verif Require Export PropPrint ThmIndent.

Local Open Scope string_scope.
Local Open Scope list_scope.

(** ** C87 Printed on several lines *)
Theorem C87_layouts {UC : Unicode} {U : UserTypes} :
  forall tb,
    laid_out (form_ltoken tb) (dbg_ltoken tb) (pretty_ltoken tb)
    /\ laid_out (form_lltoken tb) (dbg_lltoken tb) (pretty_lltoken tb)
    /\ laid_out form_amount dbg_amount pretty_amount
    /\ laid_out form_selection dbg_selection pretty_selection
    /\ laid_out (fun _ => Fields "AnyAttribute" []) dbg_any_attribute pretty_any_attribute.
Proof. exact thm_C87_layouts. Qed.
Theorem C87_inside {UC : Unicode} {U : UserTypes} :
  forall A B C t (fa : A -> form) (fb : B -> form) (fc : C -> form) (fv : den t -> form) da pa db pb dc pc dv pv,
    laid_out fa da pa -> laid_out fb db pb -> laid_out fc dc pc -> laid_out fv dv pv ->
    laid_out (form_find fa) (dbg_find da) (pretty_find pa)
    /\ laid_out (form_assignment fv) (dbg_assignment dv) (pretty_assignment pv)
    /\ laid_out (form_any_of2 fa fb) (dbg_any_of2 da db) (pretty_any_of2 pa pb)
    /\ laid_out (form_any_of3 fa fb fc) (dbg_any_of3 da db dc) (pretty_any_of3 pa pb pc)
    /\ laid_out (fun l => Items (map fa l)) (dbg_slice da) (pretty_slice pa).
Proof. exact thm_C87_inside. Qed.
Theorem C87_token_lines {UC : Unicode} {U : UserTypes} :
  forall tb i s e,
    (forall text tag, on_lines (form_lltoken tb (mkLLToken i s e (LText text tag)))
       = [(0, literal "LLToken {"); (1, literal "token_idx: " ++ dbg_N (N.of_nat i) ++ literal ",");
          (1, literal "pos_starts_at: " ++ dbg_N s ++ literal ","); (1, literal "pos_ends_at: " ++ dbg_N e ++ literal ",");
          (1, literal "token: Text("); (2, dbg_str tb text ++ literal ","); (2, dbg_text_tag tag ++ literal ",");
          (1, literal "),"); (0, literal "}")])
    /\ on_lines (form_lltoken tb (mkLLToken i s e LValue))
       = [(0, literal "LLToken {"); (1, literal "token_idx: " ++ dbg_N (N.of_nat i) ++ literal ",");
          (1, literal "pos_starts_at: " ++ dbg_N s ++ literal ","); (1, literal "pos_ends_at: " ++ dbg_N e ++ literal ",");
          (1, literal "token: Value,"); (0, literal "}")].
Proof. exact thm_C87_token_lines. Qed.
Theorem C87_apart {UC : Unicode} {U : UserTypes} :
  forall tb, self_delimiting (pretty_ltoken tb) /\ self_delimiting (pretty_lltoken tb)
    /\ (forall A (pa : A -> str), self_delimiting pa -> self_delimiting (pretty_slice pa))
    /\ (forall A (pa : A -> str), tells_apart pa -> tells_apart (pretty_find pa))
    /\ (forall t (pv : den t -> str), tells_apart pv -> tells_apart (pretty_assignment pv))
    /\ (forall A B C (pa : A -> str) (pb : B -> str) (pc : C -> str), tells_apart pa -> tells_apart pb -> tells_apart pc ->
          tells_apart (pretty_any_of2 pa pb) /\ tells_apart (pretty_any_of3 pa pb pc)).
Proof. exact thm_C87_apart. Qed.
Theorem C87_source {UC : Unicode} {U : UserTypes} :
  forall (SL : SegmenterLaws) tb tg1 tg2 s1 s2 l1 l2,
    create_line_from_string tg1 s1 = Ok l1 -> create_line_from_string tg2 s2 = Ok l2 ->
    (pretty_slice (pretty_lltoken tb) (ll_tokens l1) = pretty_slice (pretty_lltoken tb) (ll_tokens l2)
     <-> dbg_slice (dbg_lltoken tb) (ll_tokens l1) = dbg_slice (dbg_lltoken tb) (ll_tokens l2))
    /\ (pretty_slice (pretty_lltoken tb) (ll_tokens l1) = pretty_slice (pretty_lltoken tb) (ll_tokens l2) -> s1 = s2).
Proof. exact thm_C87_source. Qed.
(** The texts of the cases, by lines. *)
Definition by_lines (ls : list string) : str :=
  match ls with [] => [] | l :: ls' => of_string l ++ flat_map (fun x => 10%N :: of_string x) ls' end.
Definition multi87 : den TStr -> str := fun s => s ++ [10; 10]%N ++ s.
Example C87_case :
  pretty_slice (pretty_lltoken tb83) (firstn 1 (ll_tokens line83) ++ [mkLLToken 2 2 7 LValue]%N)
  = by_lines
     ["[";
      "    LLToken {";
      "        token_idx: 0,";
      "        pos_starts_at: 0,";
      "        pos_ends_at: 1,";
      "        token: Text(";
      "            ""a"",";
      "            WORD,";
      "        ),";
      "    },";
      "    LLToken {";
      "        token_idx: 2,";
      "        pos_starts_at: 2,";
      "        pos_ends_at: 7,";
      "        token: Value,";
      "    },";
      "]"]
  /\ pretty_slice (pretty_lltoken tb83) [] = of_string "[]"
  /\ pretty_any_attribute (any_of TNum 7%N) = of_string "AnyAttribute"
  /\ create_line_from_string tg64 (of_string "a, 12") = Ok line83
  /\ (forall a b, dbg_str tb83 a = dbg_str tb83 b -> a = b).
Proof.
  conj; try fact. intros a b H. pose proof (dbg_str_cut tb83 a b [] []) as K. rewrite !app_nil_r in K. now apply K.
Qed.
(** A user's value whose own text has several lines, one of them empty: all are indented. *)
Example C87_inside_case :
  laid_out (fun s => Simple (multi87 s)) multi87 multi87
  /\ laid_out (fun n => Simple (dbg_N n)) dbg_N dbg_N
  /\ tells_apart dbg_N
  /\ pretty_find (pretty_any_of2 multi87 dbg_N) (mkFind 1 4 (A2_A (of_string "v")))
     = by_lines
        ["LLLineFind {";
         "    start: 1,";
         "    end: 4,";
         "    found: A(";
         "        v";
         "        ";
         "        v,";
         "    ),";
         "}"]
  /\ dbg_find (dbg_any_of2 multi87 dbg_N) (mkFind 1 4 (A2_B 5%N)) = of_string "LLLineFind { start: 1, end: 4, found: B(5) }".
Proof. conj; try fact; try apply simple_laid. intros a b. apply dbg_N_inj. Qed.
