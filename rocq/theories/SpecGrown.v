(** Specification vocabulary for lines that grow by runs of the library's resolvers and of
    resolvers that finish only selections made from the one they are given (C80). *)

From Verif Require Export SpecPipe SpecSel.

Section SpecGrown.
Context {UC : Unicode} {U : UserTypes}.

(** A new line, or a line after a run that returned. *)
Inductive grown : LLLine -> Prop :=
| Gr_create tg sz input l : Forall wf_input input -> create_line_from_input_tokens tg input sz = Ok l -> grown l
| Gr_library l id s l' : grown l -> run_step id l s = Ok l' -> grown l'
| Gr_resolver l t id (r : Resolver t) l' : grown l -> (ll_tokens l <> [] -> well_behaved id l r) -> run id l r = Ok l' -> grown l'.

(** The resolver of a step is well behaved on this line. *)
Definition behaves (id : N) (l : LLLine) (s : step) : Prop :=
  match s with
  | RunTextMatch t m => well_behaved id l (text_match_go m)
  | RunClauseKeyword r => well_behaved id l (clause_keyword_go r)
  | RunClause => well_behaved id l clause_go
  | RunPOSTag dict noun => well_behaved id l (pos_go dict noun)
  | RunAmount parse r => well_behaved id l (amount_go parse r)
  end.

(** What can be asked of a line is answered: queries with rows of the line, the display, [find]. *)
Definition answers (l : LLLine) : Prop :=
  (forall t, exists rows, query l t = Ok rows
     /\ NoDup (map (fun row => fst (fst row)) rows)
     /\ forall s e text vs, In ((s, e), text, vs) rows ->
          s <= e < length (ll_tokens l) /\ text = text_between (ll_tokens l) s e /\ vs <> [])
  /\ (forall tg incs, exists text, show tg l incs = Ok text)
  /\ (forall A (m : matcher A), lib_matcher any_ty false A m -> exists fs, find l m = Ok fs).

End SpecGrown.
