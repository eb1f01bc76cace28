(** Pipelines of the library's own resolvers. *)

From Verif Require Export SpecClause SpecAmount.

Section SpecPipe.
Context {UC : Unicode} {U : UserTypes}.

(** One call of [LLLine::run] with a resolver of the library. *)
Inductive step : Type :=
| RunTextMatch (t : ty) (m : TextMatch t)
| RunClauseKeyword (r : ClauseKeywordResolver)
| RunClause
| RunPOSTag (dict : str -> option (list N)) (noun : N)
| RunAmount (parse : str -> option Decimal) (r : AmountResolver).

Definition run_step (id : N) (l : LLLine) (s : step) : res LLLine :=
  match s with
  | RunTextMatch t m => run id l (text_match_go m)
  | RunClauseKeyword r => run id l (clause_keyword_go r)
  | RunClause => run id l clause_go
  | RunPOSTag dict noun => run id l (pos_go dict noun)
  | RunAmount parse r => run id l (amount_go parse r)
  end.

(** A line after a list of steps (each with the identity of its [Rc]). *)
Inductive after_steps : LLLine -> list (N * step) -> LLLine -> Prop :=
| AS_done l : after_steps l [] l
| AS_step id s ss l l' l'' : run_step id l s = Ok l' -> after_steps l' ss l'' -> after_steps l ((id, s) :: ss) l''.

Definition no_amounts (s : N * step) : Prop := match snd s with RunAmount _ _ => False | _ => True end.

(** The parser accepts plain decimal texts, and no text tags are assigned. *)
Definition decent (s : N * step) : Prop :=
  match snd s with
  | RunAmount parse _ => forall text, decimal_text text -> parse text <> None
  | RunTextMatch t _ => t <> TTextTag
  | _ => True
  end.

Definition is_text (it : InputToken) : Prop := match it with InText _ _ => True | InCustom _ _ => False end.

End SpecPipe.
