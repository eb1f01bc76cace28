(** Specification vocabulary for resolver runs on joined inputs (C73, C74). *)

From Verif Require Export SpecEnd SpecJoin.

Section SpecSeam.
Context {UC : Unicode} {U : UserTypes}.

(** A text token that is neither a number nor a sign of the amount format. *)
Definition quiet (r : AmountResolver) (tok : LLToken) : Prop :=
  exists text tag, token tok = LText text tag /\ tag <> NATN /\ forall c, text = [c] -> ~ In c (signs r).

(** Such a token ends the left line or begins the right one. *)
Definition quiet_seam (r : AmountResolver) (left_tokens right_tokens : list LLToken) : Prop :=
  (exists before tok, left_tokens = before ++ [tok] /\ quiet r tok)
  \/ (exists tok after, right_tokens = tok :: after /\ quiet r tok).

(** A step that does not look across the seam: not the clause resolver, amounts only
    with a quiet seam, and no step that changes text tags or chars. *)
Definition keeps_apart (l1 l2 : LLLine) (s : N * step) : Prop :=
  match snd s with
  | RunTextMatch t _ => t <> TTextTag /\ t <> TChar
  | RunAmount _ r => quiet_seam r (ll_tokens l1) (ll_tokens l2)
  | RunClause => False
  | _ => True
  end.

(** The whole answers every query with the answers of the parts side by side. *)
Definition answers_side_by_side (l l1 l2 : LLLine) : Prop :=
  forall t, exists q q1 q2, query l t = Ok q /\ query l1 t = Ok q1 /\ query l2 t = Ok q2
    /\ Permutation q (q1 ++ map (moved_row (length (ll_tokens l1))) q2).

(** ** Clauses *)

(** A clause keyword or punctuation ends the left line or begins the right one. *)
Definition separated_seam (r : ClauseKeywordResolver) (left_tokens right_tokens : list LLToken) : Prop :=
  (left_tokens <> [] /\ separates left_tokens r (length left_tokens - 1)) \/ separates right_tokens r 0.

(** What the two clause resolvers report on a line. *)
Definition clauses_reported (id id' : N) (r : ClauseKeywordResolver) (l : LLLine) (rows : list (LRange * str * list Clause)) : Prop :=
  exists l' l'', run id l (clause_keyword_go r) = Ok l' /\ run id' l' clause_go = Ok l'' /\ query l'' TClause = Ok rows.

End SpecSeam.
