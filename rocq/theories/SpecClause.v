(** Specification of the clauses of a line. *)

From Verif Require Export SpecRes.

Section SpecClause.
Context {UC : Unicode} {U : UserTypes}.
Context (lg : list entry).

(** Values of type [t] are on single tokens only. *)
Definition single (t : ty) : Prop := forall rg v, In (rg, v) (assigned t lg) -> fst rg = snd rg.

(** The tokens clauses are separated by: clause keywords and punctuation. *)
Definition separator (i : nat) : Prop :=
  (exists k, In k (values_on TKeyword (i, i) lg)) \/ In PUNC (values_on TTextTag (i, i) lg).
Definition space (i : nat) : Prop := In SPACE (values_on TTextTag (i, i) lg).

(** [o] is the run [p] without its first and its last token, as far as these are spaces. *)
Definition trimmed_run (p : LLSelection) (o : option LLSelection) : Prop :=
  part_of p (fun k => ~ (k = start_idx p /\ space k) /\ ~ (k = end_idx p /\ space k)) o.

(** The keyword on the token before the run (the first assigned, if several). *)
Definition keyword_before (p : LLSelection) : option ClauseKeyword :=
  match start_idx p with
  | O => None
  | S i => match values_on TKeyword (i, i) lg with k :: _ => Some k | [] => None end
  end.

Definition is_condition (c : Clause) : bool := match c with Condition => true | _ => false end.

(** The kind of a clause, from: whether there is only one run, the kinds of the
    clauses before it, and the keyword before it. *)
Definition clause_kind (only : bool) (earlier : list Clause) (kw : option ClauseKeyword) : Clause :=
  match only, kw with
  | _, Some KConditionStart => Condition
  | true, _ => Independent
  | false, Some KThen => TrailingEffect
  | false, _ => if existsb is_condition earlier then TrailingEffect else LeadingEffect
  end.

(** The runs that have something left after trimming, with what is left. *)
Definition worded (runs : list LLSelection) (ts : list (option LLSelection))
  : list (LLSelection * LLSelection) :=
  filter_map (fun '(p, o) => option_map (pair p) o) (combine runs ts).

(** [out] are the clauses of the selection [s]. *)
Record clauses_of (s : LLSelection) (runs : list LLSelection) (ts : list (option LLSelection))
    (out : list (LRange * Clause)) : Prop := {
  cl_runs : maximal_runs s separator runs;
  cl_trimmed : Forall2 trimmed_run runs ts;
  cl_ranges : map fst out = map (fun '(_, t) => (start_idx t, end_idx t)) (worded runs ts);
  cl_kinds : forall i rg c p t,
    nth_error out i = Some (rg, c) -> nth_error (worded runs ts) i = Some (p, t) ->
    c = clause_kind (Nat.eqb (length runs) 1) (map snd (firstn i out)) (keyword_before p);
}.

End SpecClause.
