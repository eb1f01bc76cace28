(** Specification vocabulary, independent of the library's data structures.

    The specification of a line is its sequence of tokens together with a log:
    the list, in order, of all (token range, value) pairs assigned so far. *)

From Verif Require Export ModelLine.

(** One assignment of a value of some type to a token range. *)
Notation entry := (prod LRange any).

Section Spec.
Context {U : UserTypes}.

(** The assignments of type [t], in order. ([downcast t a = Some v] iff [a] is
    the value [v] of type [t], see [downcast_spec].) *)
Definition assigned (t : ty) (lg : list entry) : list (LRange * den t) :=
  filter_map (fun '(r, a) => option_map (fun v => (r, v)) (downcast t a)) lg.

(** The values of type [t] assigned to range [r], in order. *)
Definition values_on (t : ty) (r : LRange) (lg : list entry) : list (den t) :=
  filter_map (fun '(r', v) => if range_eqb r' r then Some v else None) (assigned t lg).

(** Each range once, in the order of first occurrence. *)
Fixpoint firsts (l : list LRange) : list LRange :=
  match l with
  | [] => []
  | r :: l' => r :: filter (fun r' => negb (range_eqb r' r)) (firsts l')
  end.

(** The ranges that carry a value of type [t], by first assignment. *)
Definition ranges_of (t : ty) (lg : list entry) : list LRange :=
  firsts (map fst (assigned t lg)).

(** The text of the tokens from index [s] to index [e], inclusive. *)
Definition text_between (toks : list LLToken) (s e : nat) : str :=
  flat_map (fun i => match nth_error toks i with Some tok => token_str tok | None => [] end)
           (seq s (S e - s)).

(** What [query::<T>] should answer. *)
Definition query_spec (toks : list LLToken) (t : ty) (lg : list entry)
  : list (LRange * str * list (den t)) :=
  map (fun r => (r, text_between toks (fst r) (snd r), values_on t r lg)) (ranges_of t lg).

(** All entries are on tokens of a line of [n] tokens. *)
Definition in_line (n : nat) (lg : list entry) : Prop :=
  Forall (fun e => fst (fst e) < n /\ snd (fst e) < n) lg.

(** Ranges are not reversed.  The range (i+1, i) is not excluded: see
    [LLSelection::after]. *)
Definition ordered (lg : list entry) : Prop :=
  Forall (fun e => fst (fst e) <= S (snd (fst e))) lg.

(** The log entry of an assignment made by a resolver. *)
Definition assignment_entry {t : ty} (x : LLCursorAssignment t) : entry :=
  ((as_start x, as_end x), mkany t (as_value x)).

End Spec.
