(** Specification vocabulary for what a user sees after running the library's
    resolvers on a new line: in terms of the tokens and of query answers only. *)

From Verif Require Export SpecPipe.

Section SpecEnd.
Context {UC : Unicode} {U : UserTypes}.
Context (toks : list LLToken).

(** Token [i] is a text token with this text, or with this tag. *)
Definition text_at (i : nat) (text : str) : Prop :=
  exists tok tag, nth_error toks i = Some tok /\ token tok = LText text tag.
Definition tag_at (i : nat) (tag : TextTag) : Prop :=
  exists tok text, nth_error toks i = Some tok /\ token tok = LText text tag.

(** A number; one of the characters [cs]. *)
Definition number_at (i : nat) : Prop := tag_at i NATN.
Definition char_at (cs : list char) (i : nat) : Prop := exists c, text_at i [c] /\ In c cs.

(** ** Amounts *)

Section Amounts.
Context (r : AmountResolver).

(** Digit groups are kept, delimiters are dropped, the decimal sign is a point. *)
Definition spelling (tok : LLToken) : str :=
  match token tok with
  | LText text NATN => text
  | LText [c] _ => if existsb (N.eqb c) (delimiters r) then [] else if N.eqb c (decimal r) then point else []
  | _ => []
  end.
Definition spelled (s e : nat) : str :=
  flat_map (fun i => match nth_error toks i with Some tok => spelling tok | None => [] end) (seq s (S e - s)).

(** The decimal sign after token [e], if not used as a delimiter and not followed by a number. *)
Definition dangling_point (e : nat) : Prop :=
  char_at [decimal r] (e + 1) /\ ~ char_at (delimiters r) (e + 1) /\ ~ number_at (e + 2).

(** Delimiters and decimal sign are not digits. *)
Definition signs : list char := decimal r :: delimiters r.
Definition no_digit_signs : Prop := Forall (fun c => decimal_digit c = false) signs.
End Amounts.

(** ** Clauses *)

Section Clauses.
Context (r : ClauseKeywordResolver).

Definition keyword_at (i : nat) (k : ClauseKeyword) : Prop := exists text, text_at i text /\ classified r text k.
Definition separates (i : nat) : Prop := (exists k, keyword_at i k) \/ tag_at i PUNC.

(** The tokens from [lo] to [hi] are a longest stretch without separators. *)
Definition stretch (lo hi : nat) : Prop :=
  lo <= hi < length toks /\ (forall i, lo <= i <= hi -> ~ separates i)
  /\ (lo = 0 \/ separates (lo - 1)) /\ (hi + 1 = length toks \/ separates (hi + 1)).

(** The tokens from [a] to [b] are left of those from [lo] to [hi] without a space at either end. *)
Definition without_end_spaces (lo hi a b : nat) : Prop :=
  a <= b
  /\ ((tag_at lo SPACE /\ a = lo + 1) \/ (~ tag_at lo SPACE /\ a = lo))
  /\ ((tag_at hi SPACE /\ b + 1 = hi) \/ (~ tag_at hi SPACE /\ b = hi)).

(** ... a longest stretch, and there is no other. *)
Definition only_stretch (lo hi : nat) : Prop :=
  stretch lo hi /\ forall i, i < length toks -> ~ separates i -> lo <= i <= hi.

Definition follows (lo : nat) (k : ClauseKeyword) : Prop := 0 < lo /\ keyword_at (lo - 1) k.

(** A condition was reported before token [a]. *)
Definition condition_before (rows : list (LRange * str * list Clause)) (a : nat) : Prop :=
  exists x, In x rows /\ snd (fst (fst x)) < a /\ In Condition (snd x).
End Clauses.

(** Rows of a query in the order of the line, not overlapping. *)
Definition in_order {V} (rows : list (LRange * str * list V)) : Prop :=
  StronglySorted (fun x y => snd (fst (fst x)) < fst (fst (fst y))) rows.

(** One row for every text token whose text and tag [f] gives values to. *)
Definition rows_by {V} (f : str -> TextTag -> list V) : list (LRange * str * list V) :=
  filter_map (fun '(i, tok) =>
      match token tok with
      | LText text tag => match f text tag with [] => None | vs => Some ((i, i), text, vs) end
      | LValue => None
      end) (enumerate_from 0 toks).

(** The keywords for a text: none or one. *)
Definition keywords_for (r : ClauseKeywordResolver) (text : str) (ks : list ClauseKeyword) : Prop :=
  (exists k, ks = [k] /\ classified r text k) \/ (ks = [] /\ forall k, ~ classified r text k).

End SpecEnd.
