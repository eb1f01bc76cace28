(** The clauses of a line by one pass over its tokens from left to right (C81). *)

From Verif Require Export SpecSeam.

(** What the clause resolver sees of a token: a clause keyword, other punctuation,
    white space, or anything else. *)
Inductive Mark := MKey (k : ClauseKeyword) | MStop | MBlank | MOther.

Section Marks.
Context {UC : Unicode} {U : UserTypes}.

Definition marked (r : ClauseKeywordResolver) (tok : LLToken) (m : Mark) : Prop :=
  match token tok with
  | LText text tag =>
    match m with
    | MKey k => classified r text k
    | MStop => (forall k, ~ classified r text k) /\ tag = PUNC
    | MBlank => (forall k, ~ classified r text k) /\ tag = SPACE
    | MOther => (forall k, ~ classified r text k) /\ tag <> PUNC /\ tag <> SPACE
    end
  | LValue => m = MOther
  end.

(** The row the query answers for a clause. *)
Definition clause_row (toks : list LLToken) (x : LRange * Clause) : LRange * str * list Clause :=
  (fst x, text_between toks (fst (fst x)) (snd (fst x)), [snd x]).

End Marks.

(** A stretch: the keyword right before it, its first token, its marks. *)
Definition Stretch : Type := option ClauseKeyword * nat * list Mark.

Definition closed (before : option ClauseKeyword) (i : nat) (body : list Mark) : list Stretch :=
  match body with [] => [] | _ => [(before, i, body)] end.

(** [body] are the marks since the last separator; they begin at token [i]. *)
Fixpoint cut (before : option ClauseKeyword) (i : nat) (body : list Mark) (ms : list Mark) : list Stretch :=
  match ms with
  | [] => closed before i body
  | MKey k :: ms => closed before i body ++ cut (Some k) (S (i + length body)) [] ms
  | MStop :: ms => closed before i body ++ cut None (S (i + length body)) [] ms
  | m :: ms => cut before i (body ++ [m]) ms
  end.

(** A white space token at either end is left out; nothing may be left. *)
Definition blank (m : Mark) : nat := match m with MBlank => 1 | _ => 0 end.
Definition inner (x : Stretch) : option LRange :=
  let '(_, i, body) := x in
  let a := i + blank (hd MOther body) in
  let e := i + length body - blank (last body MOther) in
  if a <? e then Some (a, e - 1) else None.

(** The kinds, from the keyword before and from whether a condition came [earlier]. *)
Definition kind_after (sole earlier : bool) (before : option ClauseKeyword) : Clause :=
  match before with
  | Some KConditionStart => Condition
  | Some KThen => if sole then Independent else TrailingEffect
  | _ => if sole then Independent else if earlier then TrailingEffect else LeadingEffect
  end.
Definition starts_condition (before : option ClauseKeyword) : bool :=
  match before with Some KConditionStart => true | _ => false end.
Fixpoint kinded (sole earlier : bool) (xs : list Stretch) : list (LRange * Clause) :=
  match xs with
  | [] => []
  | x :: xs =>
    match inner x with
    | Some rg => (rg, kind_after sole earlier (fst (fst x))) :: kinded sole (earlier || starts_condition (fst (fst x))) xs
    | None => kinded sole earlier xs
    end
  end.

Definition scanned (ms : list Mark) : list (LRange * Clause) :=
  let xs := cut None 0 [] ms in kinded (length xs =? 1) false xs.

(** What separates, with the keyword it is. *)
Definition separator_mark (m : Mark) (before : option ClauseKeyword) : Prop :=
  match m with MKey k => before = Some k | MStop => before = None | _ => False end.

(** The left marks end with a separator, the keyword [before] if it is one, or the right ones begin with one. *)
Definition cut_at_seam (left_marks right_marks : list Mark) (before : option ClauseKeyword) : Prop :=
  (exists ms m, left_marks = ms ++ [m] /\ separator_mark m before)
  \/ (before = None /\ exists m ms o, right_marks = m :: ms /\ separator_mark m o).
