(** The amounts of a line by one pass over its tokens from left to right (C82). *)

From Verif Require Export SpecSeam.

(** What the amount resolver sees of a token: a number, a delimiter, the decimal sign, anything
    else, or a value token without attributes of its own. *)
Inductive NMark := NNumber (text : str) | NDelimiter | NPoint | NOther | NBare.

Section Marks.
Context {UC : Unicode} {U : UserTypes}.

(** No query reports anything for token [i] alone. *)
Definition bare (l : LLLine) (i : nat) : Prop :=
  forall t rows x, query l t = Ok rows -> In x rows -> fst (fst x) <> (i, i).

Definition number_mark (l : LLLine) (r : AmountResolver) (i : nat) (m : NMark) (tok : LLToken) : Prop :=
  match token tok with
  | LText text tag =>
    match m with
    | NNumber t => tag = NATN /\ t = text
    | NDelimiter => tag <> NATN /\ exists c, text = [c] /\ In c (delimiters r)
    | NPoint => tag <> NATN /\ text = [decimal r] /\ ~ In (decimal r) (delimiters r)
    | NOther => tag <> NATN /\ forall c, text = [c] -> ~ In c (signs r)
    | NBare => False
    end
  | LValue => match m with NBare => bare l i | NOther => ~ bare l i | _ => False end
  end.
Definition number_marks (l : LLLine) (r : AmountResolver) (ms : list NMark) : Prop :=
  length ms = length (ll_tokens l)
  /\ forall i m tok, nth_error ms i = Some m -> nth_error (ll_tokens l) i = Some tok -> number_mark l r i m tok.

(** The row the query answers for an amount. *)
Definition amount_row (toks : list LLToken) (x : LRange * Decimal) : LRange * str * list Decimal :=
  (fst x, text_between toks (fst (fst x)) (snd (fst x)), [snd x]).

End Marks.

(** What is being read: nothing; digit groups from token [s] to token [e], spelling [text];
    the same with a delimiter after it; with a decimal sign after it. *)
Inductive Reading :=
| Idle
| Digits (s e : nat) (text : str)
| Delimited (s e : nat) (text : str)
| Pointed (s e : nat) (text : str).

(** Token [i] is next. What is done with is given with the text to be parsed. *)
Definition read (st : Reading) (i : nat) (m : NMark) : option (list (LRange * str) * Reading) :=
  match st, m with
  | Idle, NNumber t => Some ([], Digits i i t)
  | Idle, _ => Some ([], Idle)
  | Digits s e text, NNumber t => Some ([((s, i), text ++ t)], Idle)
  | Digits s e text, NDelimiter => Some ([], Delimited s e text)
  | Digits s e text, NPoint => Some ([], Pointed s e text)
  | Digits s e text, NOther => Some ([((s, e), text)], Idle)
  | Digits s e text, NBare => None
  | Delimited s e text, NNumber t => Some ([], Digits s i (text ++ t))
  | Delimited s e text, _ => Some ([((s, e), text)], Idle)
  | Pointed s e text, NNumber t => Some ([((s, i), text ++ point ++ t)], Idle)
  | Pointed s e text, _ => Some ([((s, e), text ++ point)], Idle)
  end.

(** The pass, with what is being read in the end. *)
Fixpoint pass (st : Reading) (i : nat) (ms : list NMark) : option (list (LRange * str) * Reading) :=
  match ms with
  | [] => Some ([], st)
  | m :: ms =>
    match read st i m with
    | Some (done, st) => option_map (fun '(more, last) => (done ++ more, last)) (pass st (S i) ms)
    | None => None
    end
  end.

Definition at_end (st : Reading) : list (LRange * str) :=
  match st with
  | Idle => []
  | Digits s e text | Delimited s e text => [((s, e), text)]
  | Pointed s e text => [((s, e), text ++ point)]
  end.
Definition whole_pass (st : Reading) (i : nat) (ms : list NMark) : option (list (LRange * str)) :=
  option_map (fun '(done, last) => done ++ at_end last) (pass st i ms).

(** All texts parsed; [None] if one of them is refused. *)
Fixpoint parsed (parse : str -> option Decimal) (xs : list (LRange * str)) : option (list (LRange * Decimal)) :=
  match xs with
  | [] => Some []
  | (rg, text) :: xs =>
    match parse text, parsed parse xs with
    | Some d, Some out => Some ((rg, d) :: out)
    | _, _ => None
    end
  end.
