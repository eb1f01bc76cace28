(** Specification vocabulary for numbers as they are written: in groups, perhaps with a
    fraction (C79).  In terms of texts only. *)

From Verif Require Export SpecWords.

Section SpecWritten.
Context {UC : Unicode} {U : UserTypes}.

(** A written number: a first group of digits, further groups each with the delimiter
    before it, and perhaps a fraction. *)
Record Written := mkWritten { first_group : str; more_groups : list (char * str); fraction : option str }.

(** The texts it consists of, with the decimal sign of the resolver. *)
Definition parts_of (r : AmountResolver) (w : Written) : list str :=
  first_group w :: flat_map (fun p => [[fst p]; snd p]) (more_groups w)
  ++ match fraction w with Some f => [[decimal r]; f] | None => [] end.

(** All groups are digits, the delimiters are the resolver's, and the decimal sign is not a delimiter. *)
Definition well_written (r : AmountResolver) (w : Written) : Prop :=
  all_digits (first_group w)
  /\ Forall (fun p => In (fst p) (delimiters r) /\ all_digits (snd p)) (more_groups w)
  /\ match fraction w with Some f => all_digits f /\ ~ In (decimal r) (delimiters r) | None => True end.

(** The number in the usual notation: the digits, with a point before the fraction. *)
Definition denoted (w : Written) : str :=
  first_group w ++ concat (map snd (more_groups w)) ++ match fraction w with Some f => point ++ f | None => [] end.

Section Tokens.
Context (toks : list LLToken).

(** The tokens from [k] on have these texts. *)
Definition texts_at (k : nat) (texts : list str) : Prop :=
  forall i s, nth_error texts i = Some s -> text_at toks (k + i) s.
Definition digits_at (i : nat) : Prop := exists s, text_at toks i s /\ all_digits s.

(** No number touches the tokens from [k] on from the left, nor does one with a sign between. *)
Definition starts_apart (r : AmountResolver) (k : nat) : Prop :=
  (forall j, k = j + 1 -> ~ digits_at j)
  /\ (forall j, k = j + 2 -> ~ (digits_at j /\ char_at toks (signs r) (j + 1))).

(** ... nor the tokens up to [e] from the right. *)
Definition ends_apart (r : AmountResolver) (e : nat) : Prop :=
  ~ digits_at (e + 1) /\ ~ (char_at toks (signs r) (e + 1) /\ digits_at (e + 2)).

(** The token after [e] is a decimal sign that is not a delimiter. *)
Definition sign_after (r : AmountResolver) (e : nat) : Prop :=
  char_at toks [decimal r] (e + 1) /\ ~ char_at toks (delimiters r) (e + 1).
End Tokens.

(** The segments [words] are cut only between the texts [parts], and none of them starts with
    a sign unless it is that sign only. *)
Definition cut_between (parts words : list str) : Prop :=
  exists segments, concat segments = parts /\ words = map (@concat _) segments
    /\ Forall (fun sg => (exists g rest, sg = g :: rest /\ all_digits g) \/ exists c, sg = [[c]]) segments.

End SpecWritten.
