(** Texts of the same shape, and texts that differ only in upper and lower case (C95). *)

From Verif Require Export SpecKeys SpecPass SpecScan SpecSeam.

Local Open Scope list_scope.

(** Letters may be other letters, digits other digits. *)
Definition kin (c d : char) : Prop :=
  c = d \/ (ascii_letter c /\ ascii_letter d) \/ (ascii_digit c /\ ascii_digit d).
Definition same_shape : str -> str -> Prop := Forall2 kin.

(** Letters may be in the other case. *)
Definition same_case (s s' : str) : Prop := map ascii_lower s = map ascii_lower s'.

Section Case.
Context {UC : Unicode} {U : UserTypes} (R : str -> str -> Prop).

(** Inputs whose texts are related; the attributes and the sizes may be any. *)
Definition input_like (it it' : InputToken) : Prop :=
  match it, it' with
  | InText s _, InText s' _ => R s s'
  | InCustom _ _, InCustom _ _ => True
  | _, _ => False
  end.

(** Tokens with related texts and the same tag. *)
Definition token_like (t t' : LToken) : Prop :=
  match t, t' with
  | LText s tag, LText s' tag' => R s s' /\ tag = tag'
  | LValue, LValue => True
  | _, _ => False
  end.

(** Tokens at the same place. *)
Definition same_place (t t' : LLToken) : Prop :=
  token_idx t = token_idx t' /\ pos_starts_at t = pos_starts_at t' /\ pos_ends_at t = pos_ends_at t'.

(** Rows of a query on the same tokens with the same values and related texts. *)
Definition row_like {V} (x x' : LRange * str * list V) : Prop :=
  fst (fst x) = fst (fst x') /\ R (snd (fst x)) (snd (fst x')) /\ snd x = snd x'.

(** ... with any values. *)
Definition row_placed {V} (x x' : LRange * str * list V) : Prop :=
  fst (fst x) = fst (fst x') /\ R (snd (fst x)) (snd (fst x')).

(** Lines made of related ASCII inputs, which bring no attributes of the types [ts]. *)
Definition lines_like (ts : list ty) (l l' : LLLine) : Prop :=
  exists tg tg' sz sz' input input',
    create_line_from_input_tokens tg input sz = Ok l /\ create_line_from_input_tokens tg' input' sz' = Ok l'
    /\ Forall2 input_like input input' /\ Forall ascii_input input /\ Forall wf_input input /\ Forall wf_input input'
    /\ forall t, In t ts -> none_of t input /\ none_of t input'.

(** No value tokens. *)
Definition all_text (l : LLLine) : Prop := forall tok, In tok (ll_tokens l) -> token tok <> LValue.
End Case.
