(** Specification vocabulary for the resolvers that come with the library. *)

From Verif Require Export SpecSel ModelResolvers.

Section SpecRes.
Context {UC : Unicode} {U : UserTypes}.

(** The text tokens of a line, each with its index. *)
Definition text_tokens (toks : list LLToken) : list (nat * str) :=
  filter_map (fun '(i, tok) => match token tok with LText s _ => Some (i, s) | LValue => None end)
             (enumerate_from 0 toks).

(** Running [r] on [l] succeeds, keeps the tokens, and assigns exactly the values
    [out], in this order. *)
Definition runs_to {t : ty} (id : N) (l : LLLine) (lg : list entry) (r : Resolver t)
    (out : list (LRange * den t)) : Prop :=
  exists l', run id l r = Ok l' /\ ll_tokens l' = ll_tokens l
    /\ History l' (lg ++ map (fun '(rg, v) => (rg, mkany t v)) out).

(** One single-token assignment for each value in [f i text]. *)
Definition on_tokens {A} (f : nat -> str -> list A) (toks : list LLToken) : list (LRange * A) :=
  flat_map (fun '(i, text) => map (pair (i, i)) (f i text)) (text_tokens toks).

(** ** Text matching *)

(** All values of the entries whose key satisfies [p]. *)
Definition entry_values {V} (p : str -> bool) (table : list (str * list V)) : list V :=
  flat_map (fun '(k, vs) => if p k then vs else []) table.

(** The values of the last of them. *)
Definition last_entry_values {V} (p : str -> bool) (table : list (str * list V)) : list V :=
  match rev (filter (fun e => p (fst e)) table) with (_, vs) :: _ => vs | [] => [] end.

Definition same_ignoring_case (a b : str) : bool := str_eqb (u_lower a) (u_lower b).

(** ** Text tags *)

(** How often the tag is assigned to exactly the token [i] (as a list). *)
Definition tagged (tag : TextTag) (i : nat) (lg : list entry) : list TextTag :=
  filter (fun w => TextTag_eqb w tag) (values_on TTextTag (i, i) lg).

(** The line's text tags are those of its tokens: nobody assigned any other. *)
Definition plain_tags (l : LLLine) (lg : list entry) : Prop :=
  forall i tok s tag, nth_error (ll_tokens l) i = Some tok -> token tok = LText s tag ->
    values_on TTextTag (i, i) lg = [tag].

(** Exactly the tokenizer's own values of type [t] (TextTag, char) are in the line. *)
Definition plain (t : ty) (l : LLLine) (lg : list entry) : Prop :=
  assigned t lg = assigned t (tokens_log 0 (map token (ll_tokens l))).

(** No custom tokens. *)
Definition text_only (l : LLLine) : Prop :=
  forall tok, In tok (ll_tokens l) -> token tok <> LValue.

Definition all_digits (s : str) : Prop := s <> [] /\ Forall (fun c => decimal_digit c = true) s.

(** ** Clause keywords *)

Definition classified (r : ClauseKeywordResolver) (text : str) (k : ClauseKeyword) : Prop :=
  match k with
  | KConditionStart => In (u_lower text) (kw_cond_start r)
  | KThen => In (u_lower text) (kw_then r) /\ ~ In (u_lower text) (kw_cond_start r)
  | KAnd => In (u_lower text) (kw_and r) /\ ~ In (u_lower text) (kw_cond_start r)
            /\ ~ In (u_lower text) (kw_then r)
  end.

Definition configured (r : ClauseKeywordResolver) (w : str) : Prop :=
  In w (kw_cond_start r) \/ In w (kw_then r) \/ In w (kw_and r).

End SpecRes.
