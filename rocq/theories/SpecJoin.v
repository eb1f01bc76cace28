(** Specification vocabulary for lines made from several inputs (C55) and for
    slices of the source text (C56). *)

From Verif Require Export SpecTokens.

Section SpecJoin.
Context {UC : Unicode} {U : UserTypes}.

(** The same thing [k] tokens (and [p] positions, modulo [M]) further right. *)
Definition moved_token (k : nat) (p M : N) (tok : LLToken) : LLToken :=
  mkLLToken (k + token_idx tok) ((p + pos_starts_at tok) mod M) ((p + pos_ends_at tok) mod M) (token tok).
Definition moved_range (k : nat) (r : LRange) : LRange := (k + fst r, k + snd r).
Definition moved_row {A} (k : nat) (x : LRange * str * list A) : LRange * str * list A :=
  (moved_range k (fst (fst x)), snd (fst x), snd x).

(** Where the last token ends. *)
Definition end_of (l : LLLine) : N := last (map pos_ends_at (ll_tokens l)) 0%N.

(** [l] is [l0] after any number of runs of any resolvers. *)
Inductive later (l0 : LLLine) : LLLine -> Prop :=
| L_here : later l0 l0
| L_run t id (r : Resolver t) l l' : later l0 l -> run id l r = Ok l' -> later l0 l'.

(** [text] is the part of the source [s] from byte [p] to byte [q]: it is preceded by
    a text of [p] bytes, and ends [q] bytes into [s]. *)
Definition slice_of (s : str) (p q : N) (text : str) : Prop :=
  exists before after, s = before ++ text ++ after
    /\ N.of_nat (length (utf8 before)) = p
    /\ N.of_nat (length (utf8 (before ++ text))) = q.

(** The text of the inputs; custom tokens have none. *)
Definition source_text (input : list InputToken) : str :=
  flat_map (fun it => match it with InText s _ => s | InCustom _ _ => [] end) input.

End SpecJoin.
