(** Specification vocabulary for currency amounts: what query reports (C64); resolvers
    that look at one token at a time (C65). *)

From Verif Require Export SpecEnd SpecLaws ModelIdioms.

Section SpecCurrency.
Context {UC : Unicode} {U : UserTypes}.

(** The rows give the value [v] to the range [r]. *)
Definition reports {V} (rows : list (LRange * str * list V)) (r : LRange) (v : V) : Prop :=
  exists text vs, In (r, text, vs) rows /\ In v vs.

Definition dollar : str := [36%N].
Definition euro_sign : str := [8364%N].

(** Token [i] is a currency symbol, with this value. *)
Definition symbol_at {V} (usd euro : V) (toks : list LLToken) (i : nat) (v : V) : Prop :=
  (text_at toks i dollar /\ v = usd) \/ (text_at toks i euro_sign /\ v = euro).

(** An amount and a symbol right before it or right after it, and the range of both. *)
Definition priced {V W} (usd euro : V) (toks : list LLToken) (arows : list (LRange * str * list W))
    (r : LRange) (v : V) (a : W) : Prop :=
  (symbol_at usd euro toks (fst r) v /\ reports arows (S (fst r), snd r) a)
  \/ (exists e, snd r = S e /\ reports arows (fst r, e) a /\ symbol_at usd euro toks (S e) v).

(** Text matching, clause keywords and part of speech tagging. *)
Inductive token_local : any_step -> Prop :=
| TL_text_match t m : t <> TChar -> t <> TTextTag -> token_local (Lib (RunTextMatch t m))
| TL_keyword r : token_local (Lib (RunClauseKeyword r))
| TL_pos dict noun : token_local (Lib (RunPOSTag dict noun)).

End SpecCurrency.
