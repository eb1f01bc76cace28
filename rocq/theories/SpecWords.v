(** Specification vocabulary for white space, for giving the tokens of a line again as
    inputs, and for tags read off the token text (C75-C77). *)

From Verif Require Export SpecEnd.

Section SpecWords.
Context {UC : Unicode} {U : UserTypes}.

(** What the character tables must satisfy: letters are not white space, and the documented
    punctuation is neither. *)
Record TableLaws : Prop := {
  letter_not_whitespace : forall c, u_alphabetic c = true -> u_whitespace c = false;
  punctuation_apart : forall c, documented_punctuation c -> u_alphabetic c = false /\ u_whitespace c = false;
}.

(** Any number of runs of any resolvers that assign other types than [t]. *)
Inductive runs_of_others (t : ty) : LLLine -> LLLine -> Prop :=
| RO_none l : runs_of_others t l l
| RO_run l t' id (r : Resolver t') l' l'' :
    t' <> t -> run id l r = Ok l' -> runs_of_others t l' l'' -> runs_of_others t l l''.

(** The texts given as inputs. *)
Definition texts_as_input (texts : list str) : list InputToken := map (fun s => InText s []) texts.
Definition token_texts (l : LLLine) : list str := map (fun tok => ltext (token tok)) (ll_tokens l).

(** The same token, except that the tag of a character that is not one of the documented
    punctuation characters may no longer be PUNC. *)
Definition same_but_tag (a b : LLToken) : Prop :=
  token_idx a = token_idx b /\ pos_starts_at a = pos_starts_at b /\ pos_ends_at a = pos_ends_at b
  /\ exists s tag tag', token a = LText s tag /\ token b = LText s tag'
       /\ (tag' = tag <-> (tag = PUNC -> one_punctuation s))
       /\ (tag' <> tag -> (tag' = SPACE /\ all_space s) \/ (tag' = SYMB /\ ~ all_space s)).

End SpecWords.
