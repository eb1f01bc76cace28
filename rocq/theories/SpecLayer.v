(** The meaning of matcher expressions: which values they match on which ranges of
    tokens, as a function of what has been assigned and nothing else. *)

From Verif Require Export SpecRes ModelIdioms.

Section SpecLayer.
Context {U : UserTypes}.

(** ** Matcher expressions as syntax *)
Inductive mexp : Type -> Type :=
| M_attr (t : ty) : mexp (den t)
| M_attr_eq (t : ty) (eqT : den t -> den t -> bool) (v : den t) : mexp unit
| M_has_any (t : ty) (eqT : den t -> den t -> bool) (set : list (den t)) : mexp (den t)
| M_text : mexp str
| M_all2 A B (a : mexp A) (b : mexp B) : mexp (A * B)
| M_all3 A B C (a : mexp A) (b : mexp B) (c : mexp C) : mexp (A * B * C)
| M_any2 A B (a : mexp A) (b : mexp B) : mexp (AnyOf2 A B)
| M_any3 A B C (a : mexp A) (b : mexp B) (c : mexp C) : mexp (AnyOf3 A B C)
| M_seq2 A B (a : mexp A) (b : mexp B) : mexp (A * B)
| M_seq3 A B C (a : mexp A) (b : mexp B) (c : mexp C) : mexp (A * B * C).

(** The library's matcher for an expression. *)
Fixpoint matcher_of {A} (e : mexp A) : matcher A :=
  match e in mexp T return matcher T with
  | M_attr t => x_attr t
  | M_attr_eq t eqT v => x_attr_eq t eqT v
  | M_has_any t eqT set => x_token_has_any t eqT set
  | M_text => x_token_text
  | M_all2 _ _ a b => x_all2 (matcher_of a) (matcher_of b)
  | M_all3 _ _ _ a b c => x_all3 (matcher_of a) (matcher_of b) (matcher_of c)
  | M_any2 _ _ a b => x_any_of2 (matcher_of a) (matcher_of b)
  | M_any3 _ _ _ a b c => x_any_of3 (matcher_of a) (matcher_of b) (matcher_of c)
  | M_seq2 _ _ a b => x_seq2 (matcher_of a) (matcher_of b)
  | M_seq3 _ _ _ a b c => x_seq3 (matcher_of a) (matcher_of b) (matcher_of c)
  end.

Fixpoint uses_has_any {A} (e : mexp A) : bool :=
  match e with
  | M_attr _ | M_attr_eq _ _ _ | M_text => false
  | M_has_any _ _ _ => true
  | M_all2 _ _ a b | M_any2 _ _ a b | M_seq2 _ _ a b => uses_has_any a || uses_has_any b
  | M_all3 _ _ _ a b c | M_any3 _ _ _ a b c | M_seq3 _ _ _ a b c =>
      uses_has_any a || uses_has_any b || uses_has_any c
  end.

(** ** Relations: lists of (range, value) *)

(** Read forwards, a range goes from its first token to its last; backwards the
    other way round. *)
Definition from_tok (fwd : bool) (r : LRange) : nat := if fwd then fst r else snd r.
Definition to_tok (fwd : bool) (r : LRange) : nat := if fwd then snd r else fst r.

(** [rb] continues right where [ra] stops. *)
Definition adjacent (fwd : bool) (ra rb : LRange) : bool :=
  if fwd then Nat.eqb (fst rb) (S (snd ra)) else Nat.eqb (fst ra) (S (snd rb)).
Definition joined (fwd : bool) (ra rb : LRange) : LRange :=
  if fwd then (fst ra, snd rb) else (fst rb, snd ra).

(** One after the other. *)
Definition followed_by {A B} (fwd : bool) (la : list (LRange * A)) (lb : list (LRange * B))
  : list (LRange * (A * B)) :=
  flat_map (fun '(ra, a) =>
    filter_map (fun '(rb, b) =>
      if adjacent fwd ra rb then Some (joined fwd ra rb, (a, b)) else None) lb) la.

(** Both on the same range. *)
Definition both_on {A B} (la : list (LRange * A)) (lb : list (LRange * B))
  : list (LRange * (A * B)) :=
  flat_map (fun '(ra, a) =>
    filter_map (fun '(rb, b) => if range_eqb ra rb then Some (ra, (a, b)) else None) lb) la.

(** The entries of [lb] that begin where no entry of [la] begins. *)
Definition where_none {A B} (fwd : bool) (la : list (LRange * A)) (lb : list (LRange * B))
  : list (LRange * B) :=
  filter (fun '(rb, _) =>
    negb (existsb (fun '(ra, _) => Nat.eqb (from_tok fwd ra) (from_tok fwd rb)) la)) lb.

Definition on_value {A B} (f : A -> B) (l : list (LRange * A)) : list (LRange * B) :=
  map (fun '(r, a) => (r, f a)) l.

(** The meaning of an expression on a line with tokens [toks] and assignments [lg]. *)
Fixpoint meaning (fwd : bool) (toks : list LLToken) (lg : list entry) {A} (e : mexp A)
  : list (LRange * A) :=
  match e in mexp T return list (LRange * T) with
  | M_attr t => assigned t lg
  | M_attr_eq t eqT v => on_value (fun _ => tt) (filter (fun '(_, w) => eqT w v) (assigned t lg))
  | M_has_any t eqT set =>
      filter (fun '(r, w) => existsb (fun s => eqT s w) set && (negb fwd || Nat.eqb (fst r) (snd r)))
             (assigned t lg)
  | M_text => map (fun '(i, s) => ((i, i), s)) (text_tokens toks)
  | M_all2 _ _ a b => both_on (meaning fwd toks lg a) (meaning fwd toks lg b)
  | M_all3 _ _ _ a b c =>
      both_on (both_on (meaning fwd toks lg a) (meaning fwd toks lg b)) (meaning fwd toks lg c)
  | M_any2 _ _ a b =>
      let la := meaning fwd toks lg a in
      on_value A2_A la ++ on_value A2_B (where_none fwd la (meaning fwd toks lg b))
  | M_any3 _ _ _ a b c =>
      let la := meaning fwd toks lg a in
      let lb := meaning fwd toks lg b in
      on_value A3_A la ++ on_value A3_B (where_none fwd la lb)
      ++ on_value A3_C (where_none fwd la (where_none fwd lb (meaning fwd toks lg c)))
  | M_seq2 _ _ a b => followed_by fwd (meaning fwd toks lg a) (meaning fwd toks lg b)
  | M_seq3 _ _ _ a b c =>
      followed_by fwd (followed_by fwd (meaning fwd toks lg a) (meaning fwd toks lg b)) (meaning fwd toks lg c)
  end.

(** The part of a relation that starts (read forwards or backwards) at token [i]:
    values with the other end. *)
Definition at_point {A} (d : direction) (l : list (LRange * A)) : list (A * nat) :=
  match d with
  | Fwd i => filter_map (fun '(r, a) => if Nat.eqb (fst r) i then Some (a, snd r) else None) l
  | Bwd i => filter_map (fun '(r, a) => if Nat.eqb (snd r) i then Some (a, fst r) else None) l
  end.
Definition is_fwd (d : direction) : bool := match d with Fwd _ => true | Bwd _ => false end.

(** Either no [token_has_any], or every token carries some attribute of its own
    (e.g. there are no custom tokens). *)
Definition applicable {A} (e : mexp A) (l : LLLine) (lg : list entry) : Prop :=
  uses_has_any e = true -> forall i, i < length (ll_tokens l) -> attributed i lg.

(** The ranges and values found. *)
Definition found_pairs {A} (found : list (LLSelection * A)) : list (LRange * A) :=
  map (fun x => ((start_idx (fst x), end_idx (fst x)), snd x)) found.

(** Restriction to the ranges that begin within a selection. *)
Definition beginning_in {A} (s : LLSelection) (l : list (LRange * A)) : list (LRange * A) :=
  filter (fun x => (start_idx s <=? fst (fst x)) && (fst (fst x) <=? end_idx s)) l.
Definition ending_in {A} (s : LLSelection) (l : list (LRange * A)) : list (LRange * A) :=
  filter (fun x => (start_idx s <=? snd (fst x)) && (snd (fst x) <=? end_idx s)) l.

End SpecLayer.
