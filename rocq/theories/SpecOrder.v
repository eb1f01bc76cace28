(** Specification vocabulary for the order of runs: what a step reads and writes,
    reorderings, and lines that cannot be told apart. *)

From Verif Require Export SpecPipe SpecLayer ModelIdioms ModelDisplay SpecMatch SpecUser.

Section SpecOrder.
Context {UC : Unicode} {U : UserTypes}.

(** A run of a resolver of the library, of a find-and-finish resolver, or of one written by a
    user whose matchers ask only for attributes of types in [R]. *)
Inductive any_step : Type :=
| Lib (s : step)
| Find (t : ty) (A : Type) (e : mexp A) (f : A -> den t)
| FindBoth (t : ty) (A : Type) (e : mexp A) (f : A -> den t)
| User (t : ty) (c : LRange -> code t) (R : list ty) (h : bool)
    (asked : forall r, code_asks (fun t' => In t' R) h (c r)).

Definition run_any (id : N) (l : LLLine) (s : any_step) : res LLLine :=
  match s with
  | Lib s => run_step id l s
  | Find t _ e f => run id l (find_resolver t (matcher_of e) f)
  | FindBoth t _ e f => run id l (find_both_resolver t (matcher_of e) f)
  | User t c _ _ _ => run id l (resolver_by c)
  end.

(** The type of the attributes it assigns. *)
Definition writes (s : any_step) : ty :=
  match s with
  | Lib (RunTextMatch t _) => t
  | Lib (RunClauseKeyword _) => TKeyword
  | Lib RunClause => TClause
  | Lib (RunPOSTag _ _) => TPos
  | Lib (RunAmount _ _) => TAmount
  | Find t _ _ _ | FindBoth t _ _ _ => t
  | User t _ _ _ _ => t
  end.

(** The attribute types an expression mentions. *)
Fixpoint types_of {A} (e : mexp A) : list ty :=
  match e with
  | M_attr t | M_attr_eq t _ _ | M_has_any t _ _ => [t]
  | M_text => []
  | M_all2 _ _ a b | M_any2 _ _ a b | M_seq2 _ _ a b => types_of a ++ types_of b
  | M_all3 _ _ _ a b c | M_any3 _ _ _ a b c | M_seq3 _ _ _ a b c => types_of a ++ types_of b ++ types_of c
  end.

(** The types of the attributes it looks at. *)
Definition reads (s : any_step) : list ty :=
  match s with
  | Lib (RunTextMatch _ _) | Lib (RunClauseKeyword _) => []
  | Lib RunClause => [TKeyword; TTextTag]
  | Lib (RunPOSTag _ _) => [TTextTag]
  | Lib (RunAmount _ _) => [TTextTag; TChar]
  | Find _ _ e _ | FindBoth _ _ e _ => types_of e
  | User _ _ R _ _ => R
  end.

(** Different results, and neither looks at the other's. *)
Definition independent (s1 s2 : any_step) : Prop :=
  writes s1 <> writes s2 /\ ~ In (writes s1) (reads s2) /\ ~ In (writes s2) (reads s1).

(** Exchanging neighbouring independent steps, any number of times. *)
Inductive reordered : list (N * any_step) -> list (N * any_step) -> Prop :=
| R_same ss : reordered ss ss
| R_swap x y ss : independent (snd x) (snd y) -> reordered (x :: y :: ss) (y :: x :: ss)
| R_skip x ss ss' : reordered ss ss' -> reordered (x :: ss) (x :: ss')
| R_trans ss1 ss2 ss3 : reordered ss1 ss2 -> reordered ss2 ss3 -> reordered ss1 ss3.

(** A line after a list of steps. *)
Inductive after_any : LLLine -> list (N * any_step) -> LLLine -> Prop :=
| AA_done l : after_any l [] l
| AA_step id s ss l l' l'' : run_any id l s = Ok l' -> after_any l' ss l'' -> after_any l ((id, s) :: ss) l''.

(** Whether it uses [token_has_any], which needs an attribute on every token. *)
Definition uses_chars (s : any_step) : bool :=
  match s with
  | Lib (RunAmount _ _) => true
  | Lib _ => false
  | Find _ _ e _ | FindBoth _ _ e _ => uses_has_any e
  | User _ _ _ h _ => h
  end.
Definition attributed_for (ss : list (N * any_step)) (l : LLLine) (lg : list entry) : Prop :=
  (exists x, In x ss /\ uses_chars (snd x) = true) -> forall i, i < length (ll_tokens l) -> attributed i lg.

(** The two lines answer alike whatever is asked. *)
Definition same_answers (l l' : LLLine) : Prop :=
  ll_tokens l = ll_tokens l'
  /\ (forall t, query l t = query l' t)
  /\ (forall has A (m : matcher A) d, lib_matcher any_ty has A m -> m d l = m d l')
  /\ (forall has A (m : matcher A), lib_matcher any_ty has A m -> find l m = find l' m)
  /\ (forall tg incs, show tg l incs = show tg l' incs).

End SpecOrder.
