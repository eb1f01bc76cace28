(** Matchers written by users of the library: what the trait [XMatch] lets them do. *)

From Verif Require Export SpecSel.

Section SpecUser.
Context {UC : Unicode} {U : UserTypes}.

(** The body of a user's [XMatch::go] (src/ll_line/x.rs:24-36) on a given line: any computation
    that calls the methods of [XDirection] (src/ll_line/x.rs:41-64), or asks the line for its
    tokens (src/ll_line.rs:208-211), with [query] or with [find] and another matcher, or displays it,
    and goes on depending on the answers.  It may panic. *)
Inductive program (A : Type) : Type :=
| P_return (out : list (A * nat))
| P_attr (d : direction) (t : ty) (k : list (den t * nat) -> program A)
| P_attr_eq (d : direction) (t : ty) (eqT : den t -> den t -> bool) (v : den t) (k : list (unit * nat) -> program A)
| P_one_of (d : direction) (t : ty) (eqT : den t -> den t -> bool) (set : list (den t))
    (k : list (den t * nat) -> program A)
| P_text (d : direction) (k : option (str * nat) -> program A)
| P_after (d : direction) (idx : nat) (k : option direction -> program A)
| P_tokens (k : list LLToken -> program A)
| P_query (t : ty) (k : list (LRange * str * list (den t)) -> program A)
| P_find (B : Type) (go : direction -> program B) (k : list (LLLineFind B) -> program A)
| P_show (tg : Target) (incs : list { t : ty & den t -> str }) (k : str -> program A)
| P_panic (p : panic).

(** Running it. *)
Fixpoint execute {A} (l : LLLine) (p : program A) : res (list (A * nat)) :=
  match p with
  | P_return _ out => Ok out
  | P_attr _ d t k => r <- dir_attr t d l;; execute l (k r)
  | P_attr_eq _ d t eqT v k => r <- dir_attr_eq t eqT v d l;; execute l (k r)
  | P_one_of _ d t eqT set k => r <- dir_token_attr_one_of t eqT set d l;; execute l (k r)
  | P_text _ d k => r <- dir_text_token d l;; execute l (k r)
  | P_after _ d idx k => execute l (k (dir_after d idx l))
  | P_tokens _ k => execute l (k (ll_tokens l))
  | P_query _ t k => r <- query l t;; execute l (k r)
  | P_find _ _ go k => r <- find l (fun d l' => execute l' (go d));; execute l (k r)
  | P_show _ tg incs k => r <- show tg l incs;; execute l (k r)
  | P_panic _ p => Panic p
  end.

(** [XForwards], [XBackwards] and the field of [ToIdx] are private: a program has only the
    directions [D] and the indexes [I] it was given or has got as answers.  (The [usize] it
    passes to [after] may be any number.)  A matcher given to [find] starts anew, with the same
    indexes. *)
Inductive honest {A : Type} : (nat -> Prop) -> (direction -> Prop) -> program A -> Prop :=
| Honest_return (I : nat -> Prop) (D : direction -> Prop) out : (forall a j, In (a, j) out -> I j) -> honest I D (P_return _ out)
| Honest_attr (I : nat -> Prop) (D : direction -> Prop) d t k : D d ->
    (forall r, honest (fun j => I j \/ In j (map snd r)) D (k r)) -> honest I D (P_attr _ d t k)
| Honest_attr_eq (I : nat -> Prop) (D : direction -> Prop) d t eqT v k : D d ->
    (forall r, honest (fun j => I j \/ In j (map snd r)) D (k r)) -> honest I D (P_attr_eq _ d t eqT v k)
| Honest_one_of (I : nat -> Prop) (D : direction -> Prop) d t eqT set k : D d ->
    (forall r, honest (fun j => I j \/ In j (map snd r)) D (k r)) -> honest I D (P_one_of _ d t eqT set k)
| Honest_text (I : nat -> Prop) (D : direction -> Prop) d k : D d ->
    (forall r, honest (fun j => I j \/ In j (map snd (opt_list r))) D (k r)) -> honest I D (P_text _ d k)
| Honest_after (I : nat -> Prop) (D : direction -> Prop) d idx k : D d ->
    (forall o, honest I (fun d' => D d' \/ o = Some d') (k o)) -> honest I D (P_after _ d idx k)
| Honest_tokens (I : nat -> Prop) (D : direction -> Prop) k : (forall r, honest I D (k r)) -> honest I D (P_tokens _ k)
| Honest_query (I : nat -> Prop) (D : direction -> Prop) t k : (forall r, honest I D (k r)) -> honest I D (P_query _ t k)
| Honest_find (I : nat -> Prop) (D : direction -> Prop) B (go : direction -> program B) k :
    (forall d, honest I (eq d) (go d)) -> (forall r, honest I D (k r)) -> honest I D (P_find _ B go k)
| Honest_show (I : nat -> Prop) (D : direction -> Prop) tg incs k : (forall r, honest I D (k r)) -> honest I D (P_show _ tg incs k)
| Honest_panic (I : nat -> Prop) (D : direction -> Prop) p : honest I D (P_panic _ p).

(** A user's matcher on line [l].  It may also have kept indexes it got on this line earlier, or get them
    from a matcher it gives to [find], and know anything about the line. *)
Definition user_matcher (l : LLLine) (A : Type) (m : matcher A) : Prop :=
  exists go : direction -> program A,
    (forall d, m d l = execute l (go d))
    /\ forall d, honest (fun j => j < length (ll_tokens l)) (eq d) (go d).

(** It only asks for attributes of types in [P], and for those of a single token only if [h]; it does not
    look at positions in the source. *)
Inductive asks (P : ty -> Prop) (h : bool) {A : Type} : program A -> Prop :=
| Asks_return out : asks P h (P_return _ out)
| Asks_attr d t k : P t -> (forall r, asks P h (k r)) -> asks P h (P_attr _ d t k)
| Asks_attr_eq d t eqT v k : P t -> (forall r, asks P h (k r)) -> asks P h (P_attr_eq _ d t eqT v k)
| Asks_one_of d t eqT set k : h = true -> P t -> (forall r, asks P h (k r)) -> asks P h (P_one_of _ d t eqT set k)
| Asks_text d k : (forall r, asks P h (k r)) -> asks P h (P_text _ d k)
| Asks_after d idx k : (forall o, asks P h (k o)) -> asks P h (P_after _ d idx k)
| Asks_tokens k : (forall r r', map token r = map token r' -> k r = k r') -> (forall r, asks P h (k r)) -> asks P h (P_tokens _ k)
| Asks_query t k : P t -> (forall r, asks P h (k r)) -> asks P h (P_query _ t k)
| Asks_find B (go : direction -> program B) k : (forall d, asks P h (go d)) ->
    (forall r r', map found r = map found r' -> k r = k r') -> (forall r, asks P h (k r)) -> asks P h (P_find _ B go k)
| Asks_show tg incs k : (forall x, In x incs -> P (projT1 x)) -> (forall r, asks P h (k r)) -> asks P h (P_show _ tg incs k)
| Asks_panic p : asks P h (P_panic _ p).

(** Any matcher whose matches stay in the line and end, in its direction, where it began or further on. *)
Definition onward_matcher (l : LLLine) (A : Type) (m : matcher A) : Prop := bounded m l.

(** Everything a resolver can make from the whole-line selection with matchers [M]; with
    [after] only if [aft]. *)
Inductive reached (M : forall A, matcher A -> Prop) (aft : bool) (rc : RcLine) : LLSelection -> Prop :=
| R_whole s : from_line rc = Some s -> reached M aft rc s
| R_split_by s A (m : matcher A) ps s' : reached M aft rc s -> M A m ->
    split_by s m = Ok ps -> In s' ps -> reached M aft rc s'
| R_find_by s A (m : matcher A) fs s' a : reached M aft rc s -> M A m ->
    find_by s m = Ok fs -> In (s', a) fs -> reached M aft rc s'
| R_find_first_by s A (m : matcher A) s' a : reached M aft rc s -> M A m ->
    find_first_by s m = Ok (Some (s', a)) -> reached M aft rc s'
| R_find_both s A (m : matcher A) fs s' a : reached M aft rc s -> M A m ->
    find_by_forwards_and_backwards s m = Ok fs -> In (s', a) fs -> reached M aft rc s'
| R_match_forwards s A (m : matcher A) fs s' a : reached M aft rc s -> M A m ->
    match_forwards s m = Ok fs -> In (s', a) fs -> reached M aft rc s'
| R_match_first_forwards s A (m : matcher A) s' a : reached M aft rc s -> M A m ->
    match_first_forwards s m = Ok (Some (s', a)) -> reached M aft rc s'
| R_match_backwards s A (m : matcher A) fs s' a : reached M aft rc s -> M A m ->
    match_backwards s m = Ok fs -> In (s', a) fs -> reached M aft rc s'
| R_match_first_backwards s A (m : matcher A) s' a : reached M aft rc s -> M A m ->
    match_first_backwards s m = Ok (Some (s', a)) -> reached M aft rc s'
| R_split_with_left s o s' r : reached M aft rc s -> reached M aft rc o ->
    split_with s o = Ok (Some s', r) -> reached M aft rc s'
| R_split_with_right s o s' r : reached M aft rc s -> reached M aft rc o ->
    split_with s o = Ok (r, Some s') -> reached M aft rc s'
| R_trim s A (m : matcher A) s' : reached M aft rc s -> M A m ->
    trim s m = Ok (Some s') -> reached M aft rc s'
| R_trim_start s A (m : matcher A) s' : reached M aft rc s -> M A m ->
    trim_start s m = Ok (Some s') -> reached M aft rc s'
| R_trim_end s A (m : matcher A) s' : reached M aft rc s -> M A m ->
    trim_end s m = Ok (Some s') -> reached M aft rc s'
| R_after s s' : aft = true -> reached M aft rc s -> sel_after s = Ok (Some s') -> reached M aft rc s'.

(** A resolver call that keeps no selection and only finishes selections made so. *)
Definition finishes (M : forall A, matcher A -> Prop) {t} (id : N) (l : LLLine) (g : GoResult t) : Prop :=
  go_retained g = false
  /\ forall x, In x (go_assignments g) -> exists s v, reached M false (mkRc id l) s /\ x = finish_with_attr s v.

(** ** Resolvers written by users *)

(** The matcher with such a body, on every line. *)
Definition matcher_by {A} (go : direction -> program A) : matcher A := fun d l => execute l (go d).

Definition range_of (s : LLSelection) : LRange := (start_idx s, end_idx s).
Definition at_range (rc : RcLine) (r : LRange) : LLSelection := mkSel rc (fst r) (snd r).

(** The calls a resolver can make of the methods of [LLSelection] with its own matchers, and
    the type of the answer.  A selection is given by its two indexes, which [Debug] shows
    (src/ll_line/ll_selection.rs:36-43); all are of the resolver's line. *)
Inductive call : Type -> Type :=
| Call_split_by (s : LRange) A (go : direction -> program A) : call (list LRange)
| Call_find_by (s : LRange) A (go : direction -> program A) : call (list (LRange * A))
| Call_find_first_by (s : LRange) A (go : direction -> program A) : call (option (LRange * A))
| Call_find_both (s : LRange) A (go : direction -> program A) : call (list (LRange * A))
| Call_match_forwards (s : LRange) A (go : direction -> program A) : call (list (LRange * A))
| Call_match_first_forwards (s : LRange) A (go : direction -> program A) : call (option (LRange * A))
| Call_match_backwards (s : LRange) A (go : direction -> program A) : call (list (LRange * A))
| Call_match_first_backwards (s : LRange) A (go : direction -> program A) : call (option (LRange * A))
| Call_after (s : LRange) : call (option LRange)
| Call_split_with (s o : LRange) : call (option LRange * option LRange)
| Call_trim (s : LRange) A (go : direction -> program A) : call (option LRange)
| Call_trim_start (s : LRange) A (go : direction -> program A) : call (option LRange)
| Call_trim_end (s : LRange) A (go : direction -> program A) : call (option LRange).

Definition seen {A} (x : LLSelection * A) : LRange * A := (range_of (fst x), snd x).
Definition perform (rc : RcLine) {X} (c : call X) : res X :=
  match c with
  | Call_split_by s _ go => rmap (map range_of) (split_by (at_range rc s) (matcher_by go))
  | Call_find_by s _ go => rmap (map seen) (find_by (at_range rc s) (matcher_by go))
  | Call_find_first_by s _ go => rmap (option_map seen) (find_first_by (at_range rc s) (matcher_by go))
  | Call_find_both s _ go => rmap (map seen) (find_by_forwards_and_backwards (at_range rc s) (matcher_by go))
  | Call_match_forwards s _ go => rmap (map seen) (match_forwards (at_range rc s) (matcher_by go))
  | Call_match_first_forwards s _ go => rmap (option_map seen) (match_first_forwards (at_range rc s) (matcher_by go))
  | Call_match_backwards s _ go => rmap (map seen) (match_backwards (at_range rc s) (matcher_by go))
  | Call_match_first_backwards s _ go => rmap (option_map seen) (match_first_backwards (at_range rc s) (matcher_by go))
  | Call_after s => rmap (option_map range_of) (sel_after (at_range rc s))
  | Call_split_with s o =>
      rmap (fun '(p, q) => (option_map range_of p, option_map range_of q)) (split_with (at_range rc s) (at_range rc o))
  | Call_trim s _ go => rmap (option_map range_of) (trim (at_range rc s) (matcher_by go))
  | Call_trim_start s _ go => rmap (option_map range_of) (trim_start (at_range rc s) (matcher_by go))
  | Call_trim_end s _ go => rmap (option_map range_of) (trim_end (at_range rc s) (matcher_by go))
  end.

(** The body of a user's [Resolver::go] (src/ll_line.rs:304-312): any computation that makes such
    calls, goes on depending on the answers, and at last finishes selections, perhaps keeping one. *)
Inductive code (t : ty) : Type :=
| C_done (out : list (LRange * den t)) (keeps : bool)
| C_call (X : Type) (c : call X) (k : X -> code t)
| C_panic (p : panic).
Fixpoint carry_out (rc : RcLine) {t} (c : code t) : res (GoResult t) :=
  match c with
  | C_done _ out keeps => Ok (mkGo (map (fun '(r, v) => finish_with_attr (at_range rc r) v) out) keeps)
  | C_call _ _ c k => x <- perform rc c;; carry_out rc (k x)
  | C_panic _ p => Panic p
  end.
Definition resolver_by {t} (c : LRange -> code t) : Resolver t := fun s => carry_out (sel_line s) (c (range_of s)).

(** The selections in an answer. *)
Definition answered {X} (c : call X) : X -> list LRange :=
  match c with
  | Call_split_by _ _ _ => fun x => x
  | Call_find_by _ _ _ | Call_find_both _ _ _ | Call_match_forwards _ _ _ | Call_match_backwards _ _ _ => map fst
  | Call_find_first_by _ _ _ | Call_match_first_forwards _ _ _ | Call_match_first_backwards _ _ _ =>
      fun x => map fst (opt_list x)
  | Call_after _ | Call_trim _ _ _ | Call_trim_start _ _ _ | Call_trim_end _ _ _ => fun x => opt_list x
  | Call_split_with _ _ => fun x => opt_list (fst x) ++ opt_list (snd x)
  end.

(** Selections cannot be built outside the crate either: a resolver has only the one it was
    given and those it has got as answers, here [S].  It may call [after] only if [aft].  Its matchers may
    have kept indexes of the line, which has [n] tokens. *)
Inductive call_on (n : nat) (aft : bool) (S : LRange -> Prop) : forall X, call X -> Prop :=
| ON_split_by s A go : S s -> (forall d, honest (fun j => j < n) (eq d) (go d)) -> call_on n aft S _ (Call_split_by s A go)
| ON_find_by s A go : S s -> (forall d, honest (fun j => j < n) (eq d) (go d)) -> call_on n aft S _ (Call_find_by s A go)
| ON_find_first_by s A go : S s -> (forall d, honest (fun j => j < n) (eq d) (go d)) -> call_on n aft S _ (Call_find_first_by s A go)
| ON_find_both s A go : S s -> (forall d, honest (fun j => j < n) (eq d) (go d)) -> call_on n aft S _ (Call_find_both s A go)
| ON_match_forwards s A go : S s -> (forall d, honest (fun j => j < n) (eq d) (go d)) -> call_on n aft S _ (Call_match_forwards s A go)
| ON_match_first_forwards s A go : S s -> (forall d, honest (fun j => j < n) (eq d) (go d)) -> call_on n aft S _ (Call_match_first_forwards s A go)
| ON_match_backwards s A go : S s -> (forall d, honest (fun j => j < n) (eq d) (go d)) -> call_on n aft S _ (Call_match_backwards s A go)
| ON_match_first_backwards s A go : S s -> (forall d, honest (fun j => j < n) (eq d) (go d)) -> call_on n aft S _ (Call_match_first_backwards s A go)
| ON_after s : S s -> aft = true -> call_on n aft S _ (Call_after s)
| ON_split_with s o : S s -> S o -> call_on n aft S _ (Call_split_with s o)
| ON_trim s A go : S s -> (forall d, honest (fun j => j < n) (eq d) (go d)) -> call_on n aft S _ (Call_trim s A go)
| ON_trim_start s A go : S s -> (forall d, honest (fun j => j < n) (eq d) (go d)) -> call_on n aft S _ (Call_trim_start s A go)
| ON_trim_end s A go : S s -> (forall d, honest (fun j => j < n) (eq d) (go d)) -> call_on n aft S _ (Call_trim_end s A go).
Inductive honest_code (n : nat) (aft : bool) {t} : (LRange -> Prop) -> code t -> Prop :=
| HC_done (S : LRange -> Prop) out keeps : (forall r v, In (r, v) out -> S r) -> honest_code n aft S (C_done _ out keeps)
| HC_call (S : LRange -> Prop) X c k : call_on n aft S X c ->
    (forall x, honest_code n aft (fun r => S r \/ In r (answered c x)) (k x)) -> honest_code n aft S (C_call _ X c k)
| HC_panic (S : LRange -> Prop) p : honest_code n aft S (C_panic _ p).

(** Its matchers only ask for attributes of types in [P]. *)
Inductive call_asks (P : ty -> Prop) (h : bool) : forall X, call X -> Prop :=
| CA_split_by s A go : (forall d, asks P h (go d)) -> call_asks P h _ (Call_split_by s A go)
| CA_find_by s A go : (forall d, asks P h (go d)) -> call_asks P h _ (Call_find_by s A go)
| CA_find_first_by s A go : (forall d, asks P h (go d)) -> call_asks P h _ (Call_find_first_by s A go)
| CA_find_both s A go : (forall d, asks P h (go d)) -> call_asks P h _ (Call_find_both s A go)
| CA_match_forwards s A go : (forall d, asks P h (go d)) -> call_asks P h _ (Call_match_forwards s A go)
| CA_match_first_forwards s A go : (forall d, asks P h (go d)) -> call_asks P h _ (Call_match_first_forwards s A go)
| CA_match_backwards s A go : (forall d, asks P h (go d)) -> call_asks P h _ (Call_match_backwards s A go)
| CA_match_first_backwards s A go : (forall d, asks P h (go d)) -> call_asks P h _ (Call_match_first_backwards s A go)
| CA_after s : call_asks P h _ (Call_after s)
| CA_split_with s o : call_asks P h _ (Call_split_with s o)
| CA_trim s A go : (forall d, asks P h (go d)) -> call_asks P h _ (Call_trim s A go)
| CA_trim_start s A go : (forall d, asks P h (go d)) -> call_asks P h _ (Call_trim_start s A go)
| CA_trim_end s A go : (forall d, asks P h (go d)) -> call_asks P h _ (Call_trim_end s A go).
Inductive code_asks (P : ty -> Prop) (h : bool) {t} : code t -> Prop :=
| CO_done out keeps : code_asks P h (C_done _ out keeps)
| CO_call X c k : call_asks P h X c -> (forall x, code_asks P h (k x)) -> code_asks P h (C_call _ X c k)
| CO_panic p : code_asks P h (C_panic _ p).

End SpecUser.
