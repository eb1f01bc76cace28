(** Basic vocabulary of the model: panics as data, and monadic list
    operations.  Nothing in this file is specific to layered-nlp. *)

From Coq Require Export List Arith NArith ZArith Bool Lia Permutation.
Export ListNotations.

(** Every panic site of the modelled code is a distinct value; the file and
    lines are beside each constructor (e.g. src/create_tokens.rs:62-65). *)
Inductive panic : Type :=
| PEmptyText          (* src/create_tokens.rs:62-65  assert! non-empty *)
| PNonAsciiDigitWord  (* src/create_tokens.rs:107-111 assert! is_ascii *)
| POverflow           (* arithmetic overflow, with overflow checks on *)
| PStartsAt           (* src/ll_line.rs:191,276 expect("has initial starts_at ...") *)
| PEndsAt             (* src/ll_line.rs:196,280 expect("has initial ends_at ...") *)
| PDowncast           (* src/type_bucket.rs:169,203,219,230 failing downcast *)
| PFwdAtEnd           (* src/ll_line/x.rs:92,119,146 expect("Huh... match_forwards ...") *)
| PBwdOut             (* src/ll_line/x.rs:198,228,256 expect("Huh...") *)
| PFwdText            (* src/ll_line/x.rs:165 expect("Huh... XForwards::text_token ...") *)
| PMissingValues      (* src/ll_line/x.rs:100,127,206,236,264 unwrap() on values.get(range) *)
| PPosBounds          (* src/ll_line.rs:236,243 expect("pos_..._at in bounds") *)
| PSlice              (* src/ll_line.rs:255 slice index *)
| PIndex              (* src/ll_line.rs:265, src/ll_line/display.rs:72,79 index *)
| PRcShared           (* src/ll_line.rs:165 expect("there is no other Rc currently") *)
| PDifferentLines     (* src/ll_line.rs:290 panic!("Two different lines used") *)
| PTodo               (* src/ll_line/ll_selection.rs:215,222 todo!() *)
| PDecimalParse       (* layered-amount/src/amounts.rs:115 parse::<Decimal>().unwrap() *)
| PUser               (* a panic inside user supplied code (resolver, closure) *).

(** Result of running a piece of Rust code: a value, a panic, or (only for the
    fuelled loops of the model) exhaustion of the model's fuel.  The fuelled
    loops are those of layered-amount/src/amounts.rs:65-123 and 72-91. *)
Inductive res (A : Type) : Type :=
| Ok (a : A)
| Panic (p : panic)
| OutOfFuel.
Arguments Ok {A} a.
Arguments Panic {A} p.
Arguments OutOfFuel {A}.

(** Statement sequencing: a panic unwinds past the rest of the function, at
    every call in /repo that can panic (e.g. src/ll_line.rs:273-284). *)
Definition bind {A B} (x : res A) (f : A -> res B) : res B :=
  match x with
  | Ok a => f a
  | Panic p => Panic p
  | OutOfFuel => OutOfFuel
  end.

(** [x <- e;; k]: [let x = e; k], e.g. src/ll_line.rs:157-177. *)
Declare Scope res_scope.
Delimit Scope res_scope with res.
Notation "x <- e ;; k" := (bind e (fun x => k))
  (at level 61, e at next level, right associativity) : res_scope.
Notation "' p <- e ;; k" := (bind e (fun x => match x with p => k end))
  (at level 61, p pattern, e at next level, right associativity) : res_scope.
Open Scope res_scope.

(** A pure step after a step that can panic, e.g. src/ll_line/ll_selection.rs:132
    [self.find_by(matcher).into_iter().next()]. *)
Definition rmap {A B} (f : A -> B) (x : res A) : res B := bind x (fun a => Ok (f a)).

(** [iter.map(f).collect()], evaluated left to right; the first panic wins.
    E.g. src/ll_line.rs:252-268. *)
Fixpoint mapM {A B} (f : A -> res B) (l : list A) : res (list B) :=
  match l with
  | [] => Ok []
  | a :: l' => b <- f a;; bs <- mapM f l';; Ok (b :: bs)
  end.

(** [iter.flat_map(f).collect()], e.g. src/ll_line.rs:215-229,
    src/ll_line/ll_selection.rs:106-125. *)
Definition flat_mapM {A B} (f : A -> res (list B)) (l : list A) : res (list B) :=
  rmap (@concat B) (mapM f l).

(** [for a in l { s = f(s, a) }], e.g. src/ll_line.rs:126-141,168-175,187-204,
    src/create_tokens.rs:56-82,100-203. *)
Fixpoint foldM {S A} (f : S -> A -> res S) (l : list A) (s : S) : res S :=
  match l with
  | [] => Ok s
  | a :: l' => s' <- f s a;; foldM f l' s'
  end.

(** [opt.expect(..)] / [opt.unwrap()], e.g. src/ll_line.rs:236,243,276,280,
    src/ll_line/x.rs:92,100. *)
Definition expect {A} (p : panic) (o : option A) : res A :=
  match o with Some a => Ok a | None => Panic p end.

(** [option.into_iter().collect()], e.g. src/ll_line/ll_selection.rs:81,94,
    src/ll_line/x/token_text.rs:12. *)
Definition opt_list {A} (o : option A) : list A :=
  match o with Some a => [a] | None => [] end.

(** [iter.filter_map(f).collect()], e.g. src/ll_line/ll_selection.rs:95-100,
    src/ll_line/x.rs:87-112. *)
Fixpoint filter_map {A B} (f : A -> option B) (l : list A) : list B :=
  match l with
  | [] => []
  | a :: l' => match f a with Some b => b :: filter_map f l' | None => filter_map f l' end
  end.

(** [usize::checked_sub], src/ll_line/ll_selection.rs:79,89,98,344. *)
Definition checked_sub (a b : nat) : option nat :=
  if b <=? a then Some (a - b) else None.

(** [a - b] on [usize] where the code assumes no underflow:
    src/ll_line/ll_selection.rs:258, src/create_tokens.rs:79-80 (simplification:
    underflow is a panic also without overflow checks; it needs an empty line,
    and selections of empty lines do not exist). *)
Definition sub_usize (a b : nat) : res nat := expect POverflow (checked_sub a b).

(** [vec.get_mut(i).expect(..)] then an update in place: src/ll_line.rs:188-197,
    274-281. *)
Fixpoint update_nth {A} (p : panic) (i : nat) (f : A -> A) (l : list A) : res (list A) :=
  match l, i with
  | [], _ => Panic p
  | a :: l', O => Ok (f a :: l')
  | a :: l', S i' => l'' <- update_nth p i' f l';; Ok (a :: l'')
  end.

(** [std::collections::HashMap] as an association list with at most one entry
    per key.  Iteration order is not observable in the modelled code except
    where stated (src/resolvers/text_match.rs:22-30). *)
Section HashMap.
  Context {K V : Type} (eqk : K -> K -> bool).

  (** [map.get(k)]: src/type_bucket.rs:218,226, src/type_id_to_many.rs:29-33,
      src/ll_line.rs:265, src/ll_line/display.rs:110, src/resolvers/text_match.rs:51-53 *)
  Fixpoint map_get (m : list (K * V)) (k : K) : option V :=
    match m with
    | [] => None
    | (k', v) :: m' => if eqk k' k then Some v else map_get m' k
    end.

  (** [f(map.entry(k).or_insert(dflt))], where [f] may panic:
      src/type_bucket.rs:190,198-204, src/ll_line.rs:199-203,283 *)
  Fixpoint map_entry (m : list (K * V)) (k : K) (dflt : V) (f : V -> res V)
    : res (list (K * V)) :=
    match m with
    | [] => v <- f dflt;; Ok [(k, v)]
    | (k', v) :: m' =>
        if eqk k' k then v' <- f v;; Ok ((k', v') :: m')
        else m'' <- map_entry m' k dflt f;; Ok ((k', v) :: m'')
    end.

  (** [map.insert(k, v)], as in [collect] of src/resolvers/text_match.rs:25-28,34-37 *)
  Fixpoint map_insert (m : list (K * V)) (k : K) (v : V) : list (K * V) :=
    match m with
    | [] => [(k, v)]
    | (k', v') :: m' => if eqk k' k then (k', v) :: m' else (k', v') :: map_insert m' k v
    end.
End HashMap.
