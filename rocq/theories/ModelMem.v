(** Computations with a memory: code written by users (matchers, resolvers, size functions, [PartialEq], [Debug],
    [Clone], closures) takes [&self] or is an [Fn] (src/ll_line/x.rs:33, src/ll_line.rs:311,
    src/create_tokens.rs:48-50), behind which it may keep cells that it reads and changes (a counter, a cache). *)

From Verif Require Export Base.

(** A computation that may change the memory, and may panic: the methods of
    src/ll_line/ll_selection.rs:68-370 with a user's matcher.  What was written before a panic
    stays written. *)
Definition mem (M A : Type) : Type := M -> M * res A.

(** a step that does not touch the memory, e.g. the index arithmetic of src/ll_line/ll_selection.rs:260 *)
Definition lift {M A} (x : res A) : mem M A := fun st => (st, x).

(** statement sequencing as in [bind] (Base.v): e.g. src/ll_line/ll_selection.rs:73-102 *)
Definition mbind {M A B} (x : mem M A) (f : A -> mem M B) : mem M B := fun st =>
  let '(st', r) := x st in
  match r with
  | Ok a => f a st'
  | Panic p => (st', Panic p)
  | OutOfFuel => (st', OutOfFuel)
  end.

(** [let x = e; k] as in Base.v: e.g. src/ll_line/ll_selection.rs:315-336 *)
Declare Scope mem_scope.
Delimit Scope mem_scope with mem.
Notation "x <~ e ;; k" := (mbind e (fun x => k))
  (at level 61, e at next level, right associativity) : mem_scope.
Open Scope mem_scope.

(** [iter.map(f).collect()], the elements in turn: src/ll_line/ll_selection.rs:106-125 *)
Fixpoint mem_mapM {M A B} (f : A -> mem M B) (l : list A) : mem M (list B) :=
  match l with
  | [] => lift (Ok [])
  | a :: l' => b <~ f a;; bs <~ mem_mapM f l';; lift (Ok (b :: bs))
  end.

(** [iter.flat_map(f).collect()]: src/ll_line/ll_selection.rs:106-125, src/ll_line.rs:215-229 *)
Definition mem_flat_mapM {M A B} (f : A -> mem M (list B)) (l : list A) : mem M (list B) :=
  xs <~ mem_mapM f l;; lift (Ok (concat xs)).

(** [for a in l { s = f(s, a) }] as in [foldM] (Base.v): src/create_tokens.rs:56-82,100-203 *)
Fixpoint mem_foldM {M S A} (f : S -> A -> mem M S) (l : list A) (s : S) : mem M S :=
  match l with
  | [] => lift (Ok s)
  | a :: l' => s' <~ f s a;; mem_foldM f l' s'
  end.
