(** Calls of a function with memory. *)

From Verif Require Export ModelMem.

(** Something is done with each of [args] in turn, from memory [st]; it leaves memory [st'].  The
    answers are collected; it ends at the first panic.  [F a st st' r]: done with [a] it goes from
    memory [st] to [st'] and answers [r]. *)
Inductive in_turn {M A B} (F : A -> M -> M -> res B -> Prop) : list A -> M -> M -> res (list B) -> Prop :=
| T_done st : in_turn F [] st st (Ok [])
| T_answer a args st st1 st' b r :
    F a st st1 (Ok b) -> in_turn F args st1 st' r -> in_turn F (a :: args) st st' (rmap (cons b) r)
| T_panic a args st st' p : F a st st' (Panic p) -> in_turn F (a :: args) st st' (Panic p)
| T_fuel a args st st' : F a st st' OutOfFuel -> in_turn F (a :: args) st st' OutOfFuel.

(** A call of [f]. *)
Definition calling {M A B} (f : A -> mem M B) (a : A) (st st' : M) (r : res B) : Prop := f a st = (st', r).

(** [f] is called with [args] in turn until it says yes. *)
Inductive until_yes {M A} (f : A -> mem M bool) : list A -> M -> M -> res bool -> Prop :=
| Y_none st : until_yes f [] st st (Ok false)
| Y_yes a args st st' : f a st = (st', Ok true) -> until_yes f (a :: args) st st' (Ok true)
| Y_no a args st st1 st' r : f a st = (st1, Ok false) -> until_yes f args st1 st' r -> until_yes f (a :: args) st st' r
| Y_panic a args st st' p : f a st = (st', Panic p) -> until_yes f (a :: args) st st' (Panic p)
| Y_fuel a args st st' : f a st = (st', OutOfFuel) -> until_yes f (a :: args) st st' OutOfFuel.

(** The elements that got the answer yes. *)
Definition those_with {A} (xs : list A) (answers : list bool) : list A := map fst (filter snd (combine xs answers)).

(** A function without memory that does not panic, among those with memory. *)
Definition plainly {M A B} (f : A -> B) : A -> mem M B := fun a st => (st, Ok (f a)).
