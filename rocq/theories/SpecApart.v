(** Specification vocabulary for layers that do not read each other (C85). *)

From Verif Require Export SpecOrder.

Section SpecApart.
Context {UC : Unicode} {U : UserTypes}.

(** [l] comes from [l0] by the steps [ss], which look at and assign only types in [P], with runs
    of any other resolvers, assigning types not in [P], before, between and after them. *)
Inductive interleaved (P : ty -> Prop) (l0 : LLLine) : list (N * any_step) -> LLLine -> Prop :=
| IL_start : interleaved P l0 [] l0
| IL_step ss l id s l' :
    interleaved P l0 ss l -> P (writes s) -> (forall t, In t (reads s) -> P t) ->
    run_any id l s = Ok l' -> interleaved P l0 (ss ++ [(id, s)]) l'
| IL_other ss l t id (r : Resolver t) l' :
    interleaved P l0 ss l -> ~ P t -> run id l r = Ok l' -> interleaved P l0 ss l'.

(** The two lines answer alike about the types in [P]. *)
Definition same_about (P : ty -> Prop) (l l' : LLLine) : Prop :=
  ll_tokens l = ll_tokens l'
  /\ (forall t, P t -> query l t = query l' t)
  /\ (forall A (m : matcher A) d, lib_matcher P false A m -> m d l = m d l')
  /\ (forall A (m : matcher A), lib_matcher P false A m -> find l m = find l' m)
  /\ (forall tg incs, (forall x, In x incs -> P (projT1 x)) -> show tg l incs = show tg l' incs).

End SpecApart.
