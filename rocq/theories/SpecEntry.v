(** Specification vocabulary for map entries (C78). *)

From Verif Require Export ModelEntry.

Section SpecEntry.
Context {U : UserTypes}.

(** A map from types to one value of each type. *)
Definition typed_map (m : AnyMap) : Prop :=
  NoDup (map fst m) /\ forall t a, In (t, a) m -> exists v : den t, a = mkany t v.
Definition has (m : AnyMap) (t : ty) (v : den t) : Prop := In (t, mkany t v) m.
Definition lacks (m : AnyMap) (t : ty) : Prop := forall v, ~ In (t, v) m.

(** [m'] is [m] except that it has this value of type [t], or none. *)
Definition with_value (m : AnyMap) (t : ty) (o : option (den t)) (m' : AnyMap) : Prop :=
  typed_map m'
  /\ (forall t' v, t' <> t -> (In (t', v) m' <-> In (t', v) m))
  /\ match o with Some v => has m' t v | None => lacks m' t end.

(** The reference is to the value [v] of type [t] in [m]. *)
Definition refers (m : AnyMap) (t : ty) (v : den t) (r : MutRef t) : Prop :=
  ref_value r = v /\ forall w, with_value m t (Some w) (ref_write r w).

End SpecEntry.
