(** Map entries (C78), with concrete cases. *)

From Verif Require Export PropWords ThmEntry.

Local Open Scope string_scope.
Local Open Scope list_scope.

(** ** C78 Entries *)
Theorem C78_occupied {UC : Unicode} {U : UserTypes} :
  forall m t v, typed_map m -> has m t v ->
    exists e, entry_of m t = Occupied e /\ oe_get t e = Ok v
      /\ (exists r, oe_get_mut t e = Ok r /\ refers m t v r)
      /\ (exists r, oe_into_mut t e = Ok r /\ refers m t v r)
      /\ (forall w, exists m', oe_insert t e w = Ok (v, m') /\ with_value m t (Some w) m')
      /\ (exists m', oe_remove t e = Ok (v, m') /\ with_value m t None m').
Proof. exact thm_C78_occupied. Qed.
Theorem C78_vacant {UC : Unicode} {U : UserTypes} :
  forall m t, typed_map m -> lacks m t ->
    exists e, entry_of m t = Vacant e /\ forall w, exists r, ve_insert t e w = Ok r /\ refers m t w r.
Proof. exact thm_C78_vacant. Qed.
Theorem C78_or_insert {UC : Unicode} {U : UserTypes} :
  forall m t d, typed_map m ->
    exists v r, or_insert t (entry_of m t) d = Ok r /\ refers m t v r
      /\ (has m t v \/ lacks m t /\ v = d).
Proof. exact thm_C78_or_insert. Qed.
Theorem C78_or_insert_with {UC : Unicode} {U : UserTypes} :
  forall m t default, typed_map m ->
    (forall v, has m t v -> exists r, or_insert_with t (entry_of m t) default = Ok r /\ refers m t v r)
    /\ (forall d, lacks m t -> default tt = Ok d -> exists r, or_insert_with t (entry_of m t) default = Ok r /\ refers m t d r)
    /\ (forall p, lacks m t -> default tt = Panic p -> or_insert_with t (entry_of m t) default = Panic p).
Proof. exact thm_C78_or_insert_with. Qed.
Theorem C78_other_type {UC : Unicode} {U : UserTypes} :
  forall e t t' (v : den t'), oe_value e = mkany t' v -> t' <> t ->
    oe_get t e = Panic PDowncast /\ oe_get_mut t e = Panic PDowncast /\ oe_into_mut t e = Panic PDowncast
    /\ (forall w, oe_insert t e w = Panic PDowncast) /\ oe_remove t e = Panic PDowncast
    /\ (forall d, or_insert t (Occupied e) d = Panic PDowncast) /\ (forall f, or_insert_with t (Occupied e) f = Panic PDowncast).
Proof. exact thm_C78_other_type. Qed.
(** A map with a number and a char, and no string. *)
Definition map78 : AnyMap := [(TNum, mkany TNum 7%N); (TChar, mkany TChar 65%N)].
Example C78_case :
  typed_map map78 /\ has map78 TChar 65%N /\ lacks map78 TStr
  /\ (exists e, entry_of map78 TChar = Occupied e
       /\ oe_insert TChar e 66%N = Ok (65%N, [(TNum, mkany TNum 7%N); (TChar, mkany TChar 66%N)])
       /\ oe_remove TChar e = Ok (65%N, [(TNum, mkany TNum 7%N)])
       /\ oe_get TNum e = Panic PDowncast)
  /\ (exists r, or_insert TStr (entry_of map78 TStr) (of_string "w") = Ok r /\ ref_value r = of_string "w"
       /\ ref_write r (of_string "u") = map78 ++ [(TStr, mkany TStr (of_string "u"))])
  /\ (exists r, or_insert_with TNum (entry_of map78 TNum) (fun _ => Panic PUser) = Ok r /\ ref_value r = 7%N)
  /\ or_insert_with TStr (entry_of map78 TStr) (fun _ => Panic PUser) = Panic PUser.
Proof.
  split; [split|].
  - repeat constructor; cbn; intuition discriminate.
  - intros t a [E|[E|[]]]; injection E as <- <-; eauto.
  - split; [right; now left|]. split; [intros v [E|[E|[]]]; discriminate|].
    split; [eexists; repeat split|]. split; [eexists; repeat split|]. split; [eexists; repeat split|reflexivity].
Qed.
