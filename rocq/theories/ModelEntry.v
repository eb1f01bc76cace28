(** Model of the entry types of src/type_bucket.rs:45-123.  Nothing in the crate uses them
    ([allow(dead_code)], and the function that made them is commented out,
    src/type_bucket.rs:262-278). *)

From Verif Require Export ModelStore.

Section Entry.
Context {U : UserTypes}.

(** [HashMap<TypeId, Box<dyn Any>>], the map behind the entries (src/type_bucket.rs:48,87) *)
Definition AnyMap : Type := list (ty * any).

(** src/type_bucket.rs:45-50 [struct OccupiedEntry]: std's entry is a place in the map, here
    what is before it, its key and value, and what is after it.  The marker is the [t] the
    functions below take. *)
Record OccupiedEntry : Type := mkOccupied {
  oe_before : AnyMap; oe_key : ty; oe_value : any; oe_after : AnyMap;
}.
(** the map with a value at the place of the entry (src/type_bucket.rs:48,71-72) *)
Definition oe_map (e : OccupiedEntry) (v : any) : AnyMap :=
  oe_before e ++ (oe_key e, v) :: oe_after e.

(** a [&mut T] into the map, of src/type_bucket.rs:59,65,93,108,117: the value, and the map after a value is
    written through it. *)
Record MutRef (t : ty) : Type := mkMutRef { ref_value : den t; ref_write : den t -> AnyMap }.
Arguments mkMutRef {t}.
Arguments ref_value {t}.
Arguments ref_write {t}.

(** src/type_bucket.rs:53-56 [OccupiedEntry::get] *)
Definition oe_get (t : ty) (e : OccupiedEntry) : res (den t) :=
  expect PDowncast (downcast t (oe_value e)).
(** src/type_bucket.rs:58-61 [OccupiedEntry::get_mut] *)
Definition oe_get_mut (t : ty) (e : OccupiedEntry) : res (MutRef t) :=
  v <- expect PDowncast (downcast t (oe_value e));;
  Ok (mkMutRef v (fun w => oe_map e (mkany t w))).
(** src/type_bucket.rs:63-67 [OccupiedEntry::into_mut] *)
Definition oe_into_mut (t : ty) (e : OccupiedEntry) : res (MutRef t) :=
  v <- expect PDowncast (downcast t (oe_value e));;
  Ok (mkMutRef v (fun w => oe_map e (mkany t w))).
(** src/type_bucket.rs:69-76 [OccupiedEntry::insert]: the old value and the map; on a panic
    the new value is in the map already. *)
Definition oe_insert (t : ty) (e : OccupiedEntry) (value : den t) : res (den t * AnyMap) :=
  old <- expect PDowncast (downcast t (oe_value e));;
  Ok (old, oe_map e (mkany t value)).
(** src/type_bucket.rs:78-81 [OccupiedEntry::remove] *)
Definition oe_remove (t : ty) (e : OccupiedEntry) : res (den t * AnyMap) :=
  old <- expect PDowncast (downcast t (oe_value e));;
  Ok (old, oe_before e ++ oe_after e).

(** src/type_bucket.rs:84-89 [struct VacantEntry]: the map and a key that is not in it *)
Record VacantEntry : Type := mkVacant { ve_map : AnyMap; ve_key : ty }.
(** src/type_bucket.rs:92-95 [VacantEntry::insert] *)
Definition ve_insert (t : ty) (e : VacantEntry) (value : den t) : res (MutRef t) :=
  v <- expect PDowncast (downcast t (mkany t value));;
  Ok (mkMutRef v (fun w => ve_map e ++ [(ve_key e, mkany t w)])).

(** src/type_bucket.rs:98-103 [enum Entry] *)
Inductive Entry : Type :=
| Occupied (inner : OccupiedEntry)
| Vacant (inner : VacantEntry).

(** src/type_bucket.rs:106-113 [Entry::or_insert] *)
Definition or_insert (t : ty) (e : Entry) (default : den t) : res (MutRef t) :=
  match e with
  | Occupied inner => oe_into_mut t inner
  | Vacant inner => ve_insert t inner default
  end.
(** src/type_bucket.rs:115-122 [Entry::or_insert_with]; the function may panic *)
Definition or_insert_with (t : ty) (e : Entry) (default : unit -> res (den t)) : res (MutRef t) :=
  match e with
  | Occupied inner => oe_into_mut t inner
  | Vacant inner => v <- default tt;; ve_insert t inner v
  end.

(** [HashMap::entry], as called in the commented-out src/type_bucket.rs:264-268: the place
    of the key, or that there is none.  [before] is what has been passed. *)
Fixpoint entry_from (before m : AnyMap) (k : ty) : Entry :=
  match m with
  | [] => Vacant (mkVacant before k)
  | (k', v) :: m' =>
      if ty_eqb k' k then Occupied (mkOccupied before k' v m')
      else entry_from (before ++ [(k', v)]) m' k
  end.
(** src/type_bucket.rs:262-278 (commented out) [TypeBucket::entry] *)
Definition entry_of (m : AnyMap) (t : ty) : Entry := entry_from [] m t.

End Entry.
Arguments mkMutRef {U t}.
Arguments ref_value {U t}.
Arguments ref_write {U t}.
