(** Specification vocabulary for selections. *)

From Verif Require Export SpecMatch.
From Coq Require Export Sorted.

Section SpecSel.
Context {U : UserTypes}.

(** The token [k] belongs to the selection. *)
Definition covers (s : LLSelection) (k : nat) : Prop := start_idx s <= k <= end_idx s.

(** A non-empty selection inside its line. *)
Definition sel_ok (s : LLSelection) : Prop := start_idx s <= end_idx s < line_len s.

(** The empty selection just past the last token. *)
Definition sel_past_end (s : LLSelection) : Prop :=
  0 < line_len s /\ start_idx s = line_len s /\ end_idx s = line_len s - 1.

(** Everything a resolver can make from the whole-line selection with library
    matchers; with [after] only if [aft]. *)
Inductive derived (aft : bool) (rc : RcLine) : LLSelection -> Prop :=
| D_whole s : from_line rc = Some s -> derived aft rc s
| D_split_by s has A (m : matcher A) ps s' : derived aft rc s -> lib_matcher any_ty has A m ->
    split_by s m = Ok ps -> In s' ps -> derived aft rc s'
| D_find_by s has A (m : matcher A) fs s' a : derived aft rc s -> lib_matcher any_ty has A m ->
    find_by s m = Ok fs -> In (s', a) fs -> derived aft rc s'
| D_find_first_by s has A (m : matcher A) s' a : derived aft rc s -> lib_matcher any_ty has A m ->
    find_first_by s m = Ok (Some (s', a)) -> derived aft rc s'
| D_find_both s has A (m : matcher A) fs s' a : derived aft rc s -> lib_matcher any_ty has A m ->
    find_by_forwards_and_backwards s m = Ok fs -> In (s', a) fs -> derived aft rc s'
| D_match_forwards s has A (m : matcher A) fs s' a : derived aft rc s -> lib_matcher any_ty has A m ->
    match_forwards s m = Ok fs -> In (s', a) fs -> derived aft rc s'
| D_match_first_forwards s has A (m : matcher A) s' a : derived aft rc s -> lib_matcher any_ty has A m ->
    match_first_forwards s m = Ok (Some (s', a)) -> derived aft rc s'
| D_match_backwards s has A (m : matcher A) fs s' a : derived aft rc s -> lib_matcher any_ty has A m ->
    match_backwards s m = Ok fs -> In (s', a) fs -> derived aft rc s'
| D_match_first_backwards s has A (m : matcher A) s' a : derived aft rc s -> lib_matcher any_ty has A m ->
    match_first_backwards s m = Ok (Some (s', a)) -> derived aft rc s'
| D_split_with_left s o s' r : derived aft rc s -> derived aft rc o ->
    split_with s o = Ok (Some s', r) -> derived aft rc s'
| D_split_with_right s o s' r : derived aft rc s -> derived aft rc o ->
    split_with s o = Ok (r, Some s') -> derived aft rc s'
| D_trim s has A (m : matcher A) s' : derived aft rc s -> lib_matcher any_ty has A m ->
    trim s m = Ok (Some s') -> derived aft rc s'
| D_trim_start s has A (m : matcher A) s' : derived aft rc s -> lib_matcher any_ty has A m ->
    trim_start s m = Ok (Some s') -> derived aft rc s'
| D_trim_end s has A (m : matcher A) s' : derived aft rc s -> lib_matcher any_ty has A m ->
    trim_end s m = Ok (Some s') -> derived aft rc s'
| D_after s s' : aft = true -> derived aft rc s -> sel_after s = Ok (Some s') -> derived aft rc s'.

(** The token [k] is part of some reported match. *)
Definition touched {A} (found : list (LLSelection * A)) (k : nat) : Prop :=
  exists s a, In (s, a) found /\ covers s k.

(** [ps] lists, in order, the maximal runs of tokens of [s] not in [P]. *)
Record maximal_runs (s : LLSelection) (P : nat -> Prop) (ps : list LLSelection) : Prop := {
  runs_inside : forall p, In p ps ->
    sel_line p = sel_line s /\ start_idx p <= end_idx p /\ start_idx s <= start_idx p /\ end_idx p <= end_idx s;
  runs_free : forall p k, In p ps -> covers p k -> ~ P k;
  runs_maximal_left : forall p, In p ps -> start_idx p = start_idx s \/ P (start_idx p - 1);
  runs_maximal_right : forall p, In p ps -> end_idx p = end_idx s \/ P (end_idx p + 1);
  runs_complete : forall k, covers s k -> ~ P k -> exists p, In p ps /\ covers p k;
  runs_ordered : StronglySorted (fun p q => end_idx p < start_idx q) ps;
}.

(** The part of [s] made of the tokens satisfying [P]: absent iff there are none. *)
Definition part_of (s : LLSelection) (P : nat -> Prop) (o : option LLSelection) : Prop :=
  match o with
  | Some p => sel_line p = sel_line s /\ start_idx p <= end_idx p
              /\ forall k, covers p k <-> covers s k /\ P k
  | None => forall k, ~ (covers s k /\ P k)
  end.

(** The tokens a forward match at the start of the selection removes. *)
Definition first_match_fwd {A} (ms : list (A * nat)) (k : nat) : Prop :=
  exists a j rest, ms = (a, j) :: rest /\ k <= j.
Definition first_match_bwd {A} (ms : list (A * nat)) (k : nat) : Prop :=
  exists a j rest, ms = (a, j) :: rest /\ j <= k.

(** The values matched on exactly the tokens from [i] to [j]. *)
Definition matched_on {A} (i j : nat) (found : list (LLSelection * A)) : list A :=
  filter_map (fun '(s, a) => if Nat.eqb (start_idx s) i && Nat.eqb (end_idx s) j then Some a else None) found.

(** A resolver call whose assignments all come from finishing selections made from
    the one it was given, and that does not keep any selection. *)
Definition well_behaved {t} (id : N) (l : LLLine) (r : Resolver t) : Prop :=
  exists g, r (whole id l) = Ok g /\ go_retained g = false
    /\ forall x, In x (go_assignments g) -> exists s v, derived false (mkRc id l) s /\ x = finish_with_attr s v.

End SpecSel.
