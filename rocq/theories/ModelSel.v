(** Model of src/ll_line/ll_selection.rs, src/ll_line/finish_with.rs and of
    [LLLine::find] (src/ll_line.rs). *)

From Verif Require Export ModelMatch.

Section Sel.
Context {U : UserTypes}.

(** the field [ll_line] of a selection, src/ll_line/ll_selection.rs:29 *)
Definition line_of (s : LLSelection) : LLLine := rc_line (sel_line s).
(** [self.ll_line.ll_tokens.len()], src/ll_line/ll_selection.rs:56,180,258 *)
Definition line_len (s : LLSelection) : nat := length (ll_tokens (line_of s)).

(** [a..=b] as an iterator, src/ll_line/ll_selection.rs:106,139 *)
Definition range_incl (a b : nat) : list nat := seq a (S b - a).

(** src/ll_line/ll_selection.rs:45-51 [PartialEq for LLSelection] *)
Definition sel_eqb (a b : LLSelection) : bool :=
  Nat.eqb (start_idx a) (start_idx b) && Nat.eqb (end_idx a) (end_idx b)
  && N.eqb (rc_id (sel_line a)) (rc_id (sel_line b)).

(** src/ll_line/ll_selection.rs:55-66 [LLSelection::from_line] *)
Definition from_line (rc : RcLine) : option LLSelection :=
  let len := length (ll_tokens (rc_line rc)) in
  if 0 <? len then Some (mkSel rc 0 (len - 1)) else None.

(** src/ll_line/ll_selection.rs:271-283 [selection_from] *)
Definition selection_from (self : LLSelection) (s e : nat) : option LLSelection :=
  let s' := Nat.max s (start_idx self) in
  let e' := Nat.min e (end_idx self) in
  if s' <=? e' then Some (mkSel (sel_line self) s' e') else None.

(** src/ll_line/ll_selection.rs:105-126 [find_by] *)
Definition find_by {A} (self : LLSelection) (m : matcher A) : res (list (LLSelection * A)) :=
  flat_mapM (fun i =>
      ms <- m (Fwd i) (line_of self);;
      Ok (map (fun '(out, j) => (mkSel (sel_line self) i j, out)) ms))
    (range_incl (start_idx self) (end_idx self)).

(** [vec.into_iter().next()], src/ll_line/ll_selection.rs:132,208,254 *)
Definition hd_opt {A} (l : list A) : option A := match l with [] => None | a :: _ => Some a end.

(** src/ll_line/ll_selection.rs:128-133 [find_first_by] *)
Definition find_first_by {A} (self : LLSelection) (m : matcher A)
  : res (option (LLSelection * A)) := rmap (@hd_opt _) (find_by self m).

(** [.checked_sub(1).and_then(|end_idx| self.selection_from(s, end_idx))],
    src/ll_line/ll_selection.rs:76-80,86-90,96-99 *)
Definition selection_before (self : LLSelection) (s next_start : nat) : option LLSelection :=
  match checked_sub next_start 1 with
  | Some e => selection_from self s e
  | None => None
  end.

(** [matches.windows(2)], src/ll_line/ll_selection.rs:95 *)
Fixpoint windows2 {A} (l : list A) : list (A * A) :=
  match l with
  | a :: ((b :: _) as l') => (a, b) :: windows2 l'
  | _ => []
  end.

(** src/ll_line/ll_selection.rs:68-103 [split_by] *)
Definition split_by {A} (self : LLSelection) (m : matcher A) : res (list LLSelection) :=
  matches <- find_by self m;;
  match matches with
  | [] => Ok [self]
  | [m0] =>
      Ok (opt_list (selection_before self (start_idx self) (start_idx (fst m0)))
          ++ opt_list (selection_from self (S (end_idx (fst m0))) (end_idx self)))
  | m0 :: _ =>
      let start_opt := selection_before self (start_idx self) (start_idx (fst m0)) in
      let last_m := last matches m0 in
      let end_opt := selection_from self (S (end_idx (fst last_m))) (end_idx self) in
      Ok (opt_list start_opt
          ++ filter_map (fun '(w0, w1) =>
               selection_before self (S (end_idx (fst w0))) (start_idx (fst w1)))
               (windows2 matches)
          ++ opt_list end_opt)
  end.

(** src/ll_line/ll_selection.rs:135-175 [find_by_forwards_and_backwards] *)
Definition find_by_forwards_and_backwards {A} (self : LLSelection) (m : matcher A)
  : res (list (LLSelection * A)) :=
  flat_mapM (fun i =>
      fs <- m (Fwd i) (line_of self);;
      bs <- m (Bwd i) (line_of self);;
      Ok (map (fun '(out, j) => (mkSel (sel_line self) i j, out)) fs
          ++ map (fun '(out, j) => (mkSel (sel_line self) j i, out)) bs))
    (range_incl (start_idx self) (end_idx self)).

(** src/ll_line/ll_selection.rs:177-202 [match_forwards] *)
Definition match_forwards {A} (self : LLSelection) (m : matcher A)
  : res (list (LLSelection * A)) :=
  if Nat.eqb (S (end_idx self)) (line_len self) then Ok []
  else
    ms <- m (Fwd (S (end_idx self))) (line_of self);;
    Ok (map (fun '(out, j) => (mkSel (sel_line self) (start_idx self) j, out)) ms).

(** src/ll_line/ll_selection.rs:204-209 [match_first_forwards] *)
Definition match_first_forwards {A} (self : LLSelection) (m : matcher A)
  : res (option (LLSelection * A)) := rmap (@hd_opt _) (match_forwards self m).

(** src/ll_line/ll_selection.rs:211-216 [match_forwards_longest] *)
Definition match_forwards_longest {A} (self : LLSelection) (m : matcher A)
  : res (option (LLSelection * A)) := Panic PTodo.
(** src/ll_line/ll_selection.rs:218-223 [match_forwards_shortest] *)
Definition match_forwards_shortest {A} (self : LLSelection) (m : matcher A)
  : res (option (LLSelection * A)) := Panic PTodo.

(** src/ll_line/ll_selection.rs:225-248 [match_backwards] *)
Definition match_backwards {A} (self : LLSelection) (m : matcher A)
  : res (list (LLSelection * A)) :=
  if Nat.eqb (start_idx self) 0 then Ok []
  else
    ms <- m (Bwd (start_idx self - 1)) (line_of self);;
    Ok (map (fun '(out, j) => (mkSel (sel_line self) j (end_idx self), out)) ms).

(** src/ll_line/ll_selection.rs:250-255 [match_first_backwards] *)
Definition match_first_backwards {A} (self : LLSelection) (m : matcher A)
  : res (option (LLSelection * A)) := rmap (@hd_opt _) (match_backwards self m).

(** src/ll_line/ll_selection.rs:257-269 [after] *)
Definition sel_after (self : LLSelection) : res (option LLSelection) :=
  ll_line_end <- sub_usize (line_len self) 1;;
  if Nat.eqb (S (start_idx self)) ll_line_end then Ok None
  else Ok (Some (mkSel (sel_line self) (S (end_idx self)) ll_line_end)).

(** src/ll_line/ll_selection.rs:286-306 [split_with], src/ll_line.rs:288-292 *)
Definition split_with (self other : LLSelection)
  : res (option LLSelection * option LLSelection) :=
  if N.eqb (rc_id (sel_line self)) (rc_id (sel_line other)) then
    Ok (if 0 <? start_idx other
        then selection_from self (start_idx self) (start_idx other - 1)
        else None,
        selection_from self (S (end_idx other)) (end_idx self))
  else Panic PDifferentLines.

(** src/ll_line/ll_selection.rs:309-358 [trim_selection] *)
Definition trim_selection {A} (self : LLSelection) (m : matcher A) (from_start from_end : bool)
  : res (option LLSelection) :=
  new_start <-
    (if from_start then
       ms <- m (Fwd (start_idx self)) (line_of self);;
       Ok (match ms with (_, j) :: _ => j + 1 | [] => start_idx self end)
     else Ok (start_idx self));;
  new_end <-
    (if from_end then
       ms <- m (Bwd (end_idx self)) (line_of self);;
       Ok (match ms with
           | (_, j) :: _ => match checked_sub j 1 with Some k => k | None => j end
           | [] => end_idx self
           end)
     else Ok (end_idx self));;
  Ok (if (start_idx self <=? new_end) && (new_start <=? new_end)
      then Some (mkSel (sel_line self) new_start new_end) else None).

(** src/ll_line/ll_selection.rs:360-362 [trim_start] *)
Definition trim_start {A} (self : LLSelection) (m : matcher A) := trim_selection self m true false.
(** src/ll_line/ll_selection.rs:364-366 [trim_end] *)
Definition trim_end {A} (self : LLSelection) (m : matcher A) := trim_selection self m false true.
(** src/ll_line/ll_selection.rs:368-370 [trim] *)
Definition trim {A} (self : LLSelection) (m : matcher A) := trim_selection self m true true.

(** src/ll_line/ll_selection.rs:372-378 [finish_with_attr] *)
Definition finish_with_attr {t : ty} (self : LLSelection) (v : den t) : LLCursorAssignment t :=
  mkAssign (start_idx self) (end_idx self) v.

(** src/ll_line/finish_with.rs:7-13 [FinishWith::finish_with] *)
Definition finish_with {t : ty} {T} (l : list (LLSelection * T)) (f : T -> den t)
  : list (LLCursorAssignment t) :=
  map (fun '(sel, x) => finish_with_attr sel (f x)) l.

(** src/ll_line.rs:79-103 [struct LLLineFind], with [range] and [attr] *)
Record LLLineFind (A : Type) : Type := mkFind {
  start_pos_at : N;
  end_pos_at : N;
  found : A;
}.

(** src/ll_line.rs:232-238 [pos_end_at] *)
Definition pos_end_at (l : LLLine) (i : nat) : res N :=
  tok <- expect PPosBounds (nth_error (ll_tokens l) i);; Ok (pos_ends_at tok).
(** src/ll_line.rs:239-245 [pos_start_at] *)
Definition pos_start_at (l : LLLine) (i : nat) : res N :=
  tok <- expect PPosBounds (nth_error (ll_tokens l) i);; Ok (pos_starts_at tok).

(** src/ll_line.rs:214-230 [LLLine::find] *)
Definition find {A} (l : LLLine) (m : matcher A) : res (list (LLLineFind A)) :=
  flat_mapM (fun i =>
      ms <- m (Fwd i) l;;
      mapM (fun '(out, j) =>
              s <- pos_start_at l i;;
              e <- pos_end_at l j;;
              Ok (mkFind A s e out)) ms)
    (seq 0 (length (ll_tokens l))).

End Sel.
Arguments mkFind {A}. Arguments start_pos_at {A}. Arguments end_pos_at {A}. Arguments found {A}.
