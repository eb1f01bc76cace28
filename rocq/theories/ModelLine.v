(** Model of src/ll_line.rs: tokens, lines, run, query.  ([find] is in
    ModelSel.v as it needs matchers.) *)

From Verif Require Export ModelStore.

(** src/ll_line.rs:38-43 [enum LToken] *)
Inductive LToken : Type :=
| LText (text : str) (tag : TextTag)
| LValue.

(** src/ll_line.rs:45-54 [struct LLToken] *)
Record LLToken : Type := mkLLToken {
  token_idx : nat;
  pos_starts_at : N;
  pos_ends_at : N;
  token : LToken;
}.

Section Line.
Context {U : UserTypes}.

(** src/ll_line.rs:69-77 [struct LLLineAttrs] *)
Record LLLineAttrs : Type := mkAttrs {
  ranges : TypeIdToMany;
  starts_at : list TypeIdToMany;
  ends_at : list TypeIdToMany;
  values : list (LRange * TypeBucket);
}.

(** src/ll_line.rs:106-110 [struct LLLine] *)
Record LLLine : Type := mkLine {
  ll_tokens : list LLToken;
  attrs : LLLineAttrs;
}.

(** src/ll_line.rs:272-285 [LLLineAttrs::insert] *)
Definition attrs_insert (a : LLLineAttrs) (range : LRange) (t : ty) (v : den t)
  : res LLLineAttrs :=
  sa <- update_nth PStartsAt (fst range) (fun m => tm_insert_distinct m t range) (starts_at a);;
  ea <- update_nth PEndsAt (snd range) (fun m => tm_insert_distinct m t range) (ends_at a);;
  vs <- map_entry range_eqb (values a) range tb_new (fun tb => tb_insert tb t v);;
  Ok (mkAttrs (tm_insert_distinct (ranges a) t range) sa ea vs).

(** src/ll_line.rs:187-204, one round of the loop of [LLLine::add_any_attrs] *)
Definition attrs_insert_any (a : LLLineAttrs) (range : LRange) (attr : AnyAttribute)
  : res LLLineAttrs :=
  let t := aa_key attr in
  sa <- update_nth PStartsAt (fst range) (fun m => tm_insert_distinct m t range) (starts_at a);;
  ea <- update_nth PEndsAt (snd range) (fun m => tm_insert_distinct m t range) (ends_at a);;
  vs <- map_entry range_eqb (values a) range tb_new (fun tb => tb_insert_any_attribute tb attr);;
  Ok (mkAttrs (tm_insert_distinct (ranges a) t range) sa ea vs).

(** src/ll_line.rs:126-141, one round of the loop of [LLLine::new] *)
Definition new_token_attrs (a : LLLineAttrs) (it : nat * LLToken) : res LLLineAttrs :=
  let '(i, tok) := it in
  match token tok with
  | LText text tag =>
      a1 <- (match text with
             | [c] => attrs_insert a (i, i) TChar c
             | _ => Ok a
             end);;
      attrs_insert a1 (i, i) TTextTag tag
  | LValue => Ok a
  end.

(** [iter().enumerate()] of src/ll_line.rs:126 *)
Fixpoint enumerate_from {A} (i : nat) (l : list A) : list (nat * A) :=
  match l with [] => [] | a :: l' => (i, a) :: enumerate_from (S i) l' end.

(** src/ll_line.rs:113-144 [LLLine::new] *)
Definition line_new (toks : list LLToken) : res LLLine :=
  let empties := map (fun _ => ([] : TypeIdToMany)) (seq 0 (length toks)) in
  a <- foldM new_token_attrs (enumerate_from 0 toks) (mkAttrs [] empties empties []);;
  Ok (mkLine toks a).

(** src/ll_line.rs:179-205 [LLLine::add_any_attrs] *)
Definition add_any_attrs (l : LLLine) (start_idx end_idx : nat) (ats : list AnyAttribute)
  : res LLLine :=
  a <- foldM (fun a attr => attrs_insert_any a (start_idx, end_idx) attr) ats (attrs l);;
  Ok (mkLine (ll_tokens l) a).

(** [Rc<LLLine>] of src/ll_line.rs:155 and src/ll_line/ll_selection.rs:29: the line with the identity of the allocation
    ([Rc::ptr_eq], src/ll_line.rs:289, compares identities). *)
Record RcLine : Type := mkRc { rc_id : N; rc_line : LLLine }.

(** src/ll_line/ll_selection.rs:26-34 [struct LLSelection] *)
Record LLSelection : Type := mkSel {
  sel_line : RcLine;
  start_idx : nat;
  end_idx : nat;
}.

(** src/ll_line.rs:296-302 [struct LLCursorAssignment] *)
Record LLCursorAssignment (t : ty) : Type := mkAssign {
  as_start : nat;
  as_end : nat;
  as_value : den t;
}.
Arguments mkAssign {t}. Arguments as_start {t}. Arguments as_end {t}. Arguments as_value {t}.

(** What a resolver's [go] (src/ll_line.rs:311) leaves behind: its assignments, and whether a clone
    of the [Rc] of the line is still alive somewhere (e.g. a selection stored in
    a cell of the resolver), which makes [Rc::try_unwrap] fail, src/ll_line.rs:163-165. *)
Record GoResult (t : ty) : Type := mkGo {
  go_assignments : list (LLCursorAssignment t);
  go_retained : bool;
}.
Arguments mkGo {t}. Arguments go_assignments {t}. Arguments go_retained {t}.

(** src/ll_line.rs:304-312 [trait Resolver]; [t] is the code of [Attr].  A
    resolver is an arbitrary function (for one with hidden state see [mem_resolver],
    ModelState.v). *)
Definition Resolver (t : ty) : Type := LLSelection -> res (GoResult t).

(** src/ll_line.rs:167-175, storing the assignments *)
Definition store_assignments {t : ty} (l : LLLine) (ass : list (LLCursorAssignment t))
  : res LLLine :=
  a <- foldM (fun a x => attrs_insert a (as_start x, as_end x) t (as_value x)) ass (attrs l);;
  Ok (mkLine (ll_tokens l) a).

(** src/ll_line.rs:157-161, the selection of the whole line handed to the resolver *)
Definition whole (id : N) (l : LLLine) : LLSelection :=
  mkSel (mkRc id l) 0 (length (ll_tokens l) - 1).

(** src/ll_line.rs:146-178 [LLLine::run]; [id] is the identity of the new [Rc]. *)
Definition run {t : ty} (id : N) (l : LLLine) (r : Resolver t) : res LLLine :=
  match ll_tokens l with
  | [] => Ok l
  | _ :: _ =>
      g <- r (whole id l);;
      if go_retained g then Panic PRcShared
      else store_assignments l (go_assignments g)
  end.

(** src/ll_line.rs:256-259, the text of a token in [LLLine::query] *)
Definition token_str (tok : LLToken) : str :=
  match token tok with LText text _ => text | LValue => [] end.

(** [&v[a..=b]] of src/ll_line.rs:255 *)
Definition slice_incl {A} (v : list A) (a b : nat) : res (list A) :=
  if (a <=? S b) && (S b <=? length v) then Ok (firstn (S b - a) (skipn a v))
  else Panic PSlice.

(** src/ll_line.rs:248-269 [LLLine::query] *)
Definition query (l : LLLine) (t : ty) : res (list (LRange * str * list (den t))) :=
  mapM (fun range =>
          toks <- slice_incl (ll_tokens l) (fst range) (snd range);;
          tb <- expect PIndex (map_get range_eqb (values (attrs l)) range);;
          vs <- tb_get tb t;;
          Ok (range, concat (map token_str toks), vs))
       (tm_get (ranges (attrs l)) t).

End Line.

Arguments mkAssign {U t}. Arguments as_start {U t}. Arguments as_end {U t}. Arguments as_value {U t}.
Arguments mkGo {U t}. Arguments go_assignments {U t}. Arguments go_retained {U t}.
