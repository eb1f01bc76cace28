(** Matchers and resolvers with memory.  [XMatch::go] and [Resolver::go] take [&self]
    (src/ll_line/x.rs:33, src/ll_line.rs:311), behind which a user's type may keep cells that
    it reads and changes (a counter, a cache).  Here the methods that call them are modelled
    once more, with the memory [M] of the user's value threaded through the calls in the order
    in which the code makes them. *)

From Verif Require Export ModelMem ModelSel.

Section State.
Context {U : UserTypes} {M : Type}.

(** src/ll_line/x.rs:24-36 [trait XMatch], the matcher with its memory *)
Definition mem_matcher (A : Type) : Type := direction -> LLLine -> mem M (list (A * nat)).

(** src/ll_line/ll_selection.rs:105-126 [find_by] *)
Definition mem_find_by {A} (self : LLSelection) (m : mem_matcher A) : mem M (list (LLSelection * A)) :=
  mem_flat_mapM (fun i =>
      ms <~ m (Fwd i) (line_of self);;
      lift (Ok (map (fun '(out, j) => (mkSel (sel_line self) i j, out)) ms)))
    (range_incl (start_idx self) (end_idx self)).

(** src/ll_line/ll_selection.rs:128-133 [find_first_by] *)
Definition mem_find_first_by {A} (self : LLSelection) (m : mem_matcher A) : mem M (option (LLSelection * A)) :=
  found <~ mem_find_by self m;; lift (Ok (hd_opt found)).

(** src/ll_line/ll_selection.rs:68-103 [split_by] *)
Definition mem_split_by {A} (self : LLSelection) (m : mem_matcher A) : mem M (list LLSelection) :=
  matches <~ mem_find_by self m;;
  match matches with
  | [] => lift (Ok [self])
  | [m0] =>
      lift (Ok (opt_list (selection_before self (start_idx self) (start_idx (fst m0)))
          ++ opt_list (selection_from self (S (end_idx (fst m0))) (end_idx self))))
  | m0 :: _ =>
      let start_opt := selection_before self (start_idx self) (start_idx (fst m0)) in
      let last_m := last matches m0 in
      let end_opt := selection_from self (S (end_idx (fst last_m))) (end_idx self) in
      lift (Ok (opt_list start_opt
          ++ filter_map (fun '(w0, w1) =>
               selection_before self (S (end_idx (fst w0))) (start_idx (fst w1)))
               (windows2 matches)
          ++ opt_list end_opt))
  end.

(** src/ll_line/ll_selection.rs:135-175 [find_by_forwards_and_backwards]: at each index first
    forwards (line 142), then, inside [chain], backwards (line 157) *)
Definition mem_find_both {A} (self : LLSelection) (m : mem_matcher A) : mem M (list (LLSelection * A)) :=
  mem_flat_mapM (fun i =>
      fs <~ m (Fwd i) (line_of self);;
      bs <~ m (Bwd i) (line_of self);;
      lift (Ok (map (fun '(out, j) => (mkSel (sel_line self) i j, out)) fs
          ++ map (fun '(out, j) => (mkSel (sel_line self) j i, out)) bs)))
    (range_incl (start_idx self) (end_idx self)).

(** src/ll_line/ll_selection.rs:177-202 [match_forwards] *)
Definition mem_match_forwards {A} (self : LLSelection) (m : mem_matcher A) : mem M (list (LLSelection * A)) :=
  if Nat.eqb (S (end_idx self)) (line_len self) then lift (Ok [])
  else
    ms <~ m (Fwd (S (end_idx self))) (line_of self);;
    lift (Ok (map (fun '(out, j) => (mkSel (sel_line self) (start_idx self) j, out)) ms)).

(** src/ll_line/ll_selection.rs:204-209 [match_first_forwards] *)
Definition mem_match_first_forwards {A} (self : LLSelection) (m : mem_matcher A) : mem M (option (LLSelection * A)) :=
  found <~ mem_match_forwards self m;; lift (Ok (hd_opt found)).

(** src/ll_line/ll_selection.rs:225-248 [match_backwards] *)
Definition mem_match_backwards {A} (self : LLSelection) (m : mem_matcher A) : mem M (list (LLSelection * A)) :=
  if Nat.eqb (start_idx self) 0 then lift (Ok [])
  else
    ms <~ m (Bwd (start_idx self - 1)) (line_of self);;
    lift (Ok (map (fun '(out, j) => (mkSel (sel_line self) j (end_idx self), out)) ms)).

(** src/ll_line/ll_selection.rs:250-255 [match_first_backwards] *)
Definition mem_match_first_backwards {A} (self : LLSelection) (m : mem_matcher A) : mem M (option (LLSelection * A)) :=
  found <~ mem_match_backwards self m;; lift (Ok (hd_opt found)).

(** src/ll_line/ll_selection.rs:309-358 [trim_selection] *)
Definition mem_trim_selection {A} (self : LLSelection) (m : mem_matcher A) (from_start from_end : bool)
  : mem M (option LLSelection) :=
  new_start <~
    (if from_start then
       ms <~ m (Fwd (start_idx self)) (line_of self);;
       lift (Ok (match ms with (_, j) :: _ => j + 1 | [] => start_idx self end))
     else lift (Ok (start_idx self)));;
  new_end <~
    (if from_end then
       ms <~ m (Bwd (end_idx self)) (line_of self);;
       lift (Ok (match ms with
           | (_, j) :: _ => match checked_sub j 1 with Some k => k | None => j end
           | [] => end_idx self
           end))
     else lift (Ok (end_idx self)));;
  lift (Ok (if (start_idx self <=? new_end) && (new_start <=? new_end)
      then Some (mkSel (sel_line self) new_start new_end) else None)).

(** src/ll_line.rs:214-230 [LLLine::find] *)
Definition mem_find {A} (l : LLLine) (m : mem_matcher A) : mem M (list (LLLineFind A)) :=
  mem_flat_mapM (fun i =>
      ms <~ m (Fwd i) l;;
      lift (mapM (fun '(out, j) =>
              s <- pos_start_at l i;;
              e <- pos_end_at l j;;
              Ok (mkFind s e out)) ms))
    (seq 0 (length (ll_tokens l))).

(** src/ll_line/x/all.rs:27-66 [All2]; the second matcher is asked first (line 42) *)
Definition mem_all2 {A B} (ma : mem_matcher A) (mb : mem_matcher B) : mem_matcher (A * B) :=
  fun d l =>
    bs <~ mb d l;;
    al <~ ma d l;;
    lift (Ok (flat_map (fun '(a, ai) =>
          filter_map (fun '(b, bi) => if Nat.eqb ai bi then Some ((a, b), ai) else None) bs) al)).

(** src/ll_line/x/all.rs:70-97 [All3] *)
Definition mem_all3 {A B C} (ma : mem_matcher A) (mb : mem_matcher B) (mc : mem_matcher C)
  : mem_matcher (A * B * C) :=
  fun d l =>
    bs <~ mb d l;;
    cs <~ mc d l;;
    al <~ ma d l;;
    lift (Ok (flat_map (fun '(a, ai) =>
          flat_map (fun '(b, bi) =>
            filter_map (fun '(c, ci) =>
              if Nat.eqb ai bi && Nat.eqb ai ci then Some ((a, b, c), ai) else None) cs) bs) al)).

(** src/ll_line/x/any_of.rs:33-52 [AnyOf2Matcher] *)
Definition mem_any_of2 {A B} (ma : mem_matcher A) (mb : mem_matcher B) : mem_matcher (AnyOf2 A B) :=
  fun d l =>
    al <~ ma d l;;
    match al with
    | _ :: _ => lift (Ok (map (fun '(a, i) => (A2_A a, i)) al))
    | [] => bl <~ mb d l;; lift (Ok (map (fun '(b, i) => (A2_B b, i)) bl))
    end.

(** src/ll_line/x/any_of.rs:63-88 [AnyOf3Matcher] *)
Definition mem_any_of3 {A B C} (ma : mem_matcher A) (mb : mem_matcher B) (mc : mem_matcher C)
  : mem_matcher (AnyOf3 A B C) :=
  fun d l =>
    al <~ ma d l;;
    match al with
    | _ :: _ => lift (Ok (map (fun '(a, i) => (A3_A a, i)) al))
    | [] =>
        bl <~ mb d l;;
        match bl with
        | _ :: _ => lift (Ok (map (fun '(b, i) => (A3_B b, i)) bl))
        | [] => cl <~ mc d l;; lift (Ok (map (fun '(c, i) => (A3_C c, i)) cl))
        end
    end.

(** src/ll_line/x/seq.rs:38-42, as [go_after] of ModelMatch.v *)
Definition mem_go_after {B} (mb : mem_matcher B) (d : direction) (idx : nat) (l : LLLine)
  : mem M (list (B * nat)) :=
  match dir_after d idx l with Some d' => mb d' l | None => lift (Ok []) end.

(** src/ll_line/x/seq.rs:27-47 [Seq2] *)
Definition mem_seq2 {A B} (ma : mem_matcher A) (mb : mem_matcher B) : mem_matcher (A * B) :=
  fun d l =>
    al <~ ma d l;;
    mem_flat_mapM (fun '(a, i) =>
      bl <~ mem_go_after mb d i l;;
      lift (Ok (map (fun '(b, j) => ((a, b), j)) bl))) al.

(** src/ll_line/x/seq.rs:51-78 [Seq3] *)
Definition mem_seq3 {A B C} (ma : mem_matcher A) (mb : mem_matcher B) (mc : mem_matcher C)
  : mem_matcher (A * B * C) :=
  fun d l =>
    al <~ ma d l;;
    mem_flat_mapM (fun '(a, i) =>
      bl <~ mem_go_after mb d i l;;
      mem_flat_mapM (fun '(b, j) =>
        cl <~ mem_go_after mc d j l;;
        lift (Ok (map (fun '(c, k) => ((a, b, c), k)) cl))) bl) al.

(** src/ll_line.rs:304-312 [trait Resolver], the resolver with its memory *)
Definition mem_resolver (t : ty) : Type := LLSelection -> mem M (GoResult t).

(** src/ll_line.rs:146-178 [LLLine::run] *)
Definition mem_run {t : ty} (id : N) (l : LLLine) (r : mem_resolver t) : mem M LLLine :=
  match ll_tokens l with
  | [] => lift (Ok l)
  | _ :: _ =>
      g <~ r (whole id l);;
      lift (if go_retained g then Panic PRcShared
            else store_assignments l (go_assignments g))
  end.

End State.
Arguments mem_matcher {U} M A. Arguments mem_resolver {U} M t.
