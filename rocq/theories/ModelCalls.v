(** Functions of users' types and closures with memory: [PartialEq], [Debug] and [Clone] of attribute types take
    [&self], and the argument of [finish_with] is an [Fn] (src/ll_line/finish_with.rs:4), so each may
    read and change cells, and panic.  The code that calls them once more, with the calls in
    the order in which it makes them. *)

From Verif Require Export ModelState ModelDisplay ModelResolvers.

Section Calls.
Context {U : UserTypes} {UC : Unicode} {M : Type}.

(** [iter.filter(f)] driven to its end, the elements in turn: the [filter_map]s of src/ll_line/x.rs:103-109,149-155 *)
Fixpoint mem_filter {A} (f : A -> mem M bool) (l : list A) : mem M (list A) :=
  match l with
  | [] => lift (Ok [])
  | a :: l' => b <~ f a;; rest <~ mem_filter f l';; lift (Ok (if b then a :: rest else rest))
  end.

(** src/ll_line/x.rs:87-112 and 190-218 [XDirection::attr_eq]: [val == equals] is asked of each value when the lazy
    iterator reaches it *)
Definition mem_attr_eq (t : ty) (eqT : den t -> den t -> mem M bool) (equals : den t) : mem_matcher M unit :=
  fun d l =>
  match d with
  | Fwd i =>
      m <~ lift (expect PFwdAtEnd (nth_error (starts_at (attrs l)) i));;
      mem_flat_mapM (fun range => vs <~ lift (values_at l t range);;
                       kept <~ mem_filter (fun v => eqT v equals) vs;;
                       lift (Ok (map (fun _ => (tt, snd range)) kept)))
                    (tm_get m t)
  | Bwd i =>
      m <~ lift (expect PBwdOut (nth_error (ends_at (attrs l)) i));;
      mem_flat_mapM (fun range => vs <~ lift (values_at l t range);;
                       kept <~ mem_filter (fun v => eqT v equals) vs;;
                       lift (Ok (map (fun _ => (tt, fst range)) kept)))
                    (tm_get m t)
  end.

(** [set.contains(value)], src/ll_line/x.rs:150,268: [e == value] for the elements [e] until one is equal *)
Fixpoint mem_contains {A} (eqA : A -> A -> mem M bool) (set : list A) (v : A) : mem M bool :=
  match set with
  | [] => lift (Ok false)
  | e :: set' => b <~ eqA e v;; if b then lift (Ok true) else mem_contains eqA set' v
  end.

(** src/ll_line/x.rs:135-157 and 244-276 [XDirection::token_attr_one_of] *)
Definition mem_token_has_any (t : ty) (eqT : den t -> den t -> mem M bool) (set : list (den t)) : mem_matcher M (den t) :=
  fun d l =>
  match d with
  | Fwd i =>
      tb <~ lift (expect PFwdAtEnd (map_get range_eqb (values (attrs l)) (i, i)));;
      vs <~ lift (tb_get tb t);;
      kept <~ mem_filter (mem_contains eqT set) vs;;
      lift (Ok (map (fun v => (v, i)) kept))
  | Bwd i =>
      m <~ lift (expect PBwdOut (nth_error (ends_at (attrs l)) i));;
      mem_flat_mapM (fun range => vs <~ lift (values_at l t range);;
                       kept <~ mem_filter (mem_contains eqT set) vs;;
                       lift (Ok (map (fun v => (v, fst range)) kept)))
                    (tm_get m t)
  end.

(** src/type_bucket.rs:224-236 [TypeBucket::get_debug] *)
Definition mem_get_debug (tb : TypeBucket) (t : ty) (dbg : den t -> mem M str) : mem M (list str) :=
  match map_get ty_eqb tb t with
  | None => lift (Ok [])
  | Some b => vec <~ lift (expect PDowncast (bucket_downcast t b));; mem_mapM dbg vec
  end.

(** src/ll_line/display.rs:104-118 [include]: [get_debug] gives a [Vec], so all values of a range are asked in
    order before the strings are taken in reverse.  (After a panic the display is not given
    back, although rows may have been pushed to it.) *)
Definition mem_display_include (t : ty) (dbg : den t -> mem M str) (d : LLLineDisplay) : mem M LLLineDisplay :=
  rows <~ mem_flat_mapM (fun range =>
            match map_get range_eqb (values (attrs (disp_line d))) range with
            | None => lift (Ok [])
            | Some tb => ds <~ mem_get_debug tb t dbg;; lift (Ok (map (fun s => (range, s)) (rev ds)))
            end) (tm_get (ranges (attrs (disp_line d))) t);;
  lift (Ok (mkDisplay (disp_line d) (include_attrs d ++ rows))).

(** src/ll_line/finish_with.rs:7-13 [FinishWith::finish_with] *)
Definition mem_finish_with {t : ty} {T} (l : list (LLSelection * T)) (f : T -> mem M (den t))
  : mem M (list (LLCursorAssignment t)) :=
  mem_mapM (fun '(sel, x) => v <~ f x;; lift (Ok (finish_with_attr sel v))) l.

(** src/resolvers/text_match.rs:31-39 [new_case_insensitive_str_arr] *)
Definition mem_text_match_new_ci_arr {t} (clone : den t -> mem M (den t)) (lk : list (str * den t)) : mem M (TextMatch t) :=
  entries <~ mem_mapM (fun '(k, v) => v' <~ clone v;; lift (Ok (u_lower k, [v']))) lk;;
  lift (Ok (mkTextMatch false (collect_map entries))).

(** src/resolvers/text_match.rs:45-64 [go]: [find_by] is done (it gives a [Vec]) before the first value is cloned *)
Definition mem_text_match_go {t} (clone : den t -> mem M (den t)) (r : TextMatch t) : mem_resolver M t := fun selection =>
  found <~ lift (find_by selection x_token_text);;
  out <~ mem_flat_mapM (fun '(sel, text) =>
           match map_get str_eqb (lookup r)
                   (if case_sensitive r then text else u_lower text) with
           | Some vs => mem_mapM (fun v => v' <~ clone v;; lift (Ok (finish_with_attr sel v'))) vs
           | None => lift (Ok [])
           end) found;;
  lift (Ok (mkGo out false)).

End Calls.
