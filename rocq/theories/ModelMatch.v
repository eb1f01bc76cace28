(** Model of src/ll_line/x.rs and src/ll_line/x/*.rs: directions and matchers. *)

From Verif Require Export ModelTokens.

Section Match.
Context {U : UserTypes}.

(** src/ll_line/x.rs:66-68 [XForwards] and 185-187 [XBackwards] *)
Inductive direction : Type :=
| Fwd (from_idx : nat)
| Bwd (from_idx : nat).

(** [ll_line.attrs.values.get(range).unwrap().get::<T>()],
    src/ll_line/x.rs:97-101,124-128,203-207,233-237,261-265 *)
Definition values_at (l : LLLine) (t : ty) (range : LRange) : res (list (den t)) :=
  tb <- expect PMissingValues (map_get range_eqb (values (attrs l)) range);;
  tb_get tb t.

(** src/ll_line/x.rs:114-133 and 220-242 [XDirection::attr] *)
Definition dir_attr (t : ty) (d : direction) (l : LLLine) : res (list (den t * nat)) :=
  match d with
  | Fwd i =>
      m <- expect PFwdAtEnd (nth_error (starts_at (attrs l)) i);;
      flat_mapM (fun range => vs <- values_at l t range;;
                              Ok (map (fun v => (v, snd range)) vs)) (tm_get m t)
  | Bwd i =>
      m <- expect PBwdOut (nth_error (ends_at (attrs l)) i);;
      flat_mapM (fun range => vs <- values_at l t range;;
                              Ok (map (fun v => (v, fst range)) vs)) (tm_get m t)
  end.

(** src/ll_line/x.rs:87-112 and 190-218 [XDirection::attr_eq]; [eqT] is [T]'s
    [PartialEq::eq], called as [val == equals]. *)
Definition dir_attr_eq (t : ty) (eqT : den t -> den t -> bool) (equals : den t)
    (d : direction) (l : LLLine) : res (list (unit * nat)) :=
  match d with
  | Fwd i =>
      m <- expect PFwdAtEnd (nth_error (starts_at (attrs l)) i);;
      flat_mapM (fun range => vs <- values_at l t range;;
                   Ok (filter_map (fun v => if eqT v equals then Some (tt, snd range) else None) vs))
                (tm_get m t)
  | Bwd i =>
      m <- expect PBwdOut (nth_error (ends_at (attrs l)) i);;
      flat_mapM (fun range => vs <- values_at l t range;;
                   Ok (filter_map (fun v => if eqT v equals then Some (tt, fst range) else None) vs))
                (tm_get m t)
  end.

(** [set.contains(value)] on a slice, src/ll_line/x.rs:150,267: some element of
    [set] equals [value]. *)
Definition slice_contains {A} (eqA : A -> A -> bool) (set : list A) (v : A) : bool :=
  existsb (fun e => eqA e v) set.

(** src/ll_line/x.rs:135-157 and 244-276 [XDirection::token_attr_one_of] *)
Definition dir_token_attr_one_of (t : ty) (eqT : den t -> den t -> bool) (set : list (den t))
    (d : direction) (l : LLLine) : res (list (den t * nat)) :=
  match d with
  | Fwd i =>
      tb <- expect PFwdAtEnd (map_get range_eqb (values (attrs l)) (i, i));;
      vs <- tb_get tb t;;
      Ok (filter_map (fun v => if slice_contains eqT set v then Some (v, i) else None) vs)
  | Bwd i =>
      m <- expect PBwdOut (nth_error (ends_at (attrs l)) i);;
      flat_mapM (fun range => vs <- values_at l t range;;
                   Ok (filter_map (fun v => if slice_contains eqT set v then Some (v, fst range) else None) vs))
                (tm_get m t)
  end.

(** src/ll_line/x.rs:159-173 and 278-286 [XDirection::text_token] *)
Definition dir_text_token (d : direction) (l : LLLine) : res (option (str * nat)) :=
  match d with
  | Fwd i =>
      tok <- expect PFwdText (nth_error (ll_tokens l) i);;
      Ok (match token tok with LText s _ => Some (s, i) | LValue => None end)
  | Bwd i =>
      Ok (match nth_error (ll_tokens l) i with
          | Some tok => match token tok with LText s _ => Some (s, i) | LValue => None end
          | None => None
          end)
  end.

(** src/ll_line/x.rs:175-182 and 288-294 [XDirection::after] *)
Definition dir_after (d : direction) (idx : nat) (l : LLLine) : option direction :=
  match d with
  | Fwd _ => if S idx <? length (ll_tokens l) then Some (Fwd (S idx)) else None
  | Bwd _ => if 0 <? idx then Some (Bwd (idx - 1)) else None
  end.

(** src/ll_line/x.rs:24-36 [trait XMatch]: a matcher is its [go] function.  [Out]
    references are modelled by the values they refer to; [ToIdx] by its index.  (For one with
    hidden state see [mem_matcher], ModelState.v.) *)
Definition matcher (A : Type) : Type := direction -> LLLine -> res (list (A * nat)).

(** src/ll_line/x/attr.rs:5-14, src/ll_line/x/functions.rs:43-45 [x::attr] *)
Definition x_attr (t : ty) : matcher (den t) := fun d l => dir_attr t d l.

(** src/ll_line/x/attr_eq.rs:7-16, src/ll_line/x/functions.rs:33-35 [x::attr_eq] *)
Definition x_attr_eq (t : ty) (eqT : den t -> den t -> bool) (v : den t) : matcher unit :=
  fun d l => dir_attr_eq t eqT v d l.

(** src/ll_line/x/functions.rs:48-50 [x::whitespace] *)
Definition x_whitespace : matcher unit := x_attr_eq TTextTag TextTag_eqb SPACE.

(** src/ll_line/x/token_has_any.rs:7-16, src/ll_line/x/functions.rs:38-40 [x::token_has_any] *)
Definition x_token_has_any (t : ty) (eqT : den t -> den t -> bool) (set : list (den t))
  : matcher (den t) := fun d l => dir_token_attr_one_of t eqT set d l.

(** src/ll_line/x/token_text.rs:5-14, src/ll_line/x/functions.rs:28-30 [x::token_text] *)
Definition x_token_text : matcher str :=
  fun d l => o <- dir_text_token d l;; Ok (opt_list o).

(** src/ll_line/x/all.rs:27-66 [All2] *)
Definition x_all2 {A B} (ma : matcher A) (mb : matcher B) : matcher (A * B) :=
  fun d l =>
    bs <- mb d l;;
    al <- ma d l;;
    Ok (flat_map (fun '(a, ai) =>
          filter_map (fun '(b, bi) => if Nat.eqb ai bi then Some ((a, b), ai) else None) bs) al).

(** src/ll_line/x/all.rs:70-97 [All3] *)
Definition x_all3 {A B C} (ma : matcher A) (mb : matcher B) (mc : matcher C)
  : matcher (A * B * C) :=
  fun d l =>
    bs <- mb d l;;
    cs <- mc d l;;
    al <- ma d l;;
    Ok (flat_map (fun '(a, ai) =>
          flat_map (fun '(b, bi) =>
            filter_map (fun '(c, ci) =>
              if Nat.eqb ai bi && Nat.eqb ai ci then Some ((a, b, c), ai) else None) cs) bs) al).

(** src/ll_line/x/any_of.rs:27-31 [AnyOf2] *)
Inductive AnyOf2 (A B : Type) : Type := A2_A (a : A) | A2_B (b : B).
Arguments A2_A {A B}. Arguments A2_B {A B}.

(** src/ll_line/x/any_of.rs:33-52 [AnyOf2Matcher] *)
Definition x_any_of2 {A B} (ma : matcher A) (mb : matcher B) : matcher (AnyOf2 A B) :=
  fun d l =>
    al <- ma d l;;
    match al with
    | _ :: _ => Ok (map (fun '(a, i) => (A2_A a, i)) al)
    | [] => bl <- mb d l;; Ok (map (fun '(b, i) => (A2_B b, i)) bl)
    end.

(** src/ll_line/x/any_of.rs:56-61 [AnyOf3] *)
Inductive AnyOf3 (A B C : Type) : Type := A3_A (a : A) | A3_B (b : B) | A3_C (c : C).
Arguments A3_A {A B C}. Arguments A3_B {A B C}. Arguments A3_C {A B C}.

(** src/ll_line/x/any_of.rs:63-88 [AnyOf3Matcher] *)
Definition x_any_of3 {A B C} (ma : matcher A) (mb : matcher B) (mc : matcher C)
  : matcher (AnyOf3 A B C) :=
  fun d l =>
    al <- ma d l;;
    match al with
    | _ :: _ => Ok (map (fun '(a, i) => (A3_A a, i)) al)
    | [] =>
        bl <- mb d l;;
        match bl with
        | _ :: _ => Ok (map (fun '(b, i) => (A3_B b, i)) bl)
        | [] => cl <- mc d l;; Ok (map (fun '(c, i) => (A3_C c, i)) cl)
        end
    end.

(** src/ll_line/x/seq.rs:38-42 [direction.after(..).map(|d| m.go(&d, l)).unwrap_or_else(Vec::new)] *)
Definition go_after {B} (mb : matcher B) (d : direction) (idx : nat) (l : LLLine)
  : res (list (B * nat)) :=
  match dir_after d idx l with Some d' => mb d' l | None => Ok [] end.

(** src/ll_line/x/seq.rs:27-47 [Seq2] *)
Definition x_seq2 {A B} (ma : matcher A) (mb : matcher B) : matcher (A * B) :=
  fun d l =>
    al <- ma d l;;
    flat_mapM (fun '(a, i) =>
      bl <- go_after mb d i l;;
      Ok (map (fun '(b, j) => ((a, b), j)) bl)) al.

(** src/ll_line/x/seq.rs:51-78 [Seq3]; the third component continues from the
    original [direction] value, whose [after] only looks at the index. *)
Definition x_seq3 {A B C} (ma : matcher A) (mb : matcher B) (mc : matcher C)
  : matcher (A * B * C) :=
  fun d l =>
    al <- ma d l;;
    flat_mapM (fun '(a, i) =>
      bl <- go_after mb d i l;;
      flat_mapM (fun '(b, j) =>
        cl <- go_after mc d j l;;
        Ok (map (fun '(c, k) => ((a, b, c), k)) cl)) bl) al.

(** Every matcher expression that can be written with the library's
    constructors (src/ll_line/x/functions.rs). [has] says whether
    [token_has_any] occurs in it; all attribute types looked up satisfy [P]. *)
Inductive lib_matcher (P : ty -> Prop) : forall (has : bool) (A : Type), matcher A -> Prop :=
| LM_attr t : P t -> lib_matcher P false (den t) (x_attr t)
| LM_attr_eq t eqT v : P t -> lib_matcher P false unit (x_attr_eq t eqT v)
| LM_token_has_any t eqT set : P t -> lib_matcher P true (den t) (x_token_has_any t eqT set)
| LM_token_text : lib_matcher P false str x_token_text
| LM_all2 h1 h2 A B (ma : matcher A) (mb : matcher B) :
    lib_matcher P h1 A ma -> lib_matcher P h2 B mb ->
    lib_matcher P (h1 || h2) (A * B) (x_all2 ma mb)
| LM_all3 h1 h2 h3 A B C (ma : matcher A) (mb : matcher B) (mc : matcher C) :
    lib_matcher P h1 A ma -> lib_matcher P h2 B mb -> lib_matcher P h3 C mc ->
    lib_matcher P (h1 || h2 || h3) (A * B * C) (x_all3 ma mb mc)
| LM_any2 h1 h2 A B (ma : matcher A) (mb : matcher B) :
    lib_matcher P h1 A ma -> lib_matcher P h2 B mb ->
    lib_matcher P (h1 || h2) (AnyOf2 A B) (x_any_of2 ma mb)
| LM_any3 h1 h2 h3 A B C (ma : matcher A) (mb : matcher B) (mc : matcher C) :
    lib_matcher P h1 A ma -> lib_matcher P h2 B mb -> lib_matcher P h3 C mc ->
    lib_matcher P (h1 || h2 || h3) (AnyOf3 A B C) (x_any_of3 ma mb mc)
| LM_seq2 h1 h2 A B (ma : matcher A) (mb : matcher B) :
    lib_matcher P h1 A ma -> lib_matcher P h2 B mb ->
    lib_matcher P (h1 || h2) (A * B) (x_seq2 ma mb)
| LM_seq3 h1 h2 h3 A B C (ma : matcher A) (mb : matcher B) (mc : matcher C) :
    lib_matcher P h1 A ma -> lib_matcher P h2 B mb -> lib_matcher P h3 C mc ->
    lib_matcher P (h1 || h2 || h3) (A * B * C) (x_seq3 ma mb mc).

(** ... of any types: the matchers of src/ll_line/x/functions.rs are generic in
    the attribute type. *)
Definition any_ty : ty -> Prop := fun _ => True.

End Match.

Arguments A2_A {A B}. Arguments A2_B {A B}.
Arguments A3_A {A B C}. Arguments A3_B {A B C}. Arguments A3_C {A B C}.
