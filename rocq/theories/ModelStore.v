(** Model of the attribute store: src/type_bucket.rs, src/type_id_to_many.rs and
    the data types of src/ll_line.rs. *)

From Verif Require Export Base.

(** ** Strings *)

(** A Rust [char] (src/ll_line.rs:129-132): a Unicode scalar value
    (simplification: any natural number). *)
Definition char := N.
(** A Rust [String] / [&str] (src/ll_line.rs:40) as its sequence of chars. *)
Definition str := list char.

(** [str == str], as used by the map of src/resolvers/text_match.rs:51-53 and by
    [contains] of layered-clauses/src/clause_keyword.rs:39-43 *)
Fixpoint str_eqb (a b : str) : bool :=
  match a, b with
  | [], [] => true
  | x :: a', y :: b' => N.eqb x y && str_eqb a' b'
  | _, _ => false
  end.

(** ** Attribute types *)

(** src/ll_line.rs:21-36 [enum TextTag] *)
Inductive TextTag : Type := NATN | PUNC | SYMB | SPACE | WORD.

(** derived [PartialEq], src/ll_line.rs:21 *)
Definition TextTag_eqb (a b : TextTag) : bool :=
  match a, b with
  | NATN, NATN | PUNC, PUNC | SYMB, SYMB | SPACE, SPACE | WORD, WORD => true
  | _, _ => false
  end.

(** layered-clauses/src/clause_keyword.rs:3-11 [enum ClauseKeyword] *)
Inductive ClauseKeyword : Type := KConditionStart | KThen | KAnd.

(** layered-clauses/src/clauses.rs:4-10 [enum Clause] *)
Inductive Clause : Type := LeadingEffect | TrailingEffect | Condition | Independent.

(** layered-amount/src/amounts.rs:4-5 [struct Amount(Decimal)]; rust_decimal's
    [Decimal] is external: a coefficient and a scale, denoting
    coefficient / 10^scale. *)
Record Decimal : Type := mkDecimal { dec_coeff : Z; dec_scale : nat }.

(** Types the library does not know, i.e. the [T] of src/type_bucket.rs:24 and
    src/ll_line.rs:309: an arbitrary family with decidable codes. *)
Class UserTypes : Type := {
  uty : Type;
  uty_eq_dec : forall a b : uty, {a = b} + {a <> b};
  uden : uty -> Type;
}.

Section Store.
Context {U : UserTypes}.

(** [std::any::TypeId] (src/type_bucket.rs:6,15,131) of the types that occur as attributes. The types of the
    resolver crates are listed so that their resolvers can be modelled.
    [TPos] is wiktionary's [Tag] enum (external), coded by a number. *)
Inductive ty : Type :=
| TChar | TTextTag | TAmount | TKeyword | TClause | TPos
| TUser (u : uty).

(** the values of the type with a given [TypeId]: the [T] of
    src/type_bucket.rs:24,197,216 *)
Definition den (t : ty) : Type :=
  match t with
  | TChar => char
  | TTextTag => TextTag
  | TAmount => Decimal
  | TKeyword => ClauseKeyword
  | TClause => Clause
  | TPos => N
  | TUser u => uden u
  end.

(** [TypeId == TypeId], the key comparison of the maps of src/type_bucket.rs:131
    and src/type_id_to_many.rs:4-6 *)
Definition ty_eq_dec (a b : ty) : {a = b} + {a <> b}.
Proof.
  destruct a as [| | | | | |u], b as [| | | | | |v];
    try (left; reflexivity); try (right; discriminate).
  destruct (uty_eq_dec u v) as [e|n]; [left; now f_equal | right; congruence].
Defined.

(** the same as a boolean (src/type_bucket.rs:131) *)
Definition ty_eqb (a b : ty) : bool :=
  if ty_eq_dec a b then true else false.

(** [Box<dyn Any>] of src/type_bucket.rs:15: a value with its type. *)
Definition any : Type := { t : ty & den t }.
(** [Box::new(value)] as [Box<dyn Any>], src/type_bucket.rs:28 *)
Definition mkany (t : ty) (v : den t) : any := existT den t v.

(** [Any::downcast::<T>()], src/type_bucket.rs:34-37,169 *)
Definition downcast (t : ty) (a : any) : option (den t) :=
  match ty_eq_dec (projT1 a) t with
  | left e => Some (eq_rect (projT1 a) den (projT2 a) t e)
  | right _ => None
  end.

(** ** src/type_bucket.rs *)

(** src/type_bucket.rs:125-132,140-175 [Box<dyn Bucket>] is always a [Vec<T>]
    together with its type. *)
Definition bucket : Type := { t : ty & list (den t) }.
(** [Box::new(Vec::<T>::new())] and its later contents, src/type_bucket.rs:27,200 *)
Definition mkbucket (t : ty) (v : list (den t)) : bucket :=
  existT (fun t => list (den t)) t v.

(** [bucket.as_any().downcast_ref::<Vec<T>>()], src/type_bucket.rs:201-202,219,228-229 *)
Definition bucket_downcast (t : ty) (b : bucket) : option (list (den t)) :=
  match ty_eq_dec (projT1 b) t with
  | left e => Some (eq_rect (projT1 b) (fun t => list (den t)) (projT2 b) t e)
  | right _ => None
  end.

(** src/type_bucket.rs:15 [struct AnyAttribute(TypeId, Box<dyn Bucket>, Box<dyn Any>)] *)
Record AnyAttribute : Type := mkAnyAttribute {
  aa_key : ty;
  aa_empty : bucket;
  aa_value : any;
}.

(** src/type_bucket.rs:24-30 [AnyAttribute::new] *)
Definition any_attribute_new (t : ty) (v : den t) : AnyAttribute :=
  mkAnyAttribute t (mkbucket t []) (mkany t v).

(** src/type_bucket.rs:32-38 [AnyAttribute::extract]; [inr] is the [Err] case. *)
Definition any_attribute_extract (t : ty) (a : AnyAttribute)
  : den t + AnyAttribute :=
  match downcast t (aa_value a) with
  | Some v => inl v
  | None => inr (mkAnyAttribute (aa_key a) (aa_empty a) (aa_value a))
  end.

(** src/type_bucket.rs:127-132 [struct TypeBucket] *)
Definition TypeBucket : Type := list (ty * bucket).

(** src/type_bucket.rs:180-184 [TypeBucket::new], also [Default] *)
Definition tb_new : TypeBucket := [].

(** src/type_bucket.rs:168-170 [Bucket::insert_any for Vec<T>] *)
Definition bucket_insert_any (b : bucket) (v : any) : res bucket :=
  x <- expect PDowncast (downcast (projT1 b) v);;
  Ok (mkbucket (projT1 b) (projT2 b ++ [x])).

(** src/type_bucket.rs:189-191 [TypeBucket::insert_any_attribute] *)
Definition tb_insert_any_attribute (tb : TypeBucket) (a : AnyAttribute)
  : res TypeBucket :=
  map_entry ty_eqb tb (aa_key a) (aa_empty a) (fun b => bucket_insert_any b (aa_value a)).

(** src/type_bucket.rs:197-205 [TypeBucket::insert] *)
Definition tb_insert (tb : TypeBucket) (t : ty) (v : den t) : res TypeBucket :=
  map_entry ty_eqb tb t (mkbucket t [])
    (fun b => vec <- expect PDowncast (bucket_downcast t b);;
              Ok (mkbucket t (vec ++ [v]))).

(** src/type_bucket.rs:216-222 [TypeBucket::get] *)
Definition tb_get (tb : TypeBucket) (t : ty) : res (list (den t)) :=
  match map_get ty_eqb tb t with
  | None => Ok []
  | Some b => expect PDowncast (bucket_downcast t b)
  end.

(** src/type_bucket.rs:224-236 [TypeBucket::get_debug]; [dbg] is [T]'s
    [Debug] implementation. *)
Definition tb_get_debug (tb : TypeBucket) (t : ty) (dbg : den t -> str)
  : res (list str) :=
  match map_get ty_eqb tb t with
  | None => Ok []
  | Some b => vec <- expect PDowncast (bucket_downcast t b);; Ok (map dbg vec)
  end.

(** src/type_bucket.rs:258-260 [TypeBucket::clear] *)
Definition tb_clear (tb : TypeBucket) : TypeBucket := [].

(** ** src/type_id_to_many.rs *)

(** src/ll_line.rs:64 [type LRange = (usize, usize)] *)
Definition LRange : Type := (nat * nat)%type.

(** [LRange == LRange], the derived equality of pairs used by [contains] of
    src/type_id_to_many.rs:15,25 and by the map of src/ll_line.rs:76 *)
Definition range_eqb (a b : LRange) : bool :=
  Nat.eqb (fst a) (fst b) && Nat.eqb (snd a) (snd b).

(** src/type_id_to_many.rs:4-6 [struct TypeIdToMany], at [Value = LRange], the
    only instance used. *)
Definition TypeIdToMany : Type := list (ty * list LRange).

(** src/type_id_to_many.rs:15-17,25-27 [if !entry.contains(..) { entry.push(..) }] *)
Definition push_distinct (r : LRange) (entry : list LRange) : list LRange :=
  if existsb (range_eqb r) entry then entry else entry ++ [r].

(** src/type_id_to_many.rs:9-18 [insert_distinct] and 19-28 [insert_any_distinct]
    (same body, the type given statically or as a [TypeId]). *)
Fixpoint tm_insert_distinct (m : TypeIdToMany) (t : ty) (r : LRange)
  : TypeIdToMany :=
  match m with
  | [] => [(t, push_distinct r [])]
  | (t', e) :: m' =>
      if ty_eqb t' t then (t', push_distinct r e) :: m'
      else (t', e) :: tm_insert_distinct m' t r
  end.

(** src/type_id_to_many.rs:29-33 [get] *)
Definition tm_get (m : TypeIdToMany) (t : ty) : list LRange :=
  match map_get ty_eqb m t with Some e => e | None => [] end.

End Store.
