(** Specification vocabulary for tables and keyword lists that are taken apart (C98). *)

From Verif Require Export SpecRes SpecOrder.

Local Open Scope list_scope.

Section SpecMerge.
Context {UC : Unicode} {U : UserTypes}.

(** The two lines answer alike whatever is asked, but the rows of the query for [t] may be in another order. *)
Definition answer_alike (t : ty) (l l' : LLLine) : Prop :=
  ll_tokens l = ll_tokens l'
  /\ (forall t', t' <> t -> query l t' = query l' t')
  /\ (forall q, query l t = Ok q -> exists q', query l' t = Ok q' /\ Permutation q q')
  /\ (forall q', query l' t = Ok q' -> exists q, query l t = Ok q /\ Permutation q q')
  /\ (forall has A (m : matcher A) d, lib_matcher any_ty has A m -> m d l = m d l')
  /\ (forall has A (m : matcher A), lib_matcher any_ty has A m -> find l m = find l' m)
  /\ (forall tg incs, (forall x, In x incs -> projT1 x <> t) -> show tg l incs = show tg l' incs).

(** A step of the library, or a search for a matcher expression. *)
Definition no_user_code (x : N * any_step) : Prop := match snd x with User _ _ _ _ _ => False | _ => True end.

(** Whatever is run on the two lines afterwards, they go on answering alike. *)
Definition interchangeable (t : ty) (l l' : LLLine) : Prop :=
  forall ss, Forall no_user_code ss ->
    (forall l1, after_any l ss l1 -> exists l1', after_any l' ss l1' /\ answer_alike t l1 l1')
    /\ (forall l1', after_any l' ss l1' -> exists l1, after_any l ss l1 /\ answer_alike t l1 l1').

(** Text matching with several tables, one after the other. *)
Definition table_step {t : ty} (x : N * list (str * list (den t))) : N * any_step := (fst x, Lib (RunTextMatch t (text_match_new (snd x)))).
(** No key is in two of the tables. *)
Definition keys_apart {V} (tables : list (list (str * V))) : Prop := ForallOrdPairs (fun a b => forall k, In k (map fst a) -> ~ In k (map fst b)) tables.

(** Clause keywords of several resolvers, one after the other. *)
Definition keyword_step (x : N * ClauseKeywordResolver) : N * any_step := (fst x, Lib (RunClauseKeyword (snd x))).
(** No word is configured in two of them. *)
Definition words_apart (rs : list ClauseKeywordResolver) : Prop := ForallOrdPairs (fun a b => forall w, configured a w -> ~ configured b w) rs.
(** [r] has the words of all of them, each in the same role. *)
Definition all_words (rs : list ClauseKeywordResolver) (r : ClauseKeywordResolver) : Prop :=
  forall w, (In w (kw_cond_start r) <-> exists r', In r' rs /\ In w (kw_cond_start r'))
    /\ (In w (kw_then r) <-> exists r', In r' rs /\ In w (kw_then r'))
    /\ (In w (kw_and r) <-> exists r', In r' rs /\ In w (kw_and r')).

End SpecMerge.
