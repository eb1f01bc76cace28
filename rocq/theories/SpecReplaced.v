(** Specification vocabulary for lines in which pieces are replaced by others (C100). *)

From Verif Require Export SpecScan SpecPass SpecEnd SpecMergeCi.

Local Open Scope list_scope.

Section SpecReplaced.
Context {UC : Unicode} {U : UserTypes}.

(** Token by token the two pieces are the same to the clause resolvers: the same keyword, or both other
    punctuation, both other white space, or both something else (a value token is something else). *)
Definition same_roles (tg tg' : Target) (sz sz' : str -> N) (r r' : ClauseKeywordResolver) (x y : list InputToken) : Prop :=
  exists lx ly, create_line_from_input_tokens tg x sz = Ok lx /\ create_line_from_input_tokens tg' y sz' = Ok ly
    /\ Forall2 (fun tok tok' => exists m, marked r tok m /\ marked r' tok' m) (ll_tokens lx) (ll_tokens ly).

(** Token by token they are the same to the amount resolvers: the same digits, or both a delimiter, ... *)
Definition same_numbers (tg tg' : Target) (sz sz' : str -> N) (r r' : AmountResolver) (x y : list InputToken) : Prop :=
  exists lx ly ms, create_line_from_input_tokens tg x sz = Ok lx /\ create_line_from_input_tokens tg' y sz' = Ok ly
    /\ number_marks lx r ms /\ number_marks ly r' ms.

(** Token by token they have the same values in a table and in another one, or neither has any. *)
Definition values_in {t} (a : Table t) (tok : LToken) : list (den t) := match tok with LText text _ => table_says text a | LValue => [] end.
Definition same_values {t} (tg tg' : Target) (sz sz' : str -> N) (a b : Table t) (x y : list InputToken) : Prop :=
  exists lx ly, create_line_from_input_tokens tg x sz = Ok lx /\ create_line_from_input_tokens tg' y sz' = Ok ly
    /\ Forall2 (fun tok tok' => values_in a (token tok) = values_in b (token tok')) (ll_tokens lx) (ll_tokens ly).

(** Token by token they have the same parts of speech in two dictionaries, or neither is a word. *)
Definition parts_in (dict : str -> option (list N)) (noun : N) (tok : LToken) : list N :=
  match tok with LText text WORD => match dict (u_lower text) with Some tags => tags | None => [noun] end | _ => [] end.
Definition same_parts (tg tg' : Target) (sz sz' : str -> N) (dict dict' : str -> option (list N)) (noun noun' : N) (x y : list InputToken) : Prop :=
  exists lx ly, create_line_from_input_tokens tg x sz = Ok lx /\ create_line_from_input_tokens tg' y sz' = Ok ly
    /\ Forall2 (fun tok tok' => parts_in dict noun (token tok) = parts_in dict' noun' (token tok')) (ll_tokens lx) (ll_tokens ly).

(** A row without the text. *)
Definition place {V} (x : LRange * str * list V) : LRange * list V := (fst (fst x), snd x).

End SpecReplaced.
