(** Model of the resolvers: src/resolvers/text_match.rs, layered-amount,
    layered-clauses, layered-part-of-speech. *)

From Verif Require Export ModelSel.

Section Resolvers.
Context {U : UserTypes} {UC : Unicode}.

(** A resolver that keeps no selection alive: those of src/resolvers/text_match.rs,
    layered-amount/src/amounts.rs, layered-clauses/src/*.rs and
    layered-part-of-speech/src/lib.rs have no field that could hold one. *)
Definition no_retain {t : ty} (r : res (list (LLCursorAssignment t))) : res (GoResult t) :=
  a <- r;; Ok (mkGo a false).

(** ** src/resolvers/text_match.rs *)

(** src/resolvers/text_match.rs:9-13 [struct TextMatchAssignResolver]; the
    [HashMap] is a list of entries in its iteration order. *)
Record TextMatch (t : ty) : Type := mkTextMatch {
  case_sensitive : bool;
  lookup : list (str * list (den t));
}.
Arguments mkTextMatch {t}. Arguments case_sensitive {t}. Arguments lookup {t}.

(** src/resolvers/text_match.rs:16-21 [new] *)
Definition text_match_new {t} (lk : list (str * list (den t))) : TextMatch t :=
  mkTextMatch true lk.

(** [iter.collect::<HashMap<_, _>>()], src/resolvers/text_match.rs:25-28,34-37: later entries replace earlier ones *)
Definition collect_map {V} (l : list (str * V)) : list (str * V) :=
  fold_left (fun m '(k, v) => map_insert str_eqb m k v) l [].

(** src/resolvers/text_match.rs:22-30 [new_case_insensitive]; [lk] lists the
    entries of the given [HashMap] in its (arbitrary) iteration order. *)
Definition text_match_new_ci {t} (lk : list (str * list (den t))) : TextMatch t :=
  mkTextMatch false (collect_map (map (fun '(k, v) => (u_lower k, v)) lk)).

(** src/resolvers/text_match.rs:31-39 [new_case_insensitive_str_arr] *)
Definition text_match_new_ci_arr {t} (lk : list (str * den t)) : TextMatch t :=
  mkTextMatch false (collect_map (map (fun '(k, v) => (u_lower k, [v])) lk)).

(** src/resolvers/text_match.rs:45-64 [go] *)
Definition text_match_go {t} (r : TextMatch t) : Resolver t := fun selection =>
  no_retain (
    found <- find_by selection x_token_text;;
    Ok (flat_map (fun '(sel, text) =>
          match map_get str_eqb (lookup r)
                  (if case_sensitive r then text else u_lower text) with
          | Some vs => map (fun v => finish_with_attr sel v) vs
          | None => []
          end) found)).

(** ** layered-amount/src/amounts.rs *)

(** layered-amount/src/amounts.rs:22-26 [struct AmountResolver] *)
Record AmountResolver : Type := mkAmountResolver {
  delimiters : list char;
  decimal : char;
}.

(** layered-amount/src/amounts.rs:40-45 [english]: , ' and . *)
Definition amount_english : AmountResolver := mkAmountResolver [44; 39]%N 46%N.
(** layered-amount/src/amounts.rs:51-56 [french]: space . ' and . *)
Definition amount_french : AmountResolver := mkAmountResolver [32; 46; 39]%N 46%N.

(** layered-amount/src/amounts.rs:66,83,104
    [x::all((x::attr_eq(&TextTag::NATN), x::token_text()))] *)
Definition x_number : matcher (unit * str) :=
  x_all2 (x_attr_eq TTextTag TextTag_eqb NATN) x_token_text.

Section Amount.
(** [str::parse::<Decimal>] of rust_decimal *)
Context (parse_decimal : str -> option Decimal).
Context (r : AmountResolver).

(** layered-amount/src/amounts.rs:72-91, the delimiter loop; the state is
    ([selection], [last_valid_selection], [number_string]) *)
Fixpoint delim_loop (fuel : nat) (selection : LLSelection) (last_valid : option LLSelection)
    (number_string : str) : res (LLSelection * option LLSelection * str) :=
  match fuel with
  | O => OutOfFuel
  | S fuel' =>
      o1 <- match_first_forwards selection (x_token_has_any TChar N.eqb (delimiters r));;
      match o1 with
      | None => Ok (selection, last_valid, number_string)
      | Some (delimeter_sel, _) =>
          o2 <- match_first_forwards delimeter_sel x_number;;
          match o2 with
          | Some (following_sel, (_, text)) =>
              delim_loop fuel' following_sel None (number_string ++ text)
          | None => Ok (delimeter_sel, Some selection, number_string)
          end
      end
  end.

(** layered-amount/src/amounts.rs:93-110, the decimal part *)
Definition decimal_part (st : LLSelection * option LLSelection * str)
  : res (LLSelection * option LLSelection * str) :=
  let '(selection, last_valid, number_string) := st in
  match last_valid with
  | Some _ => Ok st
  | None =>
      o1 <- match_first_forwards selection (x_token_has_any TChar N.eqb [decimal r]);;
      let '(selection1, last_valid1, number_string1) :=
        match o1 with
        | Some (with_decimal_sel, _) => (with_decimal_sel, Some selection, number_string ++ [46%N])
        | None => (selection, None, number_string)
        end in
      o2 <- match_first_forwards selection1 x_number;;
      match o2 with
      | Some (following_sel, (_, text)) => Ok (following_sel, None, number_string1 ++ text)
      | None => Ok (selection1, last_valid1, number_string1)
      end
  end.

(** layered-amount/src/amounts.rs:65-123, the outer loop; [attrs] accumulates *)
Fixpoint amount_loop (fuel : nat) (search_range_sel : LLSelection)
    (attrs : list (LLCursorAssignment TAmount)) : res (list (LLCursorAssignment TAmount)) :=
  match fuel with
  | O => OutOfFuel
  | S fuel' =>
      o <- find_first_by search_range_sel x_number;;
      match o with
      | None => Ok attrs
      | Some (selection0, (_, text)) =>
          st <- delim_loop fuel' selection0 None text;;
          '(selection, last_valid, number_string) <- decimal_part st;;
          d <- expect PDecimalParse (parse_decimal number_string);;
          let attrs' := attrs ++ [finish_with_attr
            (t := TAmount)
            (match last_valid with Some s => s | None => selection end) d] in
          '(_, right_opt) <- split_with search_range_sel selection;;
          match right_opt with
          | Some right_sel => amount_loop fuel' right_sel attrs'
          | None => Ok attrs'
          end
      end
  end.

(** layered-amount/src/amounts.rs:62-126 [AmountResolver::go]; the fuel is more
    than the number of tokens *)
Definition amount_go : Resolver TAmount := fun search_range_sel =>
  no_retain (amount_loop (2 + line_len search_range_sel) search_range_sel []).
End Amount.

(** ** layered-clauses/src/clause_keyword.rs *)

(** layered-clauses/src/clause_keyword.rs:13-17 *)
Record ClauseKeywordResolver : Type := mkClauseKeywordResolver {
  kw_cond_start : list str;
  kw_and : list str;
  kw_then : list str;
}.

(** [vec.contains(&text)], layered-clauses/src/clause_keyword.rs:39,41,43 *)
Definition str_in (s : str) (l : list str) : bool := existsb (fun x => str_eqb x s) l.

(** layered-clauses/src/clause_keyword.rs:36-47, the keyword of a token text *)
Definition keyword_of (r : ClauseKeywordResolver) (text0 : str) : option ClauseKeyword :=
  let text := u_lower text0 in
  if str_in text (kw_cond_start r) then Some KConditionStart
  else if str_in text (kw_then r) then Some KThen
  else if str_in text (kw_and r) then Some KAnd
  else None.

(** layered-clauses/src/clause_keyword.rs:32-51 [go] *)
Definition clause_keyword_go (r : ClauseKeywordResolver) : Resolver TKeyword := fun sel =>
  no_retain (
    found <- find_by sel x_token_text;;
    Ok (flat_map (fun '(sel, text) =>
          opt_list (option_map (fun k => finish_with_attr (t := TKeyword) sel k)
                               (keyword_of r text))) found)).

(** ** layered-clauses/src/clauses.rs *)

(** layered-clauses/src/clauses.rs:23-26, the separators *)
Definition x_separator : matcher (AnyOf2 ClauseKeyword unit) :=
  x_any_of2 (x_attr TKeyword) (x_attr_eq TTextTag TextTag_eqb PUNC).

(** layered-clauses/src/clauses.rs:45-74, the filter_map with the captured
    [condition_clause_found] *)
Fixpoint clause_loop (clauses : list LLSelection) (condition_clause_found : bool)
  : res (list (LLCursorAssignment TClause)) :=
  match clauses with
  | [] => Ok []
  | clause_selection :: clauses' =>
      o <- trim clause_selection x_whitespace;;
      match o with
      | None => clause_loop clauses' condition_clause_found
      | Some trimmed =>
          k <- match_first_backwards clause_selection (x_attr TKeyword);;
          let '(c, found') :=
            match k with
            | Some (_, KConditionStart) => (Condition, true)
            | Some (_, KThen) => (TrailingEffect, condition_clause_found)
            | Some (_, KAnd) =>
                (if condition_clause_found then TrailingEffect else LeadingEffect,
                 condition_clause_found)
            | None =>
                (if condition_clause_found then TrailingEffect else LeadingEffect,
                 condition_clause_found)
            end in
          rest <- clause_loop clauses' found';;
          Ok (finish_with_attr (t := TClause) trimmed c :: rest)
      end
  end.

(** layered-clauses/src/clauses.rs:20-76 [ClauseResolver::go] *)
Definition clause_go : Resolver TClause := fun selection =>
  no_retain (
    clauses <- split_by selection x_separator;;
    match clauses with
    | [c0] =>
        o <- trim c0 x_whitespace;;
        match o with
        | None => Ok []
        | Some trimmed =>
            k <- match_first_backwards c0 (x_attr TKeyword);;
            Ok [finish_with_attr (t := TClause) trimmed
                  (match k with Some (_, KConditionStart) => Condition | _ => Independent end)]
        end
    | _ => clause_loop clauses false
    end).

(** ** layered-part-of-speech/src/lib.rs *)

(** layered-part-of-speech/src/lib.rs:14-30 [POSTagResolver::go]; [dict] is
    ENGLISH_TAG_LOOKUP followed by [tags()], [noun] is [Tag::Noun]. *)
Definition pos_go (dict : str -> option (list N)) (noun : N) : Resolver TPos := fun selection =>
  no_retain (
    found <- find_by selection
               (x_all2 (x_attr_eq TTextTag TextTag_eqb WORD) x_token_text);;
    Ok (flat_map (fun '(sel, (_, word)) =>
          map (fun tag => finish_with_attr (t := TPos) sel tag)
              (match dict (u_lower word) with Some tags => tags | None => [noun] end)) found)).

End Resolvers.
Arguments mkTextMatch {U t}. Arguments case_sensitive {U t}. Arguments lookup {U t}.
