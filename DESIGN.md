# DESIGN

A machine-checked model, in Coq 8.16.1, of [layered-nlp](/repo) (the crate `layered-nlp` and the resolver crates `layered-amount`, `layered-clauses`, `layered-part-of-speech`), and proofs about it of the properties in `properties.jsonl`. `MANIFEST.json` says for each property which theorems prove it; `seeded/LOG.jsonl` records tests of the theorems against wrong programs.

## 1. Approach

The model is a shallow embedding: every modelled Rust function is a small, total, computable Gallina function of the same shape, with the file and lines it models in its comment.

- **Panics are data.** Code that can panic returns `res A = Ok a | Panic p | OutOfFuel`; every `expect`, `unwrap`, index, slice, `assert!`, `todo!` and overflow of the modelled code is a constructor of `panic` (Base.v). So "never panics" and "panics exactly when" are ordinary theorems.
- **Loops** are structural recursion over the data they walk, except the two `while`/`loop`s of `AmountResolver`, which take fuel; `C39_terminates` shows that the fuel the model passes is never exhausted, for any line, so `OutOfFuel` cannot occur in a result.
- **Types as keys.** `TypeId` is a code `ty` with decidable equality (library types, plus any family of user types given by the class `UserTypes`); `dyn Any` is a dependent pair of a code and a value; `downcast` compares codes. Theorems hold for every `UserTypes`.
- **External code is a parameter.** Word segmentation, alphabetic/whitespace tables, `to_lowercase` and character width are fields of the class `Unicode`; the decimal parser, the part-of-speech dictionary, `get_text_size`, `PartialEq` and `Debug` of user types are arguments. Theorems hold for all of them; where a law is needed (`SegmenterLaws`: the segments concatenate to the text and are not empty) it is an explicit hypothesis, and ExUnicode.v gives an instance for which it is proved.
- **Machine arithmetic.** Token positions are `N` with an explicit `usize` width and an overflow-check switch (`Target`), so both debug and release behaviour are covered.
- **Rust mutation and ownership.** `&mut self` becomes returning the new value. `Rc<LLLine>` is a line with an identity; `Rc::ptr_eq` compares identities; whether a resolver keeps a clone of the `Rc` alive is part of what it returns.

### How properties are stated

The specification of a line is not its indexes but a **log** (Spec.v): the list of all (token range, value) pairs assigned so far. `History l lg` (SpecTokens.v) says that line `l` was made by creation followed by any number of `run`s of arbitrary resolvers, and that `lg` is everything assigned on the way. "For every reachable line" is `forall l lg, History l lg -> ...`. What `query`, matching and display must answer is then defined from the token list and the log only (`query_spec`, `starting_at`, `ending_at`, `included`, ...), never from the store. For selections, matchers and resolvers the specifications (SpecSel.v, SpecRes.v, SpecAmount.v, SpecClause.v, SpecDisplay.v) are predicates over token indexes: maximal match-free runs, parts of a selection, the grammar of amounts, the clauses of a line, the columns of the display.

Where the plain English reading of the documentation turned out to be false of the code, the exact behaviour is proved (and the property says so), the plain reading is proved under the condition that is missing (suffix `_partial`), and a theorem `..._refuted` gives a reachable witness against it.

### Files (rocq/theories)

| file | contents |
|---|---|
| Base.v | panics, `res`, monadic list operations, `HashMap` as association list |
| ModelStore.v | src/type_bucket.rs, src/type_id_to_many.rs |
| ModelLine.v | src/ll_line.rs: tokens, attribute store, `new`, `add_any_attrs`, `run`, `query` |
| ModelTokens.v | src/create_tokens.rs, src/create_tokens/get_word_tag.rs, src/lib.rs |
| ModelMatch.v | src/ll_line/x.rs, src/ll_line/x/*.rs: matchers |
| ModelSel.v | src/ll_line/ll_selection.rs, src/ll_line/finish_with.rs, `LLLine::find` |
| ModelDisplay.v | src/ll_line/display.rs |
| ModelResolvers.v | src/resolvers/text_match.rs, layered-amount, layered-clauses, layered-part-of-speech |
| ModelIdioms.v | the resolvers of src/tests/currency_amount.rs and the find-and-finish resolvers of src/tests/ll_selection.rs and README.md |
| ModelDebug.v | the `Debug` implementations of the library's types |
| ModelPrint.v | `Debug` of tokens, with std's escaping of characters and texts |
| ModelIndent.v | the form `{:#?}` of the same, with std's padding |
| ModelState.v | the selection methods, matcher combinators, `find` and `run` with matchers and resolvers that have memory |
| ModelMem.v | computations with memory |
| ModelSize.v | the creation of a line with a text-size function that has memory |
| ModelCalls.v | the callers of users' `PartialEq`, `Debug`, `Clone` and closures, when these have memory |
| ModelEntry.v | the entry types of src/type_bucket.rs (used by nothing) |
| Spec*.v | specifications |
| Lem*.v, Thm*.v | lemmas and theorems (`thm_Cnn_...`) |
| ExUnicode.v, ExLines.v | a concrete `Unicode` instance with its laws proved, a concrete decimal parser; concrete lines |
| ThmRefuted.v | witnesses |
| TestsRepo.v | the repository's own tests replayed in the model (expected output computed by `vm_compute`); evidence for the model, not property proofs |
| Prop*.v | the property theorems `Cnn_...` restated, each with concrete non-trivial cases (`Example ..._case`) meeting its hypotheses |
| Assumptions.v | `Print Assumptions` of every property theorem |

## 2. Trusted base

- Coq's kernel (8.16.1), including its `vm_compute` conversion, used for the concrete cases and replayed tests.
- `Print Assumptions` of every property theorem (Assumptions.v prints them during the build) answers **"Closed under the global context"** for each of the 386 property theorems: no axioms, no standard library axioms, no section variables. The classes `Unicode` and `UserTypes` are ordinary arguments of the theorems.
- A check of the whole environment (`coqchk -o`) lists in addition the opaque constants of the standard library module `Coq.ssr.ssrunder.Under_rel` (`Over_rel`, `Under_rel_from_rel`, `over_rel`, `over_rel_done`, `Under_rel`, `Under_relE`, `under_rel_done`), loaded by Coq's own libraries; no theorem here uses them.
- No kernel check is switched off, and there is no plugin, functor, module type, axiom, parameter or unfinished proof in the development.
- The correspondence between the Rust source and the model, by reading: this is what the comments with file and lines, the replayed tests (TestsRepo.v) and the list below are for.

## 3. What is modelled, and what is not

Modelled, function by function (every public function with behaviour of its own):

- `src/create_tokens.rs` (all), `src/create_tokens/get_word_tag.rs` (all), `src/lib.rs` (`create_line_from_string`, `debug_line`)
- `src/type_bucket.rs`: `AnyAttribute::{new, extract}`, `TypeBucket::{new, insert, insert_any_attribute, get, get_debug, clear}`, `Bucket::insert_any`, `OccupiedEntry`, `VacantEntry`, `Entry` (all methods; used by nothing in the crate)
- `src/type_id_to_many.rs` (all)
- `src/ll_line.rs`: `LLLine::{new, run, add_any_attrs, find, query}`, `LLLineAttrs::insert`, positions, `Resolver`
- `src/ll_line/x.rs` and `src/ll_line/x/*.rs`: both directions and all matchers: `attr`, `attr_eq`, `token_has_any`, `token_text`, `whitespace`, `all` (2, 3), `any_of` (2, 3), `seq` (2, 3)
- `src/ll_line/ll_selection.rs` (all methods), `src/ll_line/finish_with.rs`
- `src/ll_line/display.rs` (all)
- `src/resolvers/text_match.rs` (all)
- `layered-amount/src/amounts.rs`: `AmountResolver` (all), `layered-clauses/src/*.rs`: both resolvers, `layered-part-of-speech/src/lib.rs`: `POSTagResolver`
- Beyond the library itself: the user resolvers of README.md, src/tests/ll_selection.rs and src/tests/currency_amount.rs, generic in the types and the final function (ModelIdioms.v)
- `Debug` of `LLSelection`, `LLLineFind`, `LLCursorAssignment`, `AnyAttribute`, `AnyOf2`, `AnyOf3`, `TextTag`, `Amount`, `ClauseKeyword`, `Clause` (ModelDebug.v), `LToken`, `LLToken`, slices of them, `char`, `str` (ModelPrint.v)
Not modelled:

- `src/_archive/` (not compiled by the crate).
- `Debug` of `TypeBucket` (it prints a `HashMap` with `TypeId`s as keys); which characters std's tables call printable or grapheme extending (parameters of ModelPrint.v); plain accessors (`ll_tokens`, `get_token`, `LLLineFind::{range, attr}`, `Amount::{new, from, get_decimal}`): record projections or wrappers without behaviour.
- The insides of external crates: unicode-segmentation, std's Unicode tables, unicode-width, rust_decimal, the wiktionary dictionary (parameters, see above).
- Memory, performance, `Drop`, stack depth; `Vec` capacity overflow.

Simplifications (each also said at the definition):

- A `char` is any natural number, a `String` the list of its chars; token indexes and lengths are `nat` (a `Vec` has at most `isize::MAX` elements, so index arithmetic `i + 1` cannot overflow). Positions, which can overflow, are machine integers.
- A `HashMap` is an association list. Its iteration order is observable only in `TextMatchAssignResolver::new_case_insensitive`, where it is an arbitrary permutation (C38).
- References to values are the values. Values are immutable once assigned (the API hands out only `&T`). A value with interior mutability is its address; what is read at the address when it is compared or printed is part of the memory of C86.
- A resolver is a function of the selection, and a matcher one of the direction and the line. Those with hidden state are modelled separately (ModelState.v), and C84 reduces them to these. User-supplied functions (`get_text_size`, `PartialEq`, `Debug`, `Clone`, closures) are total and pure; with memory and panics they are modelled separately (ModelSize.v, ModelCalls.v) and C86 says how they are called. `Drop` implementations of users' types are not modelled. A resolver may panic, and may return any assignments and keep a selection alive.
- Theorems about "every matcher" are about arbitrary functions where possible (C19-C21, C25-C32); where the result depends on the matcher staying in the line, they are about every expression built from the library's constructors (`lib_matcher`) or take `bounded` as hypothesis. `XMatch` is a public trait: C71 is about every implementation a user can write (indexes and directions cannot be built outside the crate). Indexes kept from another line are covered by C71_find_any and C71_foreign_refuted. `XForwards::after(usize::MAX)` overflows in the code and is `None` in the model; the proof of C71 does not depend on the answer of `after`.
- The width of a string is the sum of the widths of its characters (unicode-width 0.1 before 0.1.13).
- C89 to C96 assume what unicode-segmentation does on ASCII text (the boundary rules of UAX #29, `AsciiLaws` in SpecAscii.v). Cargo.toml asks for version 1.7 or later and there is no lock file; whether a colon joins letters depends on the Unicode version, so it is a parameter. C92 and C95 also assume that `to_lowercase` is the usual one on ASCII text.
- The panic *message* is not modelled, only the site.
- `TagSet::of(&[Tag::Noun]).tags()` is `[Noun]`.

## 4. Findings about the code

Each is a theorem; `_refuted` ones exhibit a reachable state.

- Line creation panics on the empty text and on digit-led segments with a non-ASCII character, such as `2è` or `1º` (C04).
- `_` in `1_000` is tagged PUNC although the documentation lists other characters (C06).
- `token_has_any` panics forwards at a value token without any attribute, and this changes when an unrelated attribute is added (C12, C18); backwards it matches ranges of several tokens (C16).
- `any_of` can match different alternatives in the two directions (C16).
- `after` returns `None` for a selection starting at the next to last token, and an empty selection past the end for one at the end of the line (C31); selections made from the latter make `run` panic (C24).
- `trim_end`/`trim` keep token 0 even if the match covers it (C29).
- `find_by` reports matches reaching beyond the selection (C26); `split_by` is wrong for nested matches (C27); `find_by_forwards_and_backwards` reports every attribute inside the selection twice (C32).
- Case-insensitive text matching silently loses entries whose keys differ only in case, depending on hash order (C38).
- `AmountResolver` joins neighbouring number tokens (C42); `french()` can never read a fraction and three of its four documented examples, and one of `english()`'s, are false (C43); it passes texts like `4.` to the decimal parser and panics if that fails, or at a value token without attributes (C44).
- Clause keywords that are not lowercase are never recognised (C46).
- `x::whitespace()` matches one white space token, not any number of spaces; `trim` with it can leave white space (C75).
- `is_word` is documented to count `peoples'` and `baseball-card` as words, but in ASCII text the segmenter cuts at the hyphen and before the last apostrophe, so no such token ever reaches it (C89).
- Words with a digit (`v2`) or a typographic apostrophe (`don’t`) are tagged SYMB and get no part of speech; value tokens have no text tag (C77).
- A run of three whitespace tokens becomes a clause (C49).
- The comma of a number ends a clause: of `pay 1,500 dollars` the clauses are `pay 1` and `500 dollars` (C91).
- Keys of text match tables and clause keywords that are more than one token (`New York`, `baseball-card`, `as soon as`) never match in ASCII text, without any error (C92).
- A resolver that finishes selections of another line makes `run` panic, or stores reversed ranges, which make `query` and `display` panic (C10, C14, C35).
- `XDirection::after` takes any number, so a matcher written by a user can match backwards from where it was started; `query` panics on what is finished with such a match (C71).
- `match_forwards_longest` and `match_forwards_shortest` are `todo!()`.

## 5. Property by property

For each property: what is modelled and how it is proved, and the theorems (in Prop*.v; their proofs are in the Thm*.v files under the name `thm_...`).

- **C01 Tokenizing loses no text** (proved). Model create_tokens_for_string as a fold over the segments given by an oracle `u_words` (split_word_bounds); law used: segments are non-empty and concatenate to the text. Induction over segments and characters. For every input, size function and segmenter satisfying the cutting law (segments concatenate to the text and are not empty).
  Theorems: `C01_no_text_lost`.
- **C02 Token positions tile the line** (proved). Positions are N with an explicit usize modulus and an overflow-check switch; invariant of the two nested loops. C02_positions: exact layout of all tokens modulo 2^bits, and the overflow condition; C02_tiling: tiling when the total fits.
  Theorems: `C02_positions`, `C02_deprecated`, `C02_tiling`.
- **C03 create_line_from_string positions are byte offsets** (proved). Size function = UTF-8 length; concrete UTF-8 encoder in the specification; corollary of C01 + C02. UTF-8 encoder written out in SpecTokens.v.
  Theorems: `C03_byte_offsets`.
- **C04 Exactly which inputs are rejected** (proved). Panics are data (`res`); iff proved by computing the result in each case. Exact iff, with the kind of each panic.
  Theorems: `C04_rejected`.
- **C05 Every text token carries its documented tag** (proved). Independent declarative specification of tags as predicates on strings; case analysis of get_unicode_word_tag and induction on the run splitter. C05_tags gives the cut of every text into tagged pieces; C05_one_tag_each: the TextTags stored are those; C05_natn: the corollary for NATN, at creation and on every reachable line.
  Theorems: `C05_tags`, `C05_natn`, `C05_natn_any_line`, `C05_one_tag_each`, `C05_each_token_refuted`.
- **C06 Which tokens are tagged PUNC** (proved). From C05 (cut of segments into good pieces); witness computed with a concrete segmenter. C06_exact is the exact statement; C06_documented_partial the documented reading with the missing condition (no digit-led segment); C06_refuted the witness against the plain reading.
  Theorems: `C06_refuted`, `C06_exact`, `C06_documented_partial`.
- **C07 A char attribute exactly on one-character tokens** (proved). Refinement of the attribute store to a log (C10) instantiated at creation. C07_created_plain: at creation the char and TextTag attributes are exactly the tokens' own.
  Theorems: `C07_char_iff_one_char`, `C07_created_plain`.
- **C08 Digit-led segments are cut into maximal runs** (proved). Induction over the characters with the accumulator invariant. C08_runs: the tokens of a digit-led segment, wherever it stands in the input, are maximal runs; C08_unique: this determines the cut.
  Theorems: `C08_unique`, `C08_runs`.
- **C09 Input attributes cover exactly their own input token** (proved). Log refinement at creation. add_attr is covered by C09_add_attr. C09_groups: the grouping of the tokens by input that the creation log mentions is the only cut of the tokens with these texts.
  Theorems: `C09_input_attributes`, `C09_groups`, `C09_add_attr`.
- **C10 query returns exactly what was assigned** (proved). Refinement: abstract state = log of (range, value) pairs; each store operation appends to the log; observations are functions of the log. For every history (creation followed by any runs of any resolvers). C10_query_panics: otherwise, i.e. when some range carrying this type has its start more than one past its end, query panics; C10_creation_ordered: creation never stores such a range. C10_creation_ordered is stated for every grouping of tokens that is a cut of the inputs.
  Theorems: `C10_query_exact`, `C10_query_panics`, `C10_rows`, `C10_creation_ordered`.
- **C11 run only adds** (proved). Corollary of the refinement.
  Theorems: `C11_run_only_adds`.
- **C12 Attribute types do not interfere** (proved). Corollary of the refinement. C12_token_has_any_refuted: the one observation of another type that does change is whether forward token_has_any panics at a value token without attributes.
  Theorems: `C12_no_interference`, `C12_keeps_plain`, `C12_token_has_any_refuted`.
- **C13 Empty line** (proved). Computation of run on an empty line.
  Theorems: `C13_empty_line`, `C13_only_empty`.
- **C14 When run panics** (proved). Case analysis of run, fold of inserts. Exact iff in both directions.
  Theorems: `C14_run_ok_iff`, `C14_run_panics_iff`.
- **C15 Forward and backward attribute matching are exact** (proved). Log refinement for the starts_at / ends_at indexes; multiset equality (Permutation) with the log. C15_reads_query: the same in terms of query.
  Theorems: `C15_attr`, `C15_attr_eq`, `C15_reads_query`.
- **C16 Forward and backward matching agree** (proved). Corollary of C15. Also for all((..)); C16_token_has_any_refuted and C16_any_of_refuted give witnesses that it fails for these two.
  Theorems: `C16_attr`, `C16_attr_eq`, `C16_token_text`, `C16_all`, `C16_token_has_any_refuted`, `C16_any_of_refuted`.
- **C17 Typed attribute round trip** (proved). Heterogeneous values as a sigma type over a universe of type codes with decidable equality; downcast = comparison of codes.
  Theorems: `C17_any_attribute`, `C17_bucket`.
- **C18 token_has_any semantics and its panic** (proved). Log refinement for the values map.
  Theorems: `C18_unattributed`, `C18_token_has_any`.
- **C19 all: conjunction on the same range** (proved). Membership and list equations for the shallow matcher combinators. C19_panics: when a component panics.
  Theorems: `C19_all2`, `C19_all3`, `C19_panics`.
- **C20 any_of: ordered choice** (proved). As C19.
  Theorems: `C20_any_of2`, `C20_any_of3`, `C20_none`.
- **C21 seq: adjacent matches** (proved). As C19.
  Theorems: `C21_seq2`, `C21_seq3`, `C21_inside_only`.
- **C22 Matches stay inside the line** (proved). Induction over an inductive predicate describing all matchers made from the library. By induction over all matchers that can be written with the library's constructors (lib_matcher). User-written matchers are outside.
  Theorems: `C22_inside`, `C22_ends_in_line`.
- **C23 Which matchers can panic** (proved). As C22.
  Theorems: `C23_without_has_any`, `C23_backwards`, `C23_attributed`, `C23_text_only`.
- **C24 Selections are never empty or out of range** (proved). Inductive relation of selection histories; invariant. Over all sequences of the operations with all library matchers; C24_run: every selection-derived assignment is accepted by run.
  Theorems: `C24_in_range`, `C24_with_after`, `C24_created`, `C24_run`, `C24_after_refuted`.
- **C25 find_by is complete and ordered** (proved). List equation + Sorted.
  Theorems: `C25_find_by`, `C25_ok_iff`, `C25_first`.
- **C26 Where find_by matches lie** (proved). From C25 and C22; witness. C26_found_inside_partial: the part of the plain reading that holds; C26_refuted: witness against the rest; C26_exact: for the attribute matcher, exactly when every match lies inside (no value of the type is on a range that starts in the selection and ends after it).
  Theorems: `C26_found_inside_partial`, `C26_exact`, `C26_refuted`.
- **C27 split_by yields the maximal match-free runs** (proved). Specification: maximal intervals of untouched tokens; induction over the match list. C27_runs under the stated condition; C27_exact and C27_untouched without any condition; C27_refuted: witness for nested matches.
  Theorems: `C27_runs`, `C27_single_tokens`, `C27_no_match`, `C27_refuted`, `C27_unique`, `C27_exact`, `C27_untouched`.
- **C28 split_with removes exactly the other selection** (proved). Interval arithmetic.
  Theorems: `C28_split_with`, `C28_panics_iff`.
- **C29 trim removes one match at each end** (proved). Interval arithmetic + witness. The _exact theorems give the exact result, the _partial ones the plain reading with the missing condition, the _refuted ones witnesses against the plain reading.
  Theorems: `C29_trim_start`, `C29_trim_end_exact`, `C29_trim_exact`, `C29_trim_end_partial`, `C29_trim_partial`, `C29_trim_end_refuted`, `C29_trim_refuted`.
- **C30 match_forwards / match_backwards extend by adjacent matches** (proved). List equations. C30_seq relates match_forwards after find_by to seq.
  Theorems: `C30_match_forwards`, `C30_match_backwards`, `C30_first`, `C30_unwritten`, `C30_seq`.
- **C31 What after returns** (proved). Witnesses and exact condition. C31_exact is the exact result; C31_after_partial the plain reading where it holds; C31_wrong_* all cases where it fails, C31_*_refuted reachable witnesses.
  Theorems: `C31_exact`, `C31_after_partial`, `C31_wrong_none`, `C31_wrong_some`, `C31_none_refuted`, `C31_some_refuted`.
- **C32 find_by_forwards_and_backwards** (proved). List equation + counting.
  Theorems: `C32_both_directions`, `C32_order`, `C32_twice`.
- **C33 find reports positions of the matches** (proved). List equation, C02, C22.
  Theorems: `C33_find`, `C33_empty`, `C33_ordered`.
- **C34 Selection equality** (proved). Direct.
  Theorems: `C34_eq_iff`, `C34_equivalence`, `C34_same`.
- **C35 Display draws each attribute under its tokens** (proved). Display as a function to a list of code points; width as a sum of per-character widths (oracle). Width is the sum of character widths. C35_reversed_panics: what happens for reversed ranges.
  Theorems: `C35_display`, `C35_columns`, `C35_underline`, `C35_reversed_panics`.
- **C36 Display includes everything once per include** (proved). Log refinement.
  Theorems: `C36_include`, `C36_with`, `C36_once`.
- **C37 TextMatchAssignResolver assigns exactly the matching tokens** (proved). List equation against a declarative specification. C37_created: end to end, from the input list to the rows of query.
  Theorems: `C37_case_sensitive`, `C37_case_insensitive`, `C37_array`, `C37_created`.
- **C38 Case-insensitive tables with keys that differ only in case** (proved). Hash order = arbitrary permutation of the table. C38_refuted and C38_array_refuted: witnesses against the plain reading. C38_created: end to end, from the input list to the rows of query.
  Theorems: `C38_last_wins`, `C38_order_independent`, `C38_order_dependent`, `C38_refuted`, `C38_array_refuted`, `C38_created`.
- **C39 AmountResolver terminates with ordered disjoint amounts** (proved). Fuelled loops with a proof that the fuel always suffices; the loops refine an inductive grammar of amounts over token indexes (SpecAmount.v: `groups_at`, `amount_at`, `amounts`). C39_created: end to end, from the input list to the rows of query.
  Theorems: `C39_terminates`, `C39_ordered`, `C39_created`.
- **C40 Every number token belongs to an amount** (proved). Induction over the grammar. C40_created: end to end, from the input list to the rows of query.
  Theorems: `C40_covered`, `C40_numbers_apart`, `C40_created`.
- **C41 The amount's value is the number it covers** (proved). Induction over the grammar. The decimal parser is a parameter. C41_created: end to end, from the input list to the rows of query.
  Theorems: `C41_value`, `C41_text`, `C41_decimal`, `C41_created`.
- **C42 Amounts only join numbers across a delimiter or decimal character** (proved). Witness + shape theorem. C42_partial: exact shape with the single exception; C42_no_neighbours: the plain reading with the missing condition; C42_refuted: witness. C42_created: end to end, from the input list to the rows of query.
  Theorems: `C42_partial`, `C42_no_neighbours`, `C42_refuted`, `C42_created`.
- **C43 Documented presets of AmountResolver** (proved). Witnesses + general theorems about digit groups. C43_grouped, C43_grouped_integer: general; C43_documented: documented examples computed with a concrete segmenter instance; the _refuted theorems: documented examples that are false.
  Theorems: `C43_grouped`, `C43_documented`, `C43_english_refuted`, `C43_french_refuted`, `C43_grouped_integer`, `C43_french_integers`.
- **C44 AmountResolver failures** (proved). The grammar has a failure judgement (`amounts_fail`); the run succeeds or fails exactly as it says. C44_created: end to end, from the input list to the rows of query.
  Theorems: `C44_run`, `C44_panics_iff`, `C44_text_only`, `C44_created`.
- **C45 Clause keywords are classified by priority** (proved). List equation. C45_created: end to end, from the input list to the rows of query.
  Theorems: `C45_keywords`, `C45_created`.
- **C46 Which clause keywords are recognised** (proved). Witness + exact condition. C46_exact is the exact statement; C46_lowercase_partial: the plain reading for words that are their own lowercase; C46_refuted: witness.
  Theorems: `C46_exact`, `C46_lowercase_partial`, `C46_never`, `C46_refuted`.
- **C47 Clauses are ordered, disjoint and free of separators** (proved). C27 + C29 on whitespace. C47_created: end to end, from the input list to the rows of query.
  Theorems: `C47_clauses`, `C47_disjoint`, `C47_after_keywords`, `C47_created`, `C47_unique`.
- **C48 Clause kinds follow the keyword before the clause** (proved). Specification automaton. C48_created: end to end, from the input list to the rows of query.
  Theorems: `C48_kinds`, `C48_no_leading_effect_after_condition`, `C48_independent`, `C48_created`.
- **C49 Every worded run gets a clause** (proved). C27 + C29. C49_refuted: witness for a whitespace-only clause. C49_created: end to end, from the input list to the rows of query. C49_exact: on lines from creation the ranges reported are exactly the stretches without the space tokens at their ends.
  Theorems: `C49_covered`, `C49_refuted`, `C49_created`, `C49_exact`.
- **C50 Part-of-speech tags** (proved). List equation. The dictionary is a parameter. C50_created: end to end, from the input list to the rows of query.
  Theorems: `C50_tags`, `C50_plain`, `C50_created`.
- **C51 Independent resolvers commute** (proved). Log refinement: observations of a type depend only on the log entries of the type.
  Theorems: `C51_commute`.
- **C52 Library pipelines do not fail on text** (proved). C23, C24 and C14 combined.
  Theorems: `C52_created_single`, `C52_without_amounts`, `C52_pipelines`.
- **C53 Insertion is safe for attribute indexes** (proved). Store invariant.
  Theorems: `C53_indexes_agree`.
- **C54 Nesting of matchers** (proved). Monad laws of the result type and induction over the match lists. seq3 against both nestings, all3 against both, any_of3 against any_of2 in any_of2, all with exchanged components; panics included.
  Theorems: `C54_seq3_left`, `C54_seq3_right`, `C54_all3`, `C54_any_of3`, `C54_all_swap`.
- **C55 Lines are built side by side** (proved). Creation logs of a concatenation: the four blocks of entries live on disjoint ranges; permutation of the ranges without duplicates; layout modulo 2^bits. C55_join: tokens and all queries; C55_joins: exact condition for success.
  Theorems: `C55_join`, `C55_joins`.
- **C56 Reported texts and positions are slices of the source** (proved). Layout of the tokens as prefix sums of text lengths; C10, C22. slice_of (SpecJoin.v) is stated with the UTF-8 encoder of SpecTokens.v. Positions must fit usize.
  Theorems: `C56_query`, `C56_find`.
- **C57 What a matcher expression finds** (proved). Deep embedding of matcher expressions with a relational meaning; induction over the expression for every token and both directions, using the log refinement for the attribute matchers. mexp (SpecLayer.v) is a syntax of all matcher expressions; C57_every_matcher: every library matcher is one and conversely; meaning: its relation between token ranges and values, computed from the token list and the log alone. Matching, find_by, find, and the resolvers find_by + finish_with and find_by_forwards_and_backwards + finish_with all agree with it. token_has_any needs every token to carry an attribute (`applicable`), see C18. C57_currency, C57_symbols: the two resolvers of src/tests/currency_amount.rs.
  Theorems: `C57_every_matcher`, `C57_meaning`, `C57_find_by`, `C57_find_both`, `C57_run`, `C57_run_both`, `C57_find`, `C57_currency`, `C57_symbols`.
- **C58 Independent runs may be made in any order** (proved). Parametricity: every selection method and resolver looks at the line only through its matchers (ThmParam: on two lines with as many tokens on which the matchers agree, the results are the same up to the line they point to), and a matcher only sees the token texts and the values of the types it names; the log of an exchanged pair differs only in the order of entries of different types, which no answer depends on. C58_reorder for every reachable line and log, where runs that use token_has_any (AmountResolver, has_any expressions) need an attribute on every token; C58_created for created lines (text inputs, or no such run), with the equivalence of success. User resolvers are those of C72 and find-and-finish ones; further examples in PropUser.v.
  Theorems: `C58_reorder`, `C58_created`.
- **C59 Every token is a separator, whitespace, or in exactly one clause** (proved). C47_created and C49_created: rows and stretches between separators correspond; a token that separates is in no stretch. In terms of the rows of query and the tokens of the created line.
  Theorems: `C59_partition`.
- **C60 Searching side by side, trimming in steps, sequences as extension** (proved). Lists of start positions of adjoining selections concatenate; bounded matchers stay inside the line, so go_after and match_forwards agree on when to stop; C27 for the parts of split_by. Ten equations; the seq equations and trim need a bounded matcher, as every library matcher is on every reachable line (C22).
  Theorems: `C60_adjacent`, `C60_first`, `C60_split_with`, `C60_trim`, `C60_seq_forwards`, `C60_seq_backwards`, `C60_seq_find`, `C60_split_again`.
- **C61 Sizes only matter for positions** (proved). Splitting into tokens does not look at sizes, so the two creation logs are equal; two lines with equal token contents and equal logs go through equal runs (ThmParam, ThmOrder). C61_sizes: equivalence of success of the runs, and agreement of the results in all but positions.
  Theorems: `C61_sizes`.
- **C62 Attributes given with the input are as good as assigned** (proved). add_any_attrs is a fold of the same insertion run uses: downcasting the boxed value succeeds exactly when downcasting the vector does (decidable type equality). C62_attributes: exact equality of the line, including its index tables. The grouping of the tokens is any cut of the inputs, not a helper of the model.
  Theorems: `C62_attributes`.
- **C63 Running a resolver twice** (proved). The second run makes the same assignments as the first (ThmParam: only the types it reads matter); query groups by range of first assignment. C63_again for every reachable line; C63_created for created lines. Resolvers: the library's, find-and-finish ones and any written by users (C72).
  Theorems: `C63_again`, `C63_created`.
- **C64 Currency amounts end to end** (proved). The symbol rows by C39-style token rows, the amounts unchanged because the amount resolver does not read the symbols (ThmParam), the currency rows by the meaning of the matcher expression any_of(seq, seq) on the log of both (C57). C64_currency: all rows of the three types, in both directions. C64_next_to_number: a symbol next to a number token gives a currency amount. The resolvers are the ones in src/tests/currency_amount.rs; its amount resolver is the text of layered-amount.
  Theorems: `C64_currency`, `C64_next_to_number`.
- **C65 Token by token resolvers treat joined inputs independently** (proved). The created-line theorems of C39, C45 and C50 give the function; rows of a concatenation by C55. C65_local: one function per resolver for all lines. C65_joined: rows on joined inputs.
  Theorems: `C65_local`, `C65_joined`.
- **C66 A text may be cut where the segmenter cuts it** (proved). Splitting a text is a fold over its segments that only appends; creation with given groups of tokens; an empty list of attributes changes nothing. C66_cut: equivalence for every resulting line; the condition speaks of the external segmenter, which is a parameter of the model.
  Theorems: `C66_cut`.
- **C67 Positions in any unit** (proved). Each token carries its chars or its declared size; positions are prefix sums of these; C10 and C22 as for C56. C67_query, C67_find for every additive size function; C67_determined: uniqueness of the text between two positions; C67_units: the two size functions of the repository are additive.
  Theorems: `C67_query`, `C67_find`, `C67_determined`, `C67_units`.
- **C68 Matches on joined inputs** (proved). By C57 the searches report the meaning of the expression on the assignments; by C55 the assignments of the joined line are those of the parts. Restricting to a window commutes with one-after-the-other (ranges run left to right) and with both-on; without sequences nothing of the two parts can combine. C68_inside: any_of-free expressions, both searches; C68_no_seq: seq-free expressions, equality up to order with nothing added; C68_any_of_refuted: witness. token_has_any panics on tokens without attributes (C18), hence text inputs are required where it occurs.
  Theorems: `C68_inside`, `C68_no_seq`, `C68_any_of_refuted`.
- **C69 The display can be read back** (proved). By C35 the display is the first row and the attribute rows. Columns grow strictly with the token, so the indentation gives the first token and the length of the underline the last one; an underline without its right corner is at most one column wide, hence on one token. Rows begin with a line break and have no other. C69_read for any lists of types; C69_query for one type; C69_any_text_refuted: witness against dropping the condition. The padding space must have a positive width.
  Theorems: `C69_read`, `C69_query`, `C69_any_text_refuted`.
- **C70 Printed texts tell values apart** (proved). Decimal digits are read back by Horner's rule; a text of digits ends at the first other character. Rows of different types are told apart by their texts. Plain form {:?} only. The Debug of usize and of rust_decimal's Decimal are external and modelled as decimal digits (the replayed tests agree). C70_layout and C70_decimal give the texts themselves, written with as_struct, as_tuple and the numbers they denote.
  Theorems: `C70_number`, `C70_plain`, `C70_apart`, `C70_display`, `C70_selection`, `C70_selection_eq`, `C70_find`, `C70_assignment`, `C70_any_of`, `C70_layout`, `C70_decimal`.
- **C71 Matchers written by users cannot leave the line** (proved). Induction over the tree of calls: every answer of the four reading methods is an index of the line (C22, and the panics of C18 at other indexes). The induction over all ways to make a selection of C24, with the weaker invariant that the ends are in the line. The library's matchers are written as such trees. C71_code: the same for whole resolvers, given as trees of calls of the LLSelection methods. A user's matcher is a tree of calls of the XDirection methods, of `ll_tokens`, `query`, `find` (with such a matcher again) and of the display, with arbitrary continuations; `honest` says that directions and indexes come from the arguments, from answers, or (indexes) from earlier calls on the line. C71_inside, C71_library, C71_ends, C71_run, C71_find for these; C71_onward for any function satisfying `bounded`; C71_find_any: `find` with any function; C71_reversed_refuted, C71_foreign_refuted: witnesses.
  Theorems: `C71_inside`, `C71_library`, `C71_ends`, `C71_onward`, `C71_run`, `C71_find`, `C71_whole`, `C71_code`, `C71_find_any`, `C71_reversed_refuted`, `C71_foreign_refuted`.
- **C72 What code written by users can see** (proved). Induction over the trees: every single call answers the same on both lines (ThmParam for the selection methods, LemMatch for the attribute reads). C58, C61 and C63 have such resolvers as a further kind of step. User code is a tree of calls with arbitrary continuations; selections are given by their two indexes, which Debug shows; `asks` and `code_asks` name the types. Not offered to this code: LLLine::find, the display and the Debug of tokens and lines (positions), and selections kept from other lines.
  Theorems: `C72_sees`, `C72_unaffected`, `C72_library`.
- **C73 Resolver runs on joined inputs** (proved). A relation between the stores of the whole and of the parts (same tokens, assignments side by side) is kept by each run: the matches found are those of the parts (C68), and an amount found in the whole lies on one side of a quiet token. C73_pipelines for all sequences of the four resolvers with `keeps_apart`; C73_seam_refuted: witness against dropping the condition on amounts. The clause resolver is C74. Query results are compared up to order within one query (Permutation), because a run on the whole adds rows in one go.
  Theorems: `C73_pipelines`, `C73_seam_refuted`.
- **C74 Clauses on joined inputs** (proved). The clauses are the stretches without spaces at their ends (C49_exact); with a separator at the seam, the stretches of the whole are those of the parts. Kinds by C47. C74_ranges, C74_kinds; C74_seam_refuted: witness against dropping the separator. Nothing is said about the kinds in the second part after a first part that ends with a keyword (they then follow that keyword).
  Theorems: `C74_ranges`, `C74_kinds`, `C74_seam_refuted`.
- **C75 White space matching takes one token** (proved). By C15 the matches of attr_eq are the text tags assigned on the token; on a created line (C09) that is its one tag, and runs that assign other types do not change the answer (C12). C75_whitespace proved; C75_documented_refuted: the documented behaviour fails on a space followed by a line break, and `trim` leaves white space.
  Theorems: `C75_whitespace`, `C75_documented_refuted`.
- **C76 The tokens of a line given again as inputs** (proved). The pieces of a segment are unique (C08); the text of a piece, as a segment of its own, has one piece, whose tag is computed by cases on the tag it had. Positions follow from the sizes of the texts. C76_again. TableLaws (letters are not white space, documented punctuation is neither) and CharLaws hold of the Unicode tables; the condition that each token text is a single segment on its own is about the segmenter and is checked in the concrete case.
  Theorems: `C76_again`.
- **C77 Tags by text** (proved). By cases on the pieces of a segment (C05, C08). The parts of speech follow from C50. C77_tags, C77_parts_of_speech under TableLaws and CharLaws; C77_documented_refuted: two words tagged SYMB; C77_compounds_refuted: words of the comment at get_word_tag.rs:27 that the segmenter cuts; C05_each_token_refuted: a value token has no text tag, against src/ll_line.rs:19-20.
  Theorems: `C77_tags`, `C77_parts_of_speech`, `C77_documented_refuted`, `C77_compounds_refuted`.
- **C78 Map entries** (proved). The entry splits the map at the key; a key that occurs once and a value of the key's type are kept by each operation. C78_occupied, C78_vacant, C78_or_insert, C78_or_insert_with, C78_other_type. A `&mut T` is modelled as the value and the map after writing. The function that makes entries is the commented-out `TypeBucket::entry`, on the map type that the entries name (one boxed value per type, not the vectors TypeBucket has now).
  Theorems: `C78_occupied`, `C78_vacant`, `C78_or_insert`, `C78_or_insert_with`, `C78_other_type`.
- **C79 Written numbers are read back** (proved). Token texts of a text that is a written number: uniqueness of the cut into runs (C08); then the digit groups of the amount grammar by induction on the groups, and the end of the amount by determinism of that grammar; the left end from C40 and C42. C79_within: among any other tokens, with the exact text given to the decimal parser; C79_alone: the whole way from a text to the only row of the query. Which segments the text has is a condition on the segmenter (`cut_between`), checked in the concrete cases for commas (one segment) and spaces (three).
  Theorems: `C79_within`, `C79_alone`.
- **C80 Lines keep answering** (proved). The log of such a line has no reversed ranges (C24); the library resolvers are traced to show that what they finish is made from the selection they are given; then C10, C33, C35. C80_answers for all lines made by creation, runs of the library's resolvers that return, and runs of resolvers that only finish selections made with library matchers from the one they are given (`well_behaved`); C80_library: the library's own resolvers are such. Without `well_behaved`: C14, C10_query_panics and C71_reversed_refuted. `find` with token_has_any can panic (C18).
  Theorems: `C80_answers`, `C80_library`.
- **C81 Clauses by one pass over the tokens** (proved). The stretches the pass cuts and the runs `split_by` gives are both ordered and have the same members; trimming and kinds are then compared stretch by stretch. For joined inputs the cut of the whole is the cut of the parts. C81_marks, C81_scan for all lines created from inputs without attributes of the types involved (as C47–C49 for created lines); the pass (`scanned`) is written over marks only and shares nothing with the model of `split_by`, `trim` and the resolver. C81_parts gives the kinds in the second part also when the first part ends with a keyword, which C74_kinds leaves open.
  Theorems: `C81_marks`, `C81_scan`, `C81_parts`.
- **C82 Amounts by one pass over the tokens** (proved). Every state of the pass says which digit groups (C39) were read; by induction over the marks the rest of the pass is the rest of the amounts, or fails as they do (C44). C82_marks, C82_pass for all created lines (value tokens included); C82_parts for all pairs of inputs, quiet seam or not (C73 needs one). The pass (`read`, `pass`) is written over marks only. Exact where C42_partial and C42_created describe what amounts join.
  Theorems: `C82_marks`, `C82_pass`, `C82_parts`.
- **C83 Printed tokens** (proved). A literal is cut off at its first unescaped quote by induction over its characters; every escape of std is one of the three forms of Rust's literals, for every table. C83_literals and C83_escapes (what is printed, exactly), C83_literal_once (a fact about Rust literals, in SpecPrint.v only), C83_apart (characters, texts, tokens and token slices, also when something follows), C83_layout, C83_source. C83_display generalises C70_display to any attribute types that print plainly and differently; C83_types shows that the library's types and characters are such.
  Theorems: `C83_literal_once`, `C83_literals`, `C83_escapes`, `C83_apart`, `C83_layout`, `C83_display`, `C83_types`, `C83_source`.
- **C84 Matchers and resolvers with memory** (proved). Each method is a computation that asks questions and goes on with the answers; the questions of such a computation are distinct, so the answers of one execution are those of a function. The combinators by unfolding. C84_asked (nine methods of a selection) and C84_asked_line (`find`): the questions, the memory afterwards, and a matcher without memory with the same result, whose every answer is one of the answers of the matcher with memory; C84_memoryless and C84_combinators tie the model with memory (ModelState.v) to the one used everywhere else; C84_order, C84_order_seq: the order inside the combinators; C84_run, C84_history: resolvers. C84_again_refuted: the same call twice can give two results; C84_seq_refuted: a sequence asks the same question several times, and then no matcher without memory need give the same result.
  Theorems: `C84_asked`, `C84_asked_line`, `C84_memoryless`, `C84_combinators`, `C84_order`, `C84_order_seq`, `C84_run`, `C84_history`, `C84_again_refuted`, `C84_seq_refuted`.
- **C85 Layers that do not read each other** (proved). Side by side: the line with and the line without the other runs have histories that agree on the types concerned (C12, C58), by induction over the runs. C85_layers (answers, displays, and the success of a further run); C85_clauses and C85_amounts apply it to C81 and C82. C85_read_refuted: a layer whose results are read does matter; C85_unattributed_refuted: so does one that gives a bare token its first attribute, to `token_has_any`.
  Theorems: `C85_layers`, `C85_clauses`, `C85_amounts`, `C85_read_refuted`, `C85_unattributed_refuted`.
- **C86 Functions given by users** (proved). The creation fold with memory is compared with the fold without: the cut of each input does not depend on sizes, so the calls are those on the text tokens, by induction over the inputs. The other functions by induction over the values. C86_sizes, C86_sizes_only, C86_sizes_panic and C86_sizes_answered for the text-size function (`in_turn`: which calls, in which order, from which memory to which); lines created with such a function are lines like any other, so every property about lines with a history holds for them. C86_attr_eq, C86_has_any, C86_debug, C86_finish, C86_clone, C86_clone_array for the others; C86_pure ties ModelSize.v and ModelCalls.v to the model used everywhere else. Not modelled: user Drop implementations, lazy iterators given to finish_with, and rows pushed before a Debug panics.
  Theorems: `C86_sizes`, `C86_sizes_only`, `C86_sizes_panic`, `C86_sizes_answered`, `C86_attr_eq`, `C86_has_any`, `C86_debug`, `C86_finish`, `C86_clone`, `C86_clone_array`, `C86_pure`.
- **C87 Printed on several lines** (proved). Padding a text of whole lines puts four spaces before each of them; so the padded text of lines is the text of the same lines one deeper, by induction over the lines. Padding is injective and cuts nowhere inside a value, so what can be told apart on one line can be on several. One description of a value (`form`, SpecIndent.v) and two layouts of it, `on_one_line` and `on_lines` (lines with depths): C87_layouts for the library's values, C87_inside for values around values of any type; C87_token_lines spells the lines of a token out; C87_apart, C87_source. The snapshot of src/tests/tokenizing.rs is replayed character by character in TestsRepo.v.
  Theorems: `C87_layouts`, `C87_inside`, `C87_token_lines`, `C87_apart`, `C87_source`.
- **C88 Values are opaque** (proved). A logical relation: the store is a function of the tokens and the log (C10, C15), so related logs give related answers; the combinators, the methods of selections, users' programs and code by induction over them. `Val` is any relation between values of the same type; `lines_corr` says that the two lines have the same tokens and logs that agree in ranges and types, with related values. C88_layers: creation and any number of runs of related resolvers keep lines related, and one side panics exactly if the other does, with the same message; C88_run for a single run; C88_resolvers: which resolvers are related (find-and-finish, text matching with related tables, users' code that passes values on, and the library's own if the types they look at are unchanged); C88_answers, C88_matchers, C88_user_matchers, C88_selections. C88_exchanged: with a function from values to values, a query of one line is the query of the other with the function applied. C88_compared_refuted: a comparison that can tell the values apart does see the difference.
  Theorems: `C88_layers`, `C88_run`, `C88_resolvers`, `C88_answers`, `C88_exchanged`, `C88_matchers`, `C88_user_matchers`, `C88_selections`, `C88_compared_refuted`.
- **C89 Tokens of ASCII text, by its characters** (proved). Whether two neighbouring characters belong to one segment depends on at most two characters on each side; so a piece of the text is a segment iff no inner cut is allowed and both ends are cuts. The tokens of a segment are those of C05 and C06. Two lists of segments with the same concatenation that cut at the same places are equal. `AsciiLaws` (SpecAscii.v) is the assumption: on ASCII text the segmenter cuts exactly where the boundary rules of UAX #29 do not forbid it, and the alphabetic and white space tables are the ASCII ones. The colon rule is a parameter, because it changed between Unicode versions and the repository pins none. C89_accepted, C89_spaces and C89_numbers for all ASCII text (numbers: tokens are runs of digits always, the converse where no digit follows a letter or underscore; `x5` shows that this is needed); C89_plain describes every token of text in which letters and digits do not touch; C89_compounds; C89_written; C89_determined. The example segmenter of ExUnicode.v is proved to obey the laws (`latin_ascii`). C89_all describes every token of every ASCII text by the boundary rules (`chunk`: a piece with a boundary at both ends and none inside).
  Theorems: `C89_accepted`, `C89_spaces`, `C89_numbers`, `C89_plain`, `C89_all`, `C89_compounds`, `C89_written`, `C89_determined`.
- **C90 Amounts of ASCII text, by its characters** (proved). By C89 the tokens of the text are known up to what the pass of C82 can see: NATN tokens are the maximal runs of digits, no other token has a digit, and a decimal sign after a digit is a token of its own. So the pass over the tokens and the machine over the characters go through corresponding states (induction over the tokens). Soundness and completeness of the machine by induction over the characters. `numbers_in` (SpecChars.v) is a machine of five states over the characters; it knows no tokens. C90_amounts: a run of the amount resolver on the line of an ASCII text puts exactly what the machine finds, in order, on the tokens with just this text, and panics if the parser refuses a text found. C90_written says the same without the machine: every amount is a number as written in SpecWritten.v (C79) that touches no digit on either side, its value is the parse of what it denotes (with a point after it if a decimal sign follows and no fraction), and every digit of the text lies in an amount. Assumed: the segmenter laws of C89, no digit after a letter or an underscore (`C90_apart_needed`), signs that are no digits, a decimal sign that is neither letter nor white space (or is a delimiter too). Nothing missing.
  Theorems: `C90_amounts`, `C90_written`.
- **C91 Clauses of a written sentence** (proved). A written sentence is a chain of words, single spaces and punctuation marks; each is a lexeme of C89 where it stands, and a list of lexemes with the right concatenation is the list of tokens. The marks of C81 are known for each, and the pass of C81 over them is computed part by part (induction over the parts, with the stretch being read as state). `Saying`, `sentence` and `clauses_said` (SpecSentence.v) describe a sentence as it is written, and its clauses, without tokens, marks or selections. C91_clauses: tokenizing, then the clause keyword resolver, then the clause resolver leave exactly the clauses said, in order, each on the tokens with just its words. Words are letters with single periods, apostrophes (and colons) between them, or digits; keywords are what C45 classifies. A number such as 1,500 is not such a word: its comma ends the clause (C91_numbers_refuted). Texts that are not written in this way are covered by C81 and C89. Nothing missing.
  Theorems: `C91_clauses`, `C91_numbers_refuted`.
- **C92 Keys that can be found in ASCII text** (proved). A chunk of C89 that is cut at both ends is held together by rules that look only inside it, so it is uncut when alone; a part of a number is digits, letters or one sign. Lower-casing preserves every character class of the rules. The queries are those of C37, C38 and C45 for created lines, and the functions that give the values agree on all texts that are tokens. `single_piece` (SpecKeys.v) speaks of characters and boundary rules only. C92_tokens and C92_alone: exactly these texts are tokens of ASCII texts. C92_useless, C92_useless_ci: an entry with another key can be removed from a table without changing any query; C92_useful: an entry with such a key is found; C92_keywords: the same for clause keywords; C92_characters: what such texts look like. Assumed: the segmenter laws of C89, and for the resolvers that ignore case that `to_lowercase` on ASCII text is the usual one (`AsciiLower`; the example instance has it). Nothing missing.
  Theorems: `C92_tokens`, `C92_alone`, `C92_characters`, `C92_useless`, `C92_useless_ci`, `C92_useful`, `C92_keywords`.
- **C93 Prices of ASCII text, by its characters** (proved). C64 gives the prices by token positions, C90 the amounts by characters. A dollar sign joins nothing, so it is a token wherever it stands; tokens are not empty, so the text before a position determines the position; thus neighbouring tokens are neighbouring texts. `price` (SpecPrices.v) is built from the machine of C90 and the dollar sign only. C93_prices: what the third run leaves is exactly the prices, with their places; C93_dollars: no dollar sign next to a digit is overlooked. The first two runs are assumed to succeed (the second panics exactly if the parser refuses a number, C90). The euro sign is not ASCII; C64 has both at the level of tokens. Nothing missing.
  Theorems: `C93_prices`, `C93_dollars`.
- **C94 Texts of words and marks** (proved). The text is a chain of words, spaces and marks as in C91, so its tokens are known by C89; the queries are those of C37, C38 and C50 for created lines, computed along the list of tokens (induction, with the text before as accumulator). `wordy_text`, `read_as` and `valued` (SpecWordy.v) go over the words as written. C94_tokens: the list of tokens; C94_tags: the tags of the part of speech resolver; C94_matches: text match tables of both kinds. Every row is shown to lie on the one token at the place of the word in the text (`piece_row`). Texts that are not written in this way are covered by C89, C37, C38 and C50. Nothing missing.
  Theorems: `C94_tokens`, `C94_tags`, `C94_matches`.
- **C95 Shape and case of ASCII text** (proved). No boundary rule distinguishes two letters or two digits, so the segments of the two texts have equal lengths (otherwise one text would be uncut where the other must be cut); the functions that tag and split a segment are then followed in parallel. The queries are those of C38, C50, C81 and C82 for created lines; the one-pass machines of C81 and C82 make the same steps on both lists of marks. `same_shape` and `same_case` (SpecCase.v) relate two texts by their characters. C95_shape: the tokens of the two lines are related one by one, with equal tags, also in lists of inputs; C95_string: `create_line_from_string` accepts both, with equal positions. C95_parts_of_speech, C95_matches, C95_clauses, C95_amounts: the rows of the queries for texts that differ in case; C95_amount_places: the places of the amounts for texts of the same shape. The amount theorems are about lines without value tokens (with them, what the resolver does depends on their attributes, C44). Laws assumed as in C92. Nothing missing.
  Theorems: `C95_shape`, `C95_string`, `C95_parts_of_speech`, `C95_matches`, `C95_clauses`, `C95_amount_places`, `C95_amounts`.
- **C96 ASCII text and its pieces** (proved). A rule that looks across the cut would also forbid the cut itself, so inside each part the same rules apply as in the whole; both lists of words are then cut at the same places (`same_cuts`). The line is that of C66_cut, induction over the pieces; the rest by C55, C65, C73 and C74, after showing by C89 what the tokens at the cut are. C96_words: the words of the text are those of the two parts exactly if no boundary rule forbids the cut; C96_places: white space and line ends are such places. C96_pieces: the line of the text and of the list of pieces, among other inputs; C96_local: single-token resolvers, piece by piece (`in_sequence`); C96_line, C96_steps, C96_clauses: tokens, attributes, pipelines and clauses for two parts. What clauses are of which kind depends on the other part (C74_kinds, C81_parts), so C96_clauses is about their places. Laws assumed as in C89. Nothing missing.
  Theorems: `C96_words`, `C96_places`, `C96_pieces`, `C96_local`, `C96_line`, `C96_steps`, `C96_clauses`.
- **C97 Results are no larger than the text** (proved). The rows of a query are the different ranges of the history (C10), so counting is about lists of ranges without repetition inside 0..n; each resolver's answer has at most one range for each start. Amounts and clauses do not overlap (C39, C47), which bounds the characters; a clause is followed by a separator or a space, which gives the factor two. `chars_in`, `number_count`, `reported_chars`, `line_chars` and `times_written` (SpecBound.v) count characters, number tokens and steps. C97_tokens; C97_query (any line with a history); C97_created; C97_pipelines (rows after the pipeline against rows before it); C97_amounts and C97_clauses. PropBound.v shows a text where the bounds for tokens, amounts and clauses are reached. C97_pipelines excludes inputs that bring `TextTag` or keyword attributes of their own, as C52 does. Nothing missing.
  Theorems: `C97_tokens`, `C97_query`, `C97_created`, `C97_pipelines`, `C97_amounts`, `C97_clauses`.
- **C98 Tables and keyword lists may be taken apart** (proved). Two logs that give each range the same values, and list the ranges starting (and ending) at each token in the same order, cannot be told apart by any matcher; this relation is kept when the same assignments are added, so by induction over the steps the resolvers make the same assignments. Assignments to single tokens satisfy it whatever their order. `interchangeable` (SpecMerge.v) quantifies over all later pipelines; `answer_alike` lists what is compared. C98_tables: two lists of tables that give every text the same values in the same order; C98_split and C98_order follow: one table against its parts, and the parts in another order. C98_keywords: the same for clause keywords, hence the same clauses. C98_mixed and C98_split_ci: tables that ignore case, alone and mixed with others. C98_rows_refuted, C98_overlap_refuted, C98_case_refuted. Later steps with users' code are excluded, since it may look at the order of the rows of a query. Nothing missing.
  Theorems: `C98_tables`, `C98_split`, `C98_order`, `C98_keywords`, `C98_mixed`, `C98_split_ci`, `C98_rows_refuted`, `C98_overlap_refuted`, `C98_case_refuted`.
- **C99 More keywords split clauses, more delimiters join amounts, more entries add matches** (proved). Clauses: a stretch without the more separators lies in one without the fewer (C49_exact), and trimming a space at either end keeps the order of the ends. Amounts: the two passes of C82 are run side by side; a relation between what is being read in the one and in the other, with the amounts finished since, is kept by every token. Tables: the rows are given by the values of each text (C37_created, C38_created). `more_words`, `more_delimiters`, `lies_in`, `put_together`, `grouped` (SpecFiner.v) speak of configurations, ranges and texts only. C99_clauses: a unique clause around each new one, and clauses away from new separators stay. C99_amounts: `grouped` lists of ranges and spelled texts, of which the rows are the parses. C99_tables, C99_tables_ci: inclusion of the rows. C99_point_refuted: the condition on the decimal sign is needed. Part-of-speech dictionaries are not included: a new entry replaces the default tag. Nothing missing.
  Theorems: `C99_clauses`, `C99_amounts`, `C99_tables`, `C99_tables_ci`, `C99_point_refuted`.
- **C100 Pieces may be replaced by others of the same role** (proved). The tokens of a line are those of its pieces (C55), and so are the attributes of its value tokens; so the two lines have the same marks, and the passes of C81 and C82 depend on nothing else. Matches and parts of speech: the rows are given token by token (C37_created, C38_created, C50_created). `same_roles` and `same_numbers` (SpecReplaced.v) use the marks of C81 and C82, which speak of the texts and tags of tokens (and, for value tokens, of queries). `same_values` and `same_parts` ask for the same values in two tables (used as they are or ignoring case) and the same parts of speech in two dictionaries. C100_clauses, C100_amounts, C100_matches, C100_parts_of_speech; texts of the rows may differ and are left out by `place`. Case: a German text with a placeholder for a name, a number in another notation, and tables and dictionaries in two languages. Nothing missing.
  Theorems: `C100_clauses`, `C100_amounts`, `C100_matches`, `C100_parts_of_speech`.
