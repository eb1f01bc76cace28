{
 "claims": [
  {
   "property": "C01",
   "status": "proved",
   "theorems": [
    "C01_no_text_lost"
   ],
   "note": "For every input, size function and segmenter satisfying the cutting law (segments concatenate to the text and are not empty)."
  },
  {
   "property": "C02",
   "status": "proved",
   "theorems": [
    "C02_positions",
    "C02_deprecated",
    "C02_tiling"
   ],
   "note": "C02_positions: exact layout of all tokens modulo 2^bits, and the overflow condition; C02_tiling: tiling when the total fits."
  },
  {
   "property": "C03",
   "status": "proved",
   "theorems": [
    "C03_byte_offsets"
   ],
   "note": "UTF-8 encoder written out in SpecTokens.v."
  },
  {
   "property": "C04",
   "status": "proved",
   "theorems": [
    "C04_rejected"
   ],
   "note": "Exact iff, with the kind of each panic."
  },
  {
   "property": "C05",
   "status": "proved",
   "theorems": [
    "C05_tags",
    "C05_natn",
    "C05_natn_any_line",
    "C05_one_tag_each",
    "C05_each_token_refuted"
   ],
   "note": "C05_tags gives the cut of every text into tagged pieces; C05_one_tag_each: the TextTags stored are those; C05_natn: the corollary for NATN, at creation and on every reachable line."
  },
  {
   "property": "C06",
   "status": "proved",
   "theorems": [
    "C06_refuted",
    "C06_exact",
    "C06_documented_partial"
   ],
   "note": "C06_exact is the exact statement; C06_documented_partial the documented reading with the missing condition (no digit-led segment); C06_refuted the witness against the plain reading."
  },
  {
   "property": "C07",
   "status": "proved",
   "theorems": [
    "C07_char_iff_one_char",
    "C07_created_plain"
   ],
   "note": "C07_created_plain: at creation the char and TextTag attributes are exactly the tokens' own."
  },
  {
   "property": "C08",
   "status": "proved",
   "theorems": [
    "C08_unique",
    "C08_runs"
   ],
   "note": "C08_runs: the tokens of a digit-led segment, wherever it stands in the input, are maximal runs; C08_unique: this determines the cut."
  },
  {
   "property": "C09",
   "status": "proved",
   "theorems": [
    "C09_input_attributes",
    "C09_groups",
    "C09_add_attr"
   ],
   "note": "add_attr is covered by C09_add_attr. C09_groups: the grouping of the tokens by input that the creation log mentions is the only cut of the tokens with these texts."
  },
  {
   "property": "C10",
   "status": "proved",
   "theorems": [
    "C10_query_exact",
    "C10_query_panics",
    "C10_rows",
    "C10_creation_ordered"
   ],
   "note": "For every history (creation followed by any runs of any resolvers). C10_query_panics: otherwise, i.e. when some range carrying this type has its start more than one past its end, query panics; C10_creation_ordered: creation never stores such a range. C10_creation_ordered is stated for every grouping of tokens that is a cut of the inputs."
  },
  {
   "property": "C11",
   "status": "proved",
   "theorems": [
    "C11_run_only_adds"
   ],
   "note": "Proved as stated."
  },
  {
   "property": "C12",
   "status": "proved",
   "theorems": [
    "C12_no_interference",
    "C12_keeps_plain",
    "C12_token_has_any_refuted"
   ],
   "note": "C12_token_has_any_refuted: the one observation of another type that does change is whether forward token_has_any panics at a value token without attributes."
  },
  {
   "property": "C13",
   "status": "proved",
   "theorems": [
    "C13_empty_line",
    "C13_only_empty"
   ],
   "note": "Proved as stated."
  },
  {
   "property": "C14",
   "status": "proved",
   "theorems": [
    "C14_run_ok_iff",
    "C14_run_panics_iff"
   ],
   "note": "Exact iff in both directions."
  },
  {
   "property": "C15",
   "status": "proved",
   "theorems": [
    "C15_attr",
    "C15_attr_eq",
    "C15_reads_query"
   ],
   "note": "C15_reads_query: the same in terms of query."
  },
  {
   "property": "C16",
   "status": "proved",
   "theorems": [
    "C16_attr",
    "C16_attr_eq",
    "C16_token_text",
    "C16_all",
    "C16_token_has_any_refuted",
    "C16_any_of_refuted"
   ],
   "note": "Also for all((..)); C16_token_has_any_refuted and C16_any_of_refuted give witnesses that it fails for these two."
  },
  {
   "property": "C17",
   "status": "proved",
   "theorems": [
    "C17_any_attribute",
    "C17_bucket"
   ],
   "note": "Proved as stated."
  },
  {
   "property": "C18",
   "status": "proved",
   "theorems": [
    "C18_unattributed",
    "C18_token_has_any"
   ],
   "note": "Proved as stated."
  },
  {
   "property": "C19",
   "status": "proved",
   "theorems": [
    "C19_all2",
    "C19_all3",
    "C19_panics"
   ],
   "note": "C19_panics: when a component panics."
  },
  {
   "property": "C20",
   "status": "proved",
   "theorems": [
    "C20_any_of2",
    "C20_any_of3",
    "C20_none"
   ],
   "note": "Proved as stated."
  },
  {
   "property": "C21",
   "status": "proved",
   "theorems": [
    "C21_seq2",
    "C21_seq3",
    "C21_inside_only"
   ],
   "note": "Proved as stated."
  },
  {
   "property": "C22",
   "status": "proved",
   "theorems": [
    "C22_inside",
    "C22_ends_in_line"
   ],
   "note": "By induction over all matchers that can be written with the library's constructors (lib_matcher). User-written matchers are outside."
  },
  {
   "property": "C23",
   "status": "proved",
   "theorems": [
    "C23_without_has_any",
    "C23_backwards",
    "C23_attributed",
    "C23_text_only"
   ],
   "note": "Proved as stated."
  },
  {
   "property": "C24",
   "status": "proved",
   "theorems": [
    "C24_in_range",
    "C24_with_after",
    "C24_created",
    "C24_run",
    "C24_after_refuted"
   ],
   "note": "Over all sequences of the operations with all library matchers; C24_run: every selection-derived assignment is accepted by run."
  },
  {
   "property": "C25",
   "status": "proved",
   "theorems": [
    "C25_find_by",
    "C25_ok_iff",
    "C25_first"
   ],
   "note": "Proved as stated."
  },
  {
   "property": "C26",
   "status": "proved",
   "theorems": [
    "C26_found_inside_partial",
    "C26_exact",
    "C26_refuted"
   ],
   "note": "C26_found_inside_partial: the part of the plain reading that holds; C26_refuted: witness against the rest; C26_exact: for the attribute matcher, exactly when every match lies inside (no value of the type is on a range that starts in the selection and ends after it)."
  },
  {
   "property": "C27",
   "status": "proved",
   "theorems": [
    "C27_runs",
    "C27_single_tokens",
    "C27_no_match",
    "C27_refuted",
    "C27_unique",
    "C27_exact",
    "C27_untouched"
   ],
   "note": "C27_runs under the stated condition; C27_exact and C27_untouched without any condition; C27_refuted: witness for nested matches."
  },
  {
   "property": "C28",
   "status": "proved",
   "theorems": [
    "C28_split_with",
    "C28_panics_iff"
   ],
   "note": "Proved as stated."
  },
  {
   "property": "C29",
   "status": "proved",
   "theorems": [
    "C29_trim_start",
    "C29_trim_end_exact",
    "C29_trim_exact",
    "C29_trim_end_partial",
    "C29_trim_partial",
    "C29_trim_end_refuted",
    "C29_trim_refuted"
   ],
   "note": "The _exact theorems give the exact result, the _partial ones the plain reading with the missing condition, the _refuted ones witnesses against the plain reading."
  },
  {
   "property": "C30",
   "status": "proved",
   "theorems": [
    "C30_match_forwards",
    "C30_match_backwards",
    "C30_first",
    "C30_unwritten",
    "C30_seq"
   ],
   "note": "C30_seq relates match_forwards after find_by to seq."
  },
  {
   "property": "C31",
   "status": "proved",
   "theorems": [
    "C31_exact",
    "C31_after_partial",
    "C31_wrong_none",
    "C31_wrong_some",
    "C31_none_refuted",
    "C31_some_refuted"
   ],
   "note": "C31_exact is the exact result; C31_after_partial the plain reading where it holds; C31_wrong_* all cases where it fails, C31_*_refuted reachable witnesses."
  },
  {
   "property": "C32",
   "status": "proved",
   "theorems": [
    "C32_both_directions",
    "C32_order",
    "C32_twice"
   ],
   "note": "Proved as stated."
  },
  {
   "property": "C33",
   "status": "proved",
   "theorems": [
    "C33_find",
    "C33_empty",
    "C33_ordered"
   ],
   "note": "Proved as stated."
  },
  {
   "property": "C34",
   "status": "proved",
   "theorems": [
    "C34_eq_iff",
    "C34_equivalence",
    "C34_same"
   ],
   "note": "Proved as stated."
  },
  {
   "property": "C35",
   "status": "proved",
   "theorems": [
    "C35_display",
    "C35_columns",
    "C35_underline",
    "C35_reversed_panics"
   ],
   "note": "Width is the sum of character widths. C35_reversed_panics: what happens for reversed ranges."
  },
  {
   "property": "C36",
   "status": "proved",
   "theorems": [
    "C36_include",
    "C36_with",
    "C36_once"
   ],
   "note": "Proved as stated."
  },
  {
   "property": "C37",
   "status": "proved",
   "theorems": [
    "C37_case_sensitive",
    "C37_case_insensitive",
    "C37_array",
    "C37_created"
   ],
   "note": "C37_created: end to end, from the input list to the rows of query."
  },
  {
   "property": "C38",
   "status": "proved",
   "theorems": [
    "C38_last_wins",
    "C38_order_independent",
    "C38_order_dependent",
    "C38_refuted",
    "C38_array_refuted",
    "C38_created"
   ],
   "note": "C38_refuted and C38_array_refuted: witnesses against the plain reading. C38_created: end to end, from the input list to the rows of query."
  },
  {
   "property": "C39",
   "status": "proved",
   "theorems": [
    "C39_terminates",
    "C39_ordered",
    "C39_created"
   ],
   "note": "C39_created: end to end, from the input list to the rows of query."
  },
  {
   "property": "C40",
   "status": "proved",
   "theorems": [
    "C40_covered",
    "C40_numbers_apart",
    "C40_created"
   ],
   "note": "C40_created: end to end, from the input list to the rows of query."
  },
  {
   "property": "C41",
   "status": "proved",
   "theorems": [
    "C41_value",
    "C41_text",
    "C41_decimal",
    "C41_created"
   ],
   "note": "The decimal parser is a parameter. C41_created: end to end, from the input list to the rows of query."
  },
  {
   "property": "C42",
   "status": "proved",
   "theorems": [
    "C42_partial",
    "C42_no_neighbours",
    "C42_refuted",
    "C42_created"
   ],
   "note": "C42_partial: exact shape with the single exception; C42_no_neighbours: the plain reading with the missing condition; C42_refuted: witness. C42_created: end to end, from the input list to the rows of query."
  },
  {
   "property": "C43",
   "status": "proved",
   "theorems": [
    "C43_grouped",
    "C43_documented",
    "C43_english_refuted",
    "C43_french_refuted",
    "C43_grouped_integer",
    "C43_french_integers"
   ],
   "note": "C43_grouped, C43_grouped_integer: general; C43_documented: documented examples computed with a concrete segmenter instance; the _refuted theorems: documented examples that are false."
  },
  {
   "property": "C44",
   "status": "proved",
   "theorems": [
    "C44_run",
    "C44_panics_iff",
    "C44_text_only",
    "C44_created"
   ],
   "note": "C44_created: end to end, from the input list to the rows of query."
  },
  {
   "property": "C45",
   "status": "proved",
   "theorems": [
    "C45_keywords",
    "C45_created"
   ],
   "note": "C45_created: end to end, from the input list to the rows of query."
  },
  {
   "property": "C46",
   "status": "proved",
   "theorems": [
    "C46_exact",
    "C46_lowercase_partial",
    "C46_never",
    "C46_refuted"
   ],
   "note": "C46_exact is the exact statement; C46_lowercase_partial: the plain reading for words that are their own lowercase; C46_refuted: witness."
  },
  {
   "property": "C47",
   "status": "proved",
   "theorems": [
    "C47_clauses",
    "C47_disjoint",
    "C47_after_keywords",
    "C47_created",
    "C47_unique"
   ],
   "note": "C47_created: end to end, from the input list to the rows of query."
  },
  {
   "property": "C48",
   "status": "proved",
   "theorems": [
    "C48_kinds",
    "C48_no_leading_effect_after_condition",
    "C48_independent",
    "C48_created"
   ],
   "note": "C48_created: end to end, from the input list to the rows of query."
  },
  {
   "property": "C49",
   "status": "proved",
   "theorems": [
    "C49_covered",
    "C49_refuted",
    "C49_created",
    "C49_exact"
   ],
   "note": "C49_refuted: witness for a whitespace-only clause. C49_created: end to end, from the input list to the rows of query. C49_exact: on lines from creation the ranges reported are exactly the stretches without the space tokens at their ends."
  },
  {
   "property": "C50",
   "status": "proved",
   "theorems": [
    "C50_tags",
    "C50_plain",
    "C50_created"
   ],
   "note": "The dictionary is a parameter. C50_created: end to end, from the input list to the rows of query."
  },
  {
   "property": "C51",
   "status": "proved",
   "theorems": [
    "C51_commute"
   ],
   "note": "Proved as stated."
  },
  {
   "property": "C52",
   "status": "proved",
   "theorems": [
    "C52_created_single",
    "C52_without_amounts",
    "C52_pipelines"
   ],
   "note": "Proved as stated."
  },
  {
   "property": "C53",
   "status": "proved",
   "theorems": [
    "C53_indexes_agree"
   ],
   "note": "Proved as stated."
  },
  {
   "property": "C54",
   "status": "proved",
   "theorems": [
    "C54_seq3_left",
    "C54_seq3_right",
    "C54_all3",
    "C54_any_of3",
    "C54_all_swap"
   ],
   "note": "seq3 against both nestings, all3 against both, any_of3 against any_of2 in any_of2, all with exchanged components; panics included."
  },
  {
   "property": "C55",
   "status": "proved",
   "theorems": [
    "C55_join",
    "C55_joins"
   ],
   "note": "C55_join: tokens and all queries; C55_joins: exact condition for success."
  },
  {
   "property": "C56",
   "status": "proved",
   "theorems": [
    "C56_query",
    "C56_find"
   ],
   "note": "slice_of (SpecJoin.v) is stated with the UTF-8 encoder of SpecTokens.v. Positions must fit usize."
  },
  {
   "property": "C57",
   "status": "proved",
   "theorems": [
    "C57_every_matcher",
    "C57_meaning",
    "C57_find_by",
    "C57_find_both",
    "C57_run",
    "C57_run_both",
    "C57_find",
    "C57_currency",
    "C57_symbols"
   ],
   "note": "mexp (SpecLayer.v) is a syntax of all matcher expressions; C57_every_matcher: every library matcher is one and conversely; meaning: its relation between token ranges and values, computed from the token list and the log alone. Matching, find_by, find, and the resolvers find_by + finish_with and find_by_forwards_and_backwards + finish_with all agree with it. token_has_any needs every token to carry an attribute (`applicable`), see C18. C57_currency, C57_symbols: the two resolvers of src/tests/currency_amount.rs."
  },
  {
   "property": "C58",
   "status": "proved",
   "theorems": [
    "C58_reorder",
    "C58_created"
   ],
   "note": "C58_reorder for every reachable line and log, where runs that use token_has_any (AmountResolver, has_any expressions) need an attribute on every token; C58_created for created lines (text inputs, or no such run), with the equivalence of success. User resolvers are those of C72 and find-and-finish ones; further examples in PropUser.v."
  },
  {
   "property": "C59",
   "status": "proved",
   "theorems": [
    "C59_partition"
   ],
   "note": "In terms of the rows of query and the tokens of the created line."
  },
  {
   "property": "C60",
   "status": "proved",
   "theorems": [
    "C60_adjacent",
    "C60_first",
    "C60_split_with",
    "C60_trim",
    "C60_seq_forwards",
    "C60_seq_backwards",
    "C60_seq_find",
    "C60_split_again"
   ],
   "note": "Ten equations; the seq equations and trim need a bounded matcher, as every library matcher is on every reachable line (C22)."
  },
  {
   "property": "C61",
   "status": "proved",
   "theorems": [
    "C61_sizes"
   ],
   "note": "C61_sizes: equivalence of success of the runs, and agreement of the results in all but positions."
  },
  {
   "property": "C62",
   "status": "proved",
   "theorems": [
    "C62_attributes"
   ],
   "note": "C62_attributes: exact equality of the line, including its index tables. The grouping of the tokens is any cut of the inputs, not a helper of the model."
  },
  {
   "property": "C63",
   "status": "proved",
   "theorems": [
    "C63_again",
    "C63_created"
   ],
   "note": "C63_again for every reachable line; C63_created for created lines. Resolvers: the library's, find-and-finish ones and any written by users (C72)."
  },
  {
   "property": "C64",
   "status": "proved",
   "theorems": [
    "C64_currency",
    "C64_next_to_number"
   ],
   "note": "C64_currency: all rows of the three types, in both directions. C64_next_to_number: a symbol next to a number token gives a currency amount. The resolvers are the ones in src/tests/currency_amount.rs; its amount resolver is the text of layered-amount."
  },
  {
   "property": "C65",
   "status": "proved",
   "theorems": [
    "C65_local",
    "C65_joined"
   ],
   "note": "C65_local: one function per resolver for all lines. C65_joined: rows on joined inputs."
  },
  {
   "property": "C66",
   "status": "proved",
   "theorems": [
    "C66_cut"
   ],
   "note": "C66_cut: equivalence for every resulting line; the condition speaks of the external segmenter, which is a parameter of the model."
  },
  {
   "property": "C67",
   "status": "proved",
   "theorems": [
    "C67_query",
    "C67_find",
    "C67_determined",
    "C67_units"
   ],
   "note": "C67_query, C67_find for every additive size function; C67_determined: uniqueness of the text between two positions; C67_units: the two size functions of the repository are additive."
  },
  {
   "property": "C68",
   "status": "proved",
   "theorems": [
    "C68_inside",
    "C68_no_seq",
    "C68_any_of_refuted"
   ],
   "note": "C68_inside: any_of-free expressions, both searches; C68_no_seq: seq-free expressions, equality up to order with nothing added; C68_any_of_refuted: witness. token_has_any panics on tokens without attributes (C18), hence text inputs are required where it occurs."
  },
  {
   "property": "C69",
   "status": "proved",
   "theorems": [
    "C69_read",
    "C69_query",
    "C69_any_text_refuted"
   ],
   "note": "C69_read for any lists of types; C69_query for one type; C69_any_text_refuted: witness against dropping the condition. The padding space must have a positive width."
  },
  {
   "property": "C70",
   "status": "proved",
   "theorems": [
    "C70_number",
    "C70_plain",
    "C70_apart",
    "C70_display",
    "C70_selection",
    "C70_selection_eq",
    "C70_find",
    "C70_assignment",
    "C70_any_of",
    "C70_layout",
    "C70_decimal"
   ],
   "note": "Plain form {:?} only. The Debug of usize and of rust_decimal's Decimal are external and modelled as decimal digits (the replayed tests agree). C70_layout and C70_decimal give the texts themselves, written with as_struct, as_tuple and the numbers they denote."
  },
  {
   "property": "C71",
   "status": "proved",
   "theorems": [
    "C71_inside",
    "C71_library",
    "C71_ends",
    "C71_onward",
    "C71_run",
    "C71_find",
    "C71_whole",
    "C71_code",
    "C71_find_any",
    "C71_reversed_refuted",
    "C71_foreign_refuted"
   ],
   "note": "C71_code: the same for whole resolvers, given as trees of calls of the LLSelection methods. A user's matcher is a tree of calls of the XDirection methods, of `ll_tokens`, `query`, `find` (with such a matcher again) and of the display, with arbitrary continuations; `honest` says that directions and indexes come from the arguments, from answers, or (indexes) from earlier calls on the line. C71_inside, C71_library, C71_ends, C71_run, C71_find for these; C71_onward for any function satisfying `bounded`; C71_find_any: `find` with any function; C71_reversed_refuted, C71_foreign_refuted: witnesses."
  },
  {
   "property": "C72",
   "status": "proved",
   "theorems": [
    "C72_sees",
    "C72_unaffected",
    "C72_library"
   ],
   "note": "User code is a tree of calls with arbitrary continuations; selections are given by their two indexes, which Debug shows; `asks` and `code_asks` name the types. Not offered to this code: LLLine::find, the display and the Debug of tokens and lines (positions), and selections kept from other lines."
  },
  {
   "property": "C73",
   "status": "proved",
   "theorems": [
    "C73_pipelines",
    "C73_seam_refuted"
   ],
   "note": "C73_pipelines for all sequences of the four resolvers with `keeps_apart`; C73_seam_refuted: witness against dropping the condition on amounts. The clause resolver is C74. Query results are compared up to order within one query (Permutation), because a run on the whole adds rows in one go."
  },
  {
   "property": "C74",
   "status": "proved",
   "theorems": [
    "C74_ranges",
    "C74_kinds",
    "C74_seam_refuted"
   ],
   "note": "C74_ranges, C74_kinds; C74_seam_refuted: witness against dropping the separator. Nothing is said about the kinds in the second part after a first part that ends with a keyword (they then follow that keyword)."
  },
  {
   "property": "C75",
   "status": "proved",
   "theorems": [
    "C75_whitespace",
    "C75_documented_refuted"
   ],
   "note": "C75_whitespace proved; C75_documented_refuted: the documented behaviour fails on a space followed by a line break, and `trim` leaves white space."
  },
  {
   "property": "C76",
   "status": "proved",
   "theorems": [
    "C76_again"
   ],
   "note": "C76_again. TableLaws (letters are not white space, documented punctuation is neither) and CharLaws hold of the Unicode tables; the condition that each token text is a single segment on its own is about the segmenter and is checked in the concrete case."
  },
  {
   "property": "C77",
   "status": "proved",
   "theorems": [
    "C77_tags",
    "C77_parts_of_speech",
    "C77_documented_refuted",
    "C77_compounds_refuted"
   ],
   "note": "C77_tags, C77_parts_of_speech under TableLaws and CharLaws; C77_documented_refuted: two words tagged SYMB; C77_compounds_refuted: words of the comment at get_word_tag.rs:27 that the segmenter cuts; C05_each_token_refuted: a value token has no text tag, against src/ll_line.rs:19-20."
  },
  {
   "property": "C78",
   "status": "proved",
   "theorems": [
    "C78_occupied",
    "C78_vacant",
    "C78_or_insert",
    "C78_or_insert_with",
    "C78_other_type"
   ],
   "note": "C78_occupied, C78_vacant, C78_or_insert, C78_or_insert_with, C78_other_type. A `&mut T` is modelled as the value and the map after writing. The function that makes entries is the commented-out `TypeBucket::entry`, on the map type that the entries name (one boxed value per type, not the vectors TypeBucket has now)."
  },
  {
   "property": "C79",
   "status": "proved",
   "theorems": [
    "C79_within",
    "C79_alone"
   ],
   "note": "C79_within: among any other tokens, with the exact text given to the decimal parser; C79_alone: the whole way from a text to the only row of the query. Which segments the text has is a condition on the segmenter (`cut_between`), checked in the concrete cases for commas (one segment) and spaces (three)."
  },
  {
   "property": "C80",
   "status": "proved",
   "theorems": [
    "C80_answers",
    "C80_library"
   ],
   "note": "C80_answers for all lines made by creation, runs of the library's resolvers that return, and runs of resolvers that only finish selections made with library matchers from the one they are given (`well_behaved`); C80_library: the library's own resolvers are such. Without `well_behaved`: C14, C10_query_panics and C71_reversed_refuted. `find` with token_has_any can panic (C18)."
  },
  {
   "property": "C81",
   "status": "proved",
   "theorems": [
    "C81_marks",
    "C81_scan",
    "C81_parts"
   ],
   "note": "C81_marks, C81_scan for all lines created from inputs without attributes of the types involved (as C47–C49 for created lines); the pass (`scanned`) is written over marks only and shares nothing with the model of `split_by`, `trim` and the resolver. C81_parts gives the kinds in the second part also when the first part ends with a keyword, which C74_kinds leaves open."
  },
  {
   "property": "C82",
   "status": "proved",
   "theorems": [
    "C82_marks",
    "C82_pass",
    "C82_parts"
   ],
   "note": "C82_marks, C82_pass for all created lines (value tokens included); C82_parts for all pairs of inputs, quiet seam or not (C73 needs one). The pass (`read`, `pass`) is written over marks only. Exact where C42_partial and C42_created describe what amounts join."
  },
  {
   "property": "C83",
   "status": "proved",
   "theorems": [
    "C83_literal_once",
    "C83_literals",
    "C83_escapes",
    "C83_apart",
    "C83_layout",
    "C83_display",
    "C83_types",
    "C83_source"
   ],
   "note": "C83_literals and C83_escapes (what is printed, exactly), C83_literal_once (a fact about Rust literals, in SpecPrint.v only), C83_apart (characters, texts, tokens and token slices, also when something follows), C83_layout, C83_source. C83_display generalises C70_display to any attribute types that print plainly and differently; C83_types shows that the library's types and characters are such."
  },
  {
   "property": "C84",
   "status": "proved",
   "theorems": [
    "C84_asked",
    "C84_asked_line",
    "C84_memoryless",
    "C84_combinators",
    "C84_order",
    "C84_order_seq",
    "C84_run",
    "C84_history",
    "C84_again_refuted",
    "C84_seq_refuted"
   ],
   "note": "C84_asked (nine methods of a selection) and C84_asked_line (`find`): the questions, the memory afterwards, and a matcher without memory with the same result, whose every answer is one of the answers of the matcher with memory; C84_memoryless and C84_combinators tie the model with memory (ModelState.v) to the one used everywhere else; C84_order, C84_order_seq: the order inside the combinators; C84_run, C84_history: resolvers. C84_again_refuted: the same call twice can give two results; C84_seq_refuted: a sequence asks the same question several times, and then no matcher without memory need give the same result."
  },
  {
   "property": "C85",
   "status": "proved",
   "theorems": [
    "C85_layers",
    "C85_clauses",
    "C85_amounts",
    "C85_read_refuted",
    "C85_unattributed_refuted"
   ],
   "note": "C85_layers (answers, displays, and the success of a further run); C85_clauses and C85_amounts apply it to C81 and C82. C85_read_refuted: a layer whose results are read does matter; C85_unattributed_refuted: so does one that gives a bare token its first attribute, to `token_has_any`."
  },
  {
   "property": "C86",
   "status": "proved",
   "theorems": [
    "C86_sizes",
    "C86_sizes_only",
    "C86_sizes_panic",
    "C86_sizes_answered",
    "C86_attr_eq",
    "C86_has_any",
    "C86_debug",
    "C86_finish",
    "C86_clone",
    "C86_clone_array",
    "C86_pure"
   ],
   "note": "C86_sizes, C86_sizes_only, C86_sizes_panic and C86_sizes_answered for the text-size function (`in_turn`: which calls, in which order, from which memory to which); lines created with such a function are lines like any other, so every property about lines with a history holds for them. C86_attr_eq, C86_has_any, C86_debug, C86_finish, C86_clone, C86_clone_array for the others; C86_pure ties ModelSize.v and ModelCalls.v to the model used everywhere else. Not modelled: user Drop implementations, lazy iterators given to finish_with, and rows pushed before a Debug panics."
  },
  {
   "property": "C87",
   "status": "proved",
   "theorems": [
    "C87_layouts",
    "C87_inside",
    "C87_token_lines",
    "C87_apart",
    "C87_source"
   ],
   "note": "One description of a value (`form`, SpecIndent.v) and two layouts of it, `on_one_line` and `on_lines` (lines with depths): C87_layouts for the library's values, C87_inside for values around values of any type; C87_token_lines spells the lines of a token out; C87_apart, C87_source. The snapshot of src/tests/tokenizing.rs is replayed character by character in TestsRepo.v."
  },
  {
   "property": "C88",
   "status": "proved",
   "theorems": [
    "C88_layers",
    "C88_run",
    "C88_resolvers",
    "C88_answers",
    "C88_exchanged",
    "C88_matchers",
    "C88_user_matchers",
    "C88_selections",
    "C88_compared_refuted"
   ],
   "note": "`Val` is any relation between values of the same type; `lines_corr` says that the two lines have the same tokens and logs that agree in ranges and types, with related values. C88_layers: creation and any number of runs of related resolvers keep lines related, and one side panics exactly if the other does, with the same message; C88_run for a single run; C88_resolvers: which resolvers are related (find-and-finish, text matching with related tables, users' code that passes values on, and the library's own if the types they look at are unchanged); C88_answers, C88_matchers, C88_user_matchers, C88_selections. C88_exchanged: with a function from values to values, a query of one line is the query of the other with the function applied. C88_compared_refuted: a comparison that can tell the values apart does see the difference."
  },
  {
   "property": "C89",
   "status": "proved",
   "theorems": [
    "C89_accepted",
    "C89_spaces",
    "C89_numbers",
    "C89_plain",
    "C89_all",
    "C89_compounds",
    "C89_written",
    "C89_determined"
   ],
   "note": "`AsciiLaws` (SpecAscii.v) is the assumption: on ASCII text the segmenter cuts exactly where the boundary rules of UAX #29 do not forbid it, and the alphabetic and white space tables are the ASCII ones. The colon rule is a parameter, because it changed between Unicode versions and the repository pins none. C89_accepted, C89_spaces and C89_numbers for all ASCII text (numbers: tokens are runs of digits always, the converse where no digit follows a letter or underscore; `x5` shows that this is needed); C89_plain describes every token of text in which letters and digits do not touch; C89_compounds; C89_written; C89_determined. The example segmenter of ExUnicode.v is proved to obey the laws (`latin_ascii`). C89_all describes every token of every ASCII text by the boundary rules (`chunk`: a piece with a boundary at both ends and none inside)."
  },
  {
   "property": "C90",
   "status": "proved",
   "theorems": [
    "C90_amounts",
    "C90_written"
   ],
   "note": "`numbers_in` (SpecChars.v) is a machine of five states over the characters; it knows no tokens. C90_amounts: a run of the amount resolver on the line of an ASCII text puts exactly what the machine finds, in order, on the tokens with just this text, and panics if the parser refuses a text found. C90_written says the same without the machine: every amount is a number as written in SpecWritten.v (C79) that touches no digit on either side, its value is the parse of what it denotes (with a point after it if a decimal sign follows and no fraction), and every digit of the text lies in an amount. Assumed: the segmenter laws of C89, no digit after a letter or an underscore (`C90_apart_needed`), signs that are no digits, a decimal sign that is neither letter nor white space (or is a delimiter too). Nothing missing."
  },
  {
   "property": "C91",
   "status": "proved",
   "theorems": [
    "C91_clauses",
    "C91_numbers_refuted"
   ],
   "note": "`Saying`, `sentence` and `clauses_said` (SpecSentence.v) describe a sentence as it is written, and its clauses, without tokens, marks or selections. C91_clauses: tokenizing, then the clause keyword resolver, then the clause resolver leave exactly the clauses said, in order, each on the tokens with just its words. Words are letters with single periods, apostrophes (and colons) between them, or digits; keywords are what C45 classifies. A number such as 1,500 is not such a word: its comma ends the clause (C91_numbers_refuted). Texts that are not written in this way are covered by C81 and C89. Nothing missing."
  },
  {
   "property": "C92",
   "status": "proved",
   "theorems": [
    "C92_tokens",
    "C92_alone",
    "C92_characters",
    "C92_useless",
    "C92_useless_ci",
    "C92_useful",
    "C92_keywords"
   ],
   "note": "`single_piece` (SpecKeys.v) speaks of characters and boundary rules only. C92_tokens and C92_alone: exactly these texts are tokens of ASCII texts. C92_useless, C92_useless_ci: an entry with another key can be removed from a table without changing any query; C92_useful: an entry with such a key is found; C92_keywords: the same for clause keywords; C92_characters: what such texts look like. Assumed: the segmenter laws of C89, and for the resolvers that ignore case that `to_lowercase` on ASCII text is the usual one (`AsciiLower`; the example instance has it). Nothing missing."
  },
  {
   "property": "C93",
   "status": "proved",
   "theorems": [
    "C93_prices",
    "C93_dollars"
   ],
   "note": "`price` (SpecPrices.v) is built from the machine of C90 and the dollar sign only. C93_prices: what the third run leaves is exactly the prices, with their places; C93_dollars: no dollar sign next to a digit is overlooked. The first two runs are assumed to succeed (the second panics exactly if the parser refuses a number, C90). The euro sign is not ASCII; C64 has both at the level of tokens. Nothing missing."
  },
  {
   "property": "C94",
   "status": "proved",
   "theorems": [
    "C94_tokens",
    "C94_tags",
    "C94_matches"
   ],
   "note": "`wordy_text`, `read_as` and `valued` (SpecWordy.v) go over the words as written. C94_tokens: the list of tokens; C94_tags: the tags of the part of speech resolver; C94_matches: text match tables of both kinds. Every row is shown to lie on the one token at the place of the word in the text (`piece_row`). Texts that are not written in this way are covered by C89, C37, C38 and C50. Nothing missing."
  },
  {
   "property": "C95",
   "status": "proved",
   "theorems": [
    "C95_shape",
    "C95_string",
    "C95_parts_of_speech",
    "C95_matches",
    "C95_clauses",
    "C95_amount_places",
    "C95_amounts"
   ],
   "note": "`same_shape` and `same_case` (SpecCase.v) relate two texts by their characters. C95_shape: the tokens of the two lines are related one by one, with equal tags, also in lists of inputs; C95_string: `create_line_from_string` accepts both, with equal positions. C95_parts_of_speech, C95_matches, C95_clauses, C95_amounts: the rows of the queries for texts that differ in case; C95_amount_places: the places of the amounts for texts of the same shape. The amount theorems are about lines without value tokens (with them, what the resolver does depends on their attributes, C44). Laws assumed as in C92. Nothing missing."
  },
  {
   "property": "C96",
   "status": "proved",
   "theorems": [
    "C96_words",
    "C96_places",
    "C96_pieces",
    "C96_local",
    "C96_line",
    "C96_steps",
    "C96_clauses"
   ],
   "note": "C96_words: the words of the text are those of the two parts exactly if no boundary rule forbids the cut; C96_places: white space and line ends are such places. C96_pieces: the line of the text and of the list of pieces, among other inputs; C96_local: single-token resolvers, piece by piece (`in_sequence`); C96_line, C96_steps, C96_clauses: tokens, attributes, pipelines and clauses for two parts. What clauses are of which kind depends on the other part (C74_kinds, C81_parts), so C96_clauses is about their places. Laws assumed as in C89. Nothing missing."
  },
  {
   "property": "C97",
   "status": "proved",
   "theorems": [
    "C97_tokens",
    "C97_query",
    "C97_created",
    "C97_pipelines",
    "C97_amounts",
    "C97_clauses"
   ],
   "note": "`chars_in`, `number_count`, `reported_chars`, `line_chars` and `times_written` (SpecBound.v) count characters, number tokens and steps. C97_tokens; C97_query (any line with a history); C97_created; C97_pipelines (rows after the pipeline against rows before it); C97_amounts and C97_clauses. PropBound.v shows a text where the bounds for tokens, amounts and clauses are reached. C97_pipelines excludes inputs that bring `TextTag` or keyword attributes of their own, as C52 does. Nothing missing."
  },
  {
   "property": "C98",
   "status": "proved",
   "theorems": [
    "C98_tables",
    "C98_split",
    "C98_order",
    "C98_keywords",
    "C98_mixed",
    "C98_split_ci",
    "C98_rows_refuted",
    "C98_overlap_refuted",
    "C98_case_refuted"
   ],
   "note": "`interchangeable` (SpecMerge.v) quantifies over all later pipelines; `answer_alike` lists what is compared. C98_tables: two lists of tables that give every text the same values in the same order; C98_split and C98_order follow: one table against its parts, and the parts in another order. C98_keywords: the same for clause keywords, hence the same clauses. C98_mixed and C98_split_ci: tables that ignore case, alone and mixed with others. C98_rows_refuted, C98_overlap_refuted, C98_case_refuted. Later steps with users' code are excluded, since it may look at the order of the rows of a query. Nothing missing."
  },
  {
   "property": "C99",
   "status": "proved",
   "theorems": [
    "C99_clauses",
    "C99_amounts",
    "C99_tables",
    "C99_tables_ci",
    "C99_point_refuted"
   ],
   "note": "`more_words`, `more_delimiters`, `lies_in`, `put_together`, `grouped` (SpecFiner.v) speak of configurations, ranges and texts only. C99_clauses: a unique clause around each new one, and clauses away from new separators stay. C99_amounts: `grouped` lists of ranges and spelled texts, of which the rows are the parses. C99_tables, C99_tables_ci: inclusion of the rows. C99_point_refuted: the condition on the decimal sign is needed. Part-of-speech dictionaries are not included: a new entry replaces the default tag. Nothing missing."
  },
  {
   "property": "C100",
   "status": "proved",
   "theorems": [
    "C100_clauses",
    "C100_amounts",
    "C100_matches",
    "C100_parts_of_speech"
   ],
   "note": "`same_roles` and `same_numbers` (SpecReplaced.v) use the marks of C81 and C82, which speak of the texts and tags of tokens (and, for value tokens, of queries). `same_values` and `same_parts` ask for the same values in two tables (used as they are or ignoring case) and the same parts of speech in two dictionaries. C100_clauses, C100_amounts, C100_matches, C100_parts_of_speech; texts of the rows may differ and are left out by `place`. Case: a German text with a placeholder for a name, a number in another notation, and tables and dictionaries in two languages. Nothing missing."
  }
 ]
}
