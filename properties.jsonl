{"id": "C01", "title": "Tokenizing loses no text", "statement": "When create_line_from_input_tokens returns, the line's tokens are the concatenation, in input order, of one group per input token: a Text input's group is a non-empty list of text tokens whose texts concatenate to exactly the input text (no token is empty), and a Custom input's group is exactly one value token.", "quantifier": "every list of input tokens, every text, every text-size function, every word segmenter that only cuts the text", "why_tests_cant": "The set of texts and of input-token lists is infinite; tests compare a handful of sentences.", "anchors": ["src/create_tokens.rs: create_line_from_input_tokens, create_tokens_for_string"]}
{"id": "C02", "title": "Token positions tile the line", "statement": "Token indexes are 0,1,2,...; the first token starts at position 0, every token starts where the previous one ends, and a token's extent is the caller's size function applied to its text (or the declared size of a custom token), provided the total size fits in usize; if it does not fit, creation panics with overflow checks on, and without them positions wrap, so that tiling then only holds modulo 2^bits.", "quantifier": "every list of input tokens, every size function, every usize width, overflow checks on or off", "why_tests_cant": "Needs every list of sizes, including those near usize::MAX.", "anchors": ["src/create_tokens.rs: create_line_from_input_tokens", "src/ll_line.rs: LLToken"]}
{"id": "C03", "title": "create_line_from_string positions are byte offsets", "statement": "For a line made by create_line_from_string, each token's text is exactly the slice of the input's UTF-8 bytes from the token's start position to its end position, and the last token ends at the input's byte length.", "quantifier": "every string (whose byte length fits in usize) for which the line is created", "why_tests_cant": "Ranges over all strings, including multi-byte text at any offset.", "anchors": ["src/lib.rs: create_line_from_string", "src/create_tokens.rs: create_line_from_input_tokens"]}
{"id": "C04", "title": "Exactly which inputs are rejected", "statement": "create_line_from_input_tokens panics exactly when some Text input is the empty string, or some segment starting with an ASCII digit contains a non-ASCII character (so e.g. the text \"2\\u00e8\" is rejected although it is non-empty), or positions overflow with overflow checks on; every other input yields a line.", "quantifier": "every list of input tokens and every segmenter", "why_tests_cant": "An if-and-only-if over all inputs; tests only try inputs that work.", "anchors": ["src/create_tokens.rs: create_line_from_input_tokens, create_tokens_for_string"]}
{"id": "C05", "title": "Every text token carries its documented tag", "statement": "At creation every text token carries exactly one TextTag of its own, and it is: for a token of a segment that does not start with an ASCII digit, SPACE iff all characters are whitespace, else PUNC iff it is one of , . ! ; : ? ' \" , else WORD iff it starts with a letter and continues with letters, apostrophes, hyphens or en-dashes, else SYMB; for a token of a digit-led segment NATN iff it is all digits, WORD iff all letters, PUNC for any other single character. In particular a token is tagged NATN iff it is a non-empty run of ASCII digits.", "quantifier": "every text, every character table", "why_tests_cant": "All strings over Unicode.", "anchors": ["src/create_tokens/get_word_tag.rs: get_unicode_word_tag, is_spaces, is_word", "src/create_tokens.rs: create_tokens_for_string", "src/ll_line.rs: LLLine::new"]}
{"id": "C06", "title": "Which tokens are tagged PUNC", "statement": "A token tagged PUNC at creation is a single character, and it is either one of the documented characters , . ! ; : ? ' \" or a character that is neither a digit nor a letter and stands inside a segment starting with an ASCII digit; so on texts without digit-led segments PUNC means exactly the documented list. The plain reading of the documentation of TextTag::PUNC, that PUNC tokens are always of this list, is false: in \"1_000\" the underscore is tagged PUNC.", "quantifier": "every text", "why_tests_cant": "A claim about all texts; it is refuted by a witness and the exact weaker truth is proved.", "anchors": ["src/ll_line.rs: TextTag", "src/create_tokens.rs: create_tokens_for_string"]}
{"id": "C07", "title": "A char attribute exactly on one-character tokens", "statement": "At creation a token carries a char attribute of its own iff it is a text token with exactly one character, and then the attribute is that character, once.", "quantifier": "every list of input tokens without char attributes of their own", "why_tests_cant": "All texts and all positions in the line.", "anchors": ["src/ll_line.rs: LLLine::new"]}
{"id": "C08", "title": "Digit-led segments are cut into maximal runs", "statement": "Inside one digit-led segment no two neighbouring tokens are both numbers and no two are both letter runs, and every other character stands alone: 12,3 and 10.0 are always split at the separators and nowhere else.", "quantifier": "every digit-led ASCII segment", "why_tests_cant": "All digit/letter/punctuation strings of any length.", "anchors": ["src/create_tokens.rs: create_tokens_for_string"]}
{"id": "C09", "title": "Input attributes cover exactly their own input token", "statement": "After creation, the attributes of a user type T found by query are exactly the attributes of type T given with the input tokens, each on the range from the first to the last token made from its input token, in input order. An attribute added with add_attr changes only that: the tokens are the same, and the attribute comes right after those the input token had, on the same range.", "quantifier": "every list of input tokens with any attributes of any types", "why_tests_cant": "All combinations of texts, custom tokens and attribute lists.", "anchors": ["src/create_tokens.rs: create_line_from_input_tokens", "src/ll_line.rs: LLLine::add_any_attrs", "src/create_tokens.rs: InputToken::add_attr"]}
{"id": "C10", "title": "query returns exactly what was assigned", "statement": "For every line reached from creation by any sequence of run calls, query::<T> lists each range that was ever assigned a T exactly once, in the order of first assignment, with the concatenated text of the range and with all T values assigned to that range in assignment order, and nothing else; it panics iff some range carrying a T is reversed (its start lies more than one token after its end), which neither creation nor resolvers that finish selections of their own line made with library matchers produce (C24).", "quantifier": "every history of creation and run calls with arbitrary resolvers, every attribute type", "why_tests_cant": "Unbounded histories and heterogeneous types.", "anchors": ["src/ll_line.rs: LLLine::query, LLLineAttrs::insert, LLLine::run", "src/type_bucket.rs", "src/type_id_to_many.rs"]}
{"id": "C11", "title": "run only adds", "statement": "run keeps the tokens and positions unchanged, and for every attribute type (whose query does not panic, see C10) the earlier (range, value) pairs reported by query are still reported, on the same ranges in the same order, as a prefix of the new values; the added pairs are exactly the resolver's assignments.", "quantifier": "every reachable line, every resolver", "why_tests_cant": "All resolvers and histories.", "anchors": ["src/ll_line.rs: LLLine::run"]}
{"id": "C12", "title": "Attribute types do not interfere", "statement": "Running a resolver that assigns type T changes no query, no forward or backward attribute match, and no display of any other type; for matchers that use token_has_any this holds of every match that did not panic before (one that panicked at a value token without any attribute may stop panicking: a witness is given).", "quantifier": "every reachable line, every resolver, every pair of distinct types", "why_tests_cant": "All resolvers and all pairs of types.", "anchors": ["src/ll_line.rs: LLLine::run", "src/type_bucket.rs", "src/type_id_to_many.rs"]}
{"id": "C13", "title": "Empty line", "statement": "A line without tokens (creation from an empty list) has no selection, and run returns it unchanged without calling the resolver, whatever the resolver would do.", "quantifier": "every resolver, including ones that panic", "why_tests_cant": "All resolvers.", "anchors": ["src/ll_line.rs: LLLine::run", "src/ll_line/ll_selection.rs: LLSelection::from_line"]}
{"id": "C14", "title": "When run panics", "statement": "On a non-empty reachable line run panics exactly when the resolver itself panics, keeps a clone of the selection's line alive, or returns an assignment whose start or end is not a token index of this line; in every other case it returns a line.", "quantifier": "every reachable line, every resolver", "why_tests_cant": "An if-and-only-if over all resolvers.", "anchors": ["src/ll_line.rs: LLLine::run, LLLineAttrs::insert"]}
{"id": "C15", "title": "Forward and backward attribute matching are exact", "statement": "Matching x::attr::<T>() forwards from token i yields exactly the T values assigned to ranges starting at i, each with its end, as often as assigned; backwards from token i it yields exactly those on ranges ending at i, each with its start; attr_eq yields the same restricted to values equal to the given one. None of them panics for an in-range token.", "quantifier": "every reachable line, token and attribute type, every PartialEq", "why_tests_cant": "All histories and all ranges, including overlapping and multi-token ones.", "anchors": ["src/ll_line/x.rs: XForwards::attr, XForwards::attr_eq, XBackwards::attr, XBackwards::attr_eq"]}
{"id": "C16", "title": "Forward and backward matching agree", "statement": "A T value is matched forwards from i ending at j iff it is matched backwards from j ending at i, with equal multiplicity; likewise for attr_eq and token_text. (For token_has_any this is false: backwards it also matches multi-token ranges; a witness is given.)", "quantifier": "every reachable line, all token pairs i, j", "why_tests_cant": "All lines and token pairs.", "anchors": ["src/ll_line/x.rs: XForwards, XBackwards"]}
{"id": "C17", "title": "Typed attribute round trip", "statement": "A value wrapped in AnyAttribute is extracted unchanged at its own type, extraction at another type gives the attribute back unchanged, and storing then reading attributes of any mixture of types never hits a failing downcast: get::<T> returns exactly the T values in insertion order.", "quantifier": "every sequence of insertions of values of any types", "why_tests_cant": "Unbounded sequences of heterogeneous insertions.", "anchors": ["src/type_bucket.rs: AnyAttribute::new, AnyAttribute::extract, TypeBucket::insert, TypeBucket::insert_any_attribute, TypeBucket::get"]}
{"id": "C18", "title": "token_has_any semantics and its panic", "statement": "token_has_any matched forwards from token i yields exactly the values of that type on the single-token range (i,i) that equal some listed value; it panics exactly when no attribute of any type is assigned to (i,i), which happens precisely for value tokens without attributes; backwards it never panics and yields the listed values on all ranges ending at i.", "quantifier": "every reachable line, token, type, list of values", "why_tests_cant": "All lines with custom tokens at any place.", "anchors": ["src/ll_line/x.rs: XForwards::token_attr_one_of, XBackwards::token_attr_one_of", "src/ll_line/x/token_has_any.rs"]}
{"id": "C19", "title": "all: conjunction on the same range", "statement": "all((A,B)) and all((A,B,C)) yield a combination iff every component matcher yields it on the same end token; combinations occur as often as the product of the multiplicities, first component outermost.", "quantifier": "all component matchers, lines and starting points", "why_tests_cant": "Quantifies over arbitrary matchers.", "anchors": ["src/ll_line/x/all.rs: All2, All3"]}
{"id": "C20", "title": "any_of: ordered choice", "statement": "any_of yields the results of the first component that matches at all at this point, tagged with its position, and nothing from later components; it yields nothing iff no component matches.", "quantifier": "all component matchers, lines and starting points", "why_tests_cant": "Quantifies over arbitrary matchers.", "anchors": ["src/ll_line/x/any_of.rs: AnyOf2Matcher, AnyOf3Matcher"]}
{"id": "C21", "title": "seq: adjacent matches", "statement": "seq yields (a,b[,c]) ending at e iff a matches from the start, b matches from the token right after a's end (right before it when going backwards), c likewise after b, ending at e; a match that reaches the end of the line cannot be continued, and no component is asked to match outside the line.", "quantifier": "all component matchers, lines and starting points", "why_tests_cant": "Quantifies over arbitrary matchers.", "anchors": ["src/ll_line/x/seq.rs: Seq2, Seq3", "src/ll_line/x.rs: XDirection::after"]}
{"id": "C22", "title": "Matches stay inside the line", "statement": "On a line without reversed ranges, every match of every matcher built from attr, attr_eq, token_has_any, token_text, whitespace, seq, all and any_of, tried at a token of the line, covers at least that token, extends in the direction of matching and ends at a token of the line; on any reachable line it ends at a token of the line.", "quantifier": "every matcher expression of any nesting, every reachable line and token, both directions", "why_tests_cant": "Induction over all matcher expressions.", "anchors": ["src/ll_line/x", "src/ll_line/x.rs"]}
{"id": "C23", "title": "Which matchers can panic", "statement": "A matcher built without token_has_any never panics when tried at a token of a reachable line, in either direction, and no library matcher panics backwards; with token_has_any none panics on a line all of whose tokens carry some attribute of their own (in particular on lines made of Text inputs only).", "quantifier": "every matcher expression, reachable line and token", "why_tests_cant": "All matcher expressions and lines.", "anchors": ["src/ll_line/x", "src/ll_line/x.rs"]}
{"id": "C24", "title": "Selections are never empty or out of range", "statement": "On a line without reversed ranges, every selection obtained from the whole-line selection by any sequence of split_by, find_by, find_first_by, find_by_forwards_and_backwards, match_forwards, match_backwards, split_with, trim, trim_start, trim_end with any library matchers satisfies start <= end < number of tokens, so that resolvers that only finish such selections never fail in run and again leave a line without reversed ranges, as creation does. (With `after` included this is false; the only other selection that can arise is the empty one just past the last token.)", "quantifier": "every reachable line, every finite sequence of selection operations with any matchers", "why_tests_cant": "Unbounded operation histories.", "anchors": ["src/ll_line/ll_selection.rs: LLSelection"]}
{"id": "C25", "title": "find_by is complete and ordered", "statement": "find_by reports exactly the matches that start at a token of the selection, by increasing start and in the matcher's order for equal starts; find_first_by is the first of them, and none iff there are none.", "quantifier": "every selection and matcher", "why_tests_cant": "All selections and matchers.", "anchors": ["src/ll_line/ll_selection.rs: find_by, find_first_by"]}
{"id": "C26", "title": "Where find_by matches lie", "statement": "Every selection reported by find_by starts inside the searched selection and lies inside the line, and it lies inside the searched selection if that reaches the end of the line or if the match is a single token. In general it need not: a match may extend past the end of the searched selection, and a witness is given.", "quantifier": "every selection and matcher", "why_tests_cant": "A claim about all; refuted by a witness.", "anchors": ["src/ll_line/ll_selection.rs: find_by"]}
{"id": "C27", "title": "split_by yields the maximal match-free runs", "statement": "If the ends of the matches never decrease (in particular if each match is a single token), split_by yields, in order, exactly the maximal runs of tokens of the selection that no match touches; with no match it yields the selection itself. In general (nested matches) the pieces can contain matched tokens: a witness is given. Whatever the matches, the pieces are exactly the maximal runs of tokens that are not reached by the last match (in the order of find_by) starting at or before them; every token of the selection that no match touches lies in exactly one piece.", "quantifier": "every selection and matcher", "why_tests_cant": "All token sequences and match patterns.", "anchors": ["src/ll_line/ll_selection.rs: split_by"]}
{"id": "C28", "title": "split_with removes exactly the other selection", "statement": "split_with returns the part of the selection before and the part after the other selection; a token belongs to one of the two parts iff it belongs to the selection and not to the other selection, and a part is absent iff it has no token. It panics iff the two selections are of different lines.", "quantifier": "every pair of selections, overlapping or not", "why_tests_cant": "All interval pairs.", "anchors": ["src/ll_line/ll_selection.rs: split_with, selection_from"]}
{"id": "C29", "title": "trim removes one match at each end", "statement": "trim_start drops exactly the tokens of the first forward match at the selection's start (nothing if there is none); trim_end drops exactly the tokens of the first backward match at its end, except token 0 of the line, which is kept even if the match reaches back to it; trim drops what both drop. The result is the selection of the remaining tokens, so it lies inside and is never empty, and it is None iff no token remains. The plain reading without the exception for token 0 is false for trim_end and for trim; witnesses are given, and it holds whenever the backward match does not reach token 0.", "quantifier": "every selection and in-range matcher", "why_tests_cant": "All selections, matches that reach or exceed the selection.", "anchors": ["src/ll_line/ll_selection.rs: trim_selection, trim, trim_start, trim_end"]}
{"id": "C30", "title": "match_forwards / match_backwards extend by adjacent matches", "statement": "match_forwards yields one selection per match tried at the token right after the selection, with the same start and the match's end; match_backwards symmetrically; both yield nothing at the border of the line; the first-variants give the first result. match_forwards on a selection found by A with matcher B agrees with seq((A,B)).", "quantifier": "every selection and matcher", "why_tests_cant": "All selections and matchers.", "anchors": ["src/ll_line/ll_selection.rs: match_forwards, match_backwards, match_first_forwards, match_first_backwards"]}
{"id": "C31", "title": "What after returns", "statement": "after returns None iff the selection starts at the next to last token of the line, and otherwise a selection starting right after the selection and ending at the last token: this is the selection of all later tokens if there are any, and an empty selection past the end if there are none. The plain reading (None iff no token follows) is false in both directions; witnesses are given.", "quantifier": "every selection", "why_tests_cant": "A claim about all selections; refuted by witnesses.", "anchors": ["src/ll_line/ll_selection.rs: after"]}
{"id": "C32", "title": "find_by_forwards_and_backwards", "statement": "It reports exactly the forward matches starting at a token of the selection and the backward matches ending at one, for each token forward ones first; every forward match of find_by is among them; for a plain attribute each one whose both ends lie in the selection is reported twice.", "quantifier": "every selection and matcher", "why_tests_cant": "All selections and matchers.", "anchors": ["src/ll_line/ll_selection.rs: find_by_forwards_and_backwards"]}
{"id": "C33", "title": "find reports positions of the matches", "statement": "LLLine::find reports, for every token in order and every match from it, the start position of the first token and the end position of the last token of the match, with the matched value; start <= end position if the line's positions did not wrap; the matches are those of find_by on the whole-line selection; on a line without tokens there are none.", "quantifier": "every reachable line and matcher", "why_tests_cant": "All lines and matchers.", "anchors": ["src/ll_line.rs: LLLine::find, LLLineFind"]}
{"id": "C34", "title": "Selection equality", "statement": "Selection equality is an equivalence relation, and two selections compare equal iff they are of the very same line and have the same start and end.", "quantifier": "all selections", "why_tests_cant": "All selections of all lines.", "anchors": ["src/ll_line/ll_selection.rs: PartialEq for LLSelection"]}
{"id": "C35", "title": "Display draws each attribute under its tokens", "statement": "Displaying a reachable line whose ranges are ordered never panics; the first row shows the token texts in order separated by two spaces (<> for a value token), followed by one row per included attribute in the order of inclusion, whose underline starts in the column where the first token of the range starts and, if the range is at least one column wide, ends in the column where its last token ends, followed by the value's debug text.", "quantifier": "every reachable line, every set of included types, every character width table", "why_tests_cant": "All lines, ranges and character widths (including zero- and double-width).", "anchors": ["src/ll_line/display.rs: LLLineDisplay"]}
{"id": "C36", "title": "Display includes everything once per include", "statement": "include::<T> appends one row for each T value assigned to the line: ranges in order of first assignment, and within a range the latest assigned value first; nothing else is added.", "quantifier": "every reachable line and type", "why_tests_cant": "All histories.", "anchors": ["src/ll_line/display.rs: LLLineDisplay::include, LLLineDisplay::with", "src/type_bucket.rs: TypeBucket::get_debug"]}
{"id": "C37", "title": "TextMatchAssignResolver assigns exactly the matching tokens", "statement": "The case-sensitive resolver assigns to each text token whose text is a key all values of this key, in order, on exactly that token, and nothing else; the case-insensitive ones do so for tokens whose lowercase equals the lowercase of a key.", "quantifier": "every line, every lookup table without two keys equal up to case, every lowercase function", "why_tests_cant": "All tables and lines.", "anchors": ["src/resolvers/text_match.rs: TextMatchAssignResolver"]}
{"id": "C38", "title": "Case-insensitive tables with keys that differ only in case", "statement": "Of the entries of a case-insensitive table whose keys are equal up to case exactly one is found by a matching token: for the array constructor the last one, and for new_case_insensitive the last one in the hash map's iteration order; hence the result is independent of that order if no two keys equal up to case have different values, and otherwise two orders give different results on every line with a matching token. That every entry can be found is false; witnesses for both constructors are given.", "quantifier": "every table and every iteration order of the hash map", "why_tests_cant": "Quantifies over hash iteration orders.", "anchors": ["src/resolvers/text_match.rs: new_case_insensitive, new_case_insensitive_str_arr"]}
{"id": "C39", "title": "AmountResolver terminates with ordered disjoint amounts", "statement": "On any reachable line AmountResolver's loops end; the amounts it returns are on ranges in increasing order that do not overlap; each range starts and ends on a number token (no trailing delimiter or decimal point).", "quantifier": "every reachable line, any delimiters and decimal character", "why_tests_cant": "Termination and disjointness for all inputs.", "anchors": ["layered-amount/src/amounts.rs: AmountResolver::go"]}
{"id": "C40", "title": "Every number token belongs to an amount", "statement": "If no number token carries a delimiter or decimal character, each number token lies in exactly one amount's range.", "quantifier": "every reachable line, any delimiters and decimal character", "why_tests_cant": "All lines.", "anchors": ["layered-amount/src/amounts.rs: AmountResolver::go"]}
{"id": "C41", "title": "The amount's value is the number it covers", "statement": "The amount on a range is the parse of the range's number-token texts in order with delimiters dropped and the decimal character replaced by a point; the parsed text has at most one point, and a trailing decimal character, although outside of the range, is passed to the parser as a final point.", "quantifier": "every reachable line", "why_tests_cant": "All lines.", "anchors": ["layered-amount/src/amounts.rs: AmountResolver::go"]}
{"id": "C42", "title": "Amounts only join numbers across a delimiter or decimal character", "statement": "If number tokens carry no delimiter or decimal character, then after each number token of an amount but the last follow a delimiter or the decimal character and the next number token of the amount, with the one exception that the last number token may directly follow the one before it; so in lines without two neighbouring number tokens numbers are only joined across a delimiter or decimal character. Without that condition this is false: a witness with two input tokens is given. Conversely, on a created line an amount stops before a number it could join only if it already ended with a decimal part, or with a number token directly following another.", "quantifier": "every reachable line", "why_tests_cant": "A claim about all lines; refuted by a witness.", "anchors": ["layered-amount/src/amounts.rs: AmountResolver::go"]}
{"id": "C43", "title": "Documented presets of AmountResolver", "statement": "With any configuration, a line that is a number in digit groups separated by delimiters, with or without decimal character and fraction, is one amount covering the whole line whose value is the parse of its digits. english() reads its first three documented examples and french() its second as documented. The other documented examples (english 1.00,00 = 1.0000; french 1'000'240,00, 1,00 and 1.00,00) are false, as computed; french() never reads a fraction at all, because its decimal character is one of its delimiters.", "quantifier": "the documented inputs and their generalisation to all digit groups", "why_tests_cant": "The doc examples are not tested at all; the general claim ranges over all digit groups.", "anchors": ["layered-amount/src/amounts.rs: AmountResolver::english, AmountResolver::french"]}
{"id": "C44", "title": "AmountResolver failures", "statement": "AmountResolver panics exactly when the decimal parser rejects one of the number texts it builds, or when a token next to a number (where it looks for a delimiter or decimal) carries no attribute at all; on lines of Text inputs only the parser can make it panic.", "quantifier": "every reachable line", "why_tests_cant": "All lines.", "anchors": ["layered-amount/src/amounts.rs: AmountResolver::go"]}
{"id": "C45", "title": "Clause keywords are classified by priority", "statement": "ClauseKeywordResolver assigns to each text token at most one keyword: ConditionStart if its lowercase is a condition word, else Then if it is a then-word, else And if it is an and-word; no other range gets a keyword.", "quantifier": "every line, every word lists, every lowercase function", "why_tests_cant": "All lines and word lists.", "anchors": ["layered-clauses/src/clause_keyword.rs: ClauseKeywordResolver"]}
{"id": "C46", "title": "Which clause keywords are recognised", "statement": "A text token is recognised as a keyword iff its lowercase is one of the configured words; so a configured word that is its own lowercase is recognised whatever the case of the token, and if no configured word is its own lowercase nothing is ever recognised (for an idempotent lowercase function). That every configured keyword is recognised is false: witness \"If\".", "quantifier": "every configured word and token text", "why_tests_cant": "A claim about all words.", "anchors": ["layered-clauses/src/clause_keyword.rs: ClauseKeywordResolver::new, ClauseKeywordResolver::go"]}
{"id": "C47", "title": "Clauses are ordered, disjoint and free of separators", "statement": "If clause keywords and PUNC tags are on single tokens, the ranges assigned by ClauseResolver are in increasing order, pairwise disjoint, contain no keyword token and no PUNC token, and each lies in one maximal keyword- and punctuation-free run, of which at most one token is cut off at each end, and only a whitespace token.", "quantifier": "every such reachable line", "why_tests_cant": "All lines.", "anchors": ["layered-clauses/src/clauses.rs: ClauseResolver::go"]}
{"id": "C48", "title": "Clause kinds follow the keyword before the clause", "statement": "With several runs a clause preceded by ConditionStart is a Condition, by Then a TrailingEffect, otherwise (And, punctuation or nothing) it is a TrailingEffect iff an earlier Condition was assigned, else a LeadingEffect; hence no LeadingEffect follows a Condition and Independent never occurs; with one run the only clause is Condition after ConditionStart and Independent otherwise.", "quantifier": "every such reachable line", "why_tests_cant": "All clause sequences of any length.", "anchors": ["layered-clauses/src/clauses.rs: ClauseResolver::go"]}
{"id": "C49", "title": "Every worded run gets a clause", "statement": "Each maximal keyword- and punctuation-free run that contains a non-whitespace token is assigned exactly one clause, which covers all its non-whitespace tokens. The converse, that a clause never consists of whitespace only, is false: a run of three whitespace tokens is assigned a clause; a witness is given. On lines from creation the ranges of the reported clauses are exactly the maximal keyword- and punctuation-free runs, each without the single whitespace token at either end, as far as a token is left.", "quantifier": "every such reachable line", "why_tests_cant": "All lines.", "anchors": ["layered-clauses/src/clauses.rs: ClauseResolver::go"]}
{"id": "C50", "title": "Part-of-speech tags", "statement": "POSTagResolver assigns to each WORD text token exactly the tags of its lowercase in the dictionary, or Noun if it is not in the dictionary, and assigns nothing to any other range.", "quantifier": "every line, every dictionary", "why_tests_cant": "All lines and dictionaries.", "anchors": ["layered-part-of-speech/src/lib.rs: POSTagResolver"]}
{"id": "C51", "title": "Independent resolvers commute", "statement": "If two resolvers assign different types and neither's assignments change when the other's have been added, running them in either order gives lines with the same tokens and the same queries and matches for every type.", "quantifier": "every reachable line and pair of such resolvers", "why_tests_cant": "All resolvers.", "anchors": ["src/ll_line.rs: LLLine::run"]}
{"id": "C52", "title": "Library pipelines do not fail on text", "statement": "On a line made of Text inputs only, any sequence of runs of TextMatchAssignResolver, ClauseKeywordResolver, ClauseResolver and POSTagResolver (with any configuration) returns a line; adding AmountResolver, it returns a line if the parser accepts the number texts.", "quantifier": "every text, every pipeline of any length and configuration", "why_tests_cant": "All pipelines.", "anchors": ["src/ll_line.rs: LLLine::run", "src/resolvers/text_match.rs", "layered-amount/src/amounts.rs", "layered-clauses/src/clauses.rs", "layered-clauses/src/clause_keyword.rs", "layered-part-of-speech/src/lib.rs"]}
{"id": "C53", "title": "Insertion is safe for attribute indexes", "statement": "On every reachable line, every range reported by any type's query can be looked up from its first token forwards and from its last token backwards and vice versa (the four internal indexes agree), so that no match or query ever hits a missing entry.", "quantifier": "every history", "why_tests_cant": "An invariant of all histories.", "anchors": ["src/ll_line.rs: LLLineAttrs"]}
{"id": "C54", "title": "Nesting of matchers", "statement": "seq((a, b, c)) finds exactly what seq((seq((a, b)), c)) finds, and what seq((a, seq((b, c)))) finds up to the nesting of the values; likewise all((a, b, c)); any_of((a, b, c)) is any_of((a, any_of((b, c)))) up to the tags; all((b, a)) finds what all((a, b)) finds with the values exchanged. One form panics exactly when the other does for seq and any_of.", "quantifier": "every line, token, direction and all (also user-written) component matchers", "why_tests_cant": "All matchers on all lines.", "anchors": ["src/ll_line/x/seq.rs", "src/ll_line/x/all.rs", "src/ll_line/x/any_of.rs"]}
{"id": "C55", "title": "Lines are built side by side", "statement": "A line created from the inputs i1 followed by i2 has the tokens of the line of i1 followed by those of the line of i2, with indexes and positions moved by the length and end of the first, and answers every query with the rows of the first and the moved rows of the second (in this order for every type other than char and TextTag). It can be created exactly when both parts can and the positions fit (or wrap).", "quantifier": "every pair of input lists, size function, target and attribute type", "why_tests_cant": "All inputs and cut points.", "anchors": ["src/create_tokens.rs: create_line_from_input_tokens", "src/ll_line.rs: LLLine::add_any_attrs, LLLine::query"]}
{"id": "C56", "title": "Reported texts and positions are slices of the source", "statement": "On a line made by create_line_from_string from s, after any runs, the text of every query row is the part of s between the start position of the row's first token and the end position of its last one, and the range of every result of find delimits in s exactly the text of the tokens matched: both positions are character boundaries of s. (A row on a range (i+1, i) has the empty text.)", "quantifier": "every text, every sequence of runs, every type and library matcher", "why_tests_cant": "All Unicode texts and histories.", "anchors": ["src/lib.rs: create_line_from_string", "src/ll_line.rs: LLLine::query, LLLine::find, LLLineFind::range"]}
{"id": "C57", "title": "What a matcher expression finds", "statement": "For every expression built from attr, attr_eq, token_has_any, token_text, all, any_of and seq, the matches at a token are exactly (as a multiset) those of the relation computed from the token texts and the assigned (range, value) pairs by: attr = the assigned pairs; token_text = the text tokens; all = pairs on equal ranges; seq = adjacent ranges joined; any_of = the first alternative that has an entry beginning at the token. find_by returns those beginning in the selection, in token order; the resolver find_by(m).finish_with(f) assigns exactly these ranges with f applied; find_by_forwards_and_backwards adds the backward relation's.", "quantifier": "every history, selection, matcher expression of any depth, and final function", "why_tests_cant": "Unbounded expression depth and all lines.", "anchors": ["src/ll_line/x.rs", "src/ll_line/x/*.rs", "src/ll_line/ll_selection.rs: find_by, find_by_forwards_and_backwards", "src/ll_line/finish_with.rs", "src/tests/currency_amount.rs"]}
{"id": "C58", "title": "Independent runs may be made in any order", "statement": "If neither of two resolver runs looks at the type the other assigns and the types they assign differ, exchanging them changes nothing observable: each order succeeds exactly when the other does, and the two lines have the same tokens, answer every query alike (rows and values in the same order), give the same matches for every library matcher at every position and direction, the same find results and the same display. The types looked at: none for TextMatchAssign and ClauseKeywordResolver, ClauseKeyword and TextTag for ClauseResolver, TextTag for POSTagResolver, TextTag and char for AmountResolver, the types named in the matcher for find_by/find_by_forwards_and_backwards resolvers, and the types its matchers ask for for any resolver a user writes with the methods of LLSelection and XDirection.", "quantifier": "every reachable line (with an attribute on every token, as on text lines, if a run uses token_has_any), every sequence of runs and every reordering by exchanges of neighbouring independent runs", "why_tests_cant": "All lines, resolver configurations, pipelines and permutations; hash map iteration or id allocation leaking into an answer would only show on some.", "anchors": ["src/ll_line.rs: LLLine::run, LLLine::add_any_attrs, LLLine::query, LLLine::find", "src/type_bucket.rs", "src/type_id_to_many.rs"]}
{"id": "C59", "title": "Every token is a separator, whitespace, or in exactly one clause", "statement": "After the keyword and the clause resolver on a new line without foreign keyword, tag or clause attributes, every token is a clause keyword or punctuation (and then in no reported clause), or a whitespace token, or in exactly one reported clause.", "quantifier": "every input list, every keyword configuration, every token", "why_tests_cant": "All lines and configurations.", "anchors": ["layered-clauses/src/clauses.rs: ClauseResolver::go", "layered-clauses/src/clause_keyword.rs: ClauseKeywordResolver::go", "src/ll_line.rs: LLLine::query"]}
{"id": "C60", "title": "Searching side by side, trimming in steps, sequences as extension", "statement": "Searching two adjoining selections one after the other finds exactly what searching their union finds, in the same order (find_by, find_by_forwards_and_backwards, find_first_by); the parts split_with returns together with the removed selection make up the whole search; trim is trim_start then trim_end and also trim_end then trim_start; matching a seq is matching its first component and extending each result by its second (match_forwards, match_backwards, find_by); the parts of split_by contain no further match and are not split again.", "quantifier": "every line, all selections, all matchers (bounded ones where stated)", "why_tests_cant": "Equations between method calls for all matchers, selections and lines, including equal panics.", "anchors": ["src/ll_line/ll_selection.rs: find_by, find_by_forwards_and_backwards, find_first_by, split_by, split_with, trim, trim_start, trim_end, match_forwards, match_backwards", "src/ll_line/x/seq.rs"]}
{"id": "C61", "title": "Sizes only matter for positions", "statement": "Two lines made from the same input, except for the declared sizes of value tokens, the text size function and the target, cannot be told apart after the same runs of library resolvers and of any resolvers users write with the methods of LLSelection and XDirection, LLLine::query and LLToken::get_token, except by positions: the same runs succeed, the tokens, query, matchers, the values find finds and the display agree.", "quantifier": "every input list, all sizes, size functions and targets, every list of runs", "why_tests_cant": "All size functions and all run sequences.", "anchors": ["src/create_tokens.rs: create_line_from_input_tokens", "src/ll_line.rs: LLLine::query, LLLine::find, LLLine::run"]}
{"id": "C62", "title": "Attributes given with the input are as good as assigned", "statement": "The line made from input tokens with attributes equals the line made from the same tokens without attributes after one run per attribute, in order, of a resolver that assigns this attribute to the token range of its input token.", "quantifier": "every input list with attributes of any types, every size function and target", "why_tests_cant": "Exact equality of the whole state, for every list of attributes.", "anchors": ["src/create_tokens.rs: create_line_from_input_tokens", "src/ll_line.rs: LLLine::add_any_attrs, LLLine::run", "src/type_bucket.rs: insert_any_attribute, insert"]}
{"id": "C63", "title": "Running a resolver twice", "statement": "If a resolver does not look at attributes of the type it assigns, a second run succeeds, leaves the queries of all other types alone, and gives a query of its own type with the same rows, each with the values the run adds once more; on a new line without such attributes every list of values is doubled.", "quantifier": "every reachable line, every library or user-written resolver with this property", "why_tests_cant": "All lines, resolvers and prior attributes.", "anchors": ["src/ll_line.rs: LLLine::run, LLLine::query", "src/type_bucket.rs: TypeBucket::insert", "src/type_id_to_many.rs"]}
{"id": "C64", "title": "Currency amounts end to end", "statement": "On a line made from text, after the currency symbol resolver, the amount resolver and the currency amount resolver of the repository's own test pipeline, query reports a symbol value at exactly the dollar and euro tokens, the same amounts as the amount resolver alone reports, and a currency amount for a range exactly when that range is a reported amount with a currency symbol token right before it or right after it; a symbol next to a number token always gives a currency amount if it is not one of the amount resolver's delimiters.", "quantifier": "every list of text inputs, every size function, target and amount format whose delimiters are not digits, every number parser, all values given to the symbols, every final function", "why_tests_cant": "One test line in the repository; the statement is for all texts, formats and parsers and includes what is not reported.", "anchors": ["src/tests/currency_amount.rs: CurrencySymbolResolver, AmountResolver, CurrencyAmountResolver", "src/ll_line.rs: LLLine::run, LLLine::query", "layered-amount/src/amounts.rs: AmountResolver::go"]}
{"id": "C65", "title": "Token by token resolvers treat joined inputs independently", "statement": "For text matching, clause keywords and part of speech tagging there is one function from token text and tag to values such that on every new line query reports exactly the tokens for which that function gives values, in order, one row per token; so the rows on joined inputs are the rows on the first followed by the rows on the second, moved by the number of tokens of the first.", "quantifier": "every input list without such attributes, every size function and target, every resolver configuration", "why_tests_cant": "Concerns all inputs and all ways to divide them.", "anchors": ["src/resolvers/text_match.rs", "layered-clauses/src/clause_keyword.rs", "layered-part-of-speech/src/lib.rs", "src/ll_line.rs: LLLine::run, LLLine::query"]}
{"id": "C66", "title": "A text may be cut where the segmenter cuts it", "statement": "If cutting a text without attributes in two does not change its word segments, then giving the two parts as two inputs creates exactly the same line, or fails exactly when the whole text does.", "quantifier": "every text and cut point, all inputs around it, every size function and target", "why_tests_cant": "All texts and cut points; equality of the whole line.", "anchors": ["src/create_tokens.rs: create_line_from_input_tokens, create_tokens_for_string"]}
{"id": "C67", "title": "Positions in any unit", "statement": "For every text size function that adds up over concatenation (bytes, UTF-16 code units as used in the repository's tests, chars), every list of texts and custom tokens whose total size fits, and after any runs: the text of a query row is exactly what the inputs contain between the start position of its first and the end position of its last token, and the range reported by find delimits exactly the text of the tokens matched; custom tokens count with their declared size. If no char and no custom token has size zero, the positions determine the text.", "quantifier": "every additive size function, every input list and target, every sequence of runs, every type and library matcher", "why_tests_cant": "All units, inputs and histories.", "anchors": ["src/create_tokens.rs: create_line_from_input_tokens", "src/tests.rs: test_line", "src/ll_line.rs: LLLine::query, LLLine::find, LLLineFind::range"]}
{"id": "C68", "title": "Matches on joined inputs", "statement": "Create a line from two lists of inputs put together. A matcher built from the library's matchers without any_of matches inside the first part exactly what it matches on the line created from the first list alone, and inside the second part exactly what it matches on the second line, shifted; only what reaches across the seam is new. A matcher without seq (any_of allowed) finds nothing but the matches of the two lines. This holds for find_by and for find_by_forwards_and_backwards. With any_of around a sequence it is false: a match across the seam can hide one inside a part (witness).", "quantifier": "all pairs of input lists, every size function and target, every matcher expression of the stated form", "why_tests_cant": "All inputs, split points and nested matchers.", "anchors": ["src/create_tokens.rs: create_line_from_input_tokens", "src/ll_line/ll_selection.rs: find_by, find_by_forwards_and_backwards", "src/ll_line/x/all.rs", "src/ll_line/x/any_of.rs", "src/ll_line/x/seq.rs"]}
{"id": "C69", "title": "The display can be read back", "statement": "Take two lines with the same tokens and any lists of types to display, none of whose values is printed with a line break or beginning with one of the two characters an underline goes on with. If the two displays are the same text, then they show the same rows: the same token ranges with the same printed values, in the same order. For a single type whose values are printed differently, query answers the same on both lines. Without the condition on the printed texts this is false (witness).", "quantifier": "all lines reachable by creation and runs without reversed ranges, all lists of displayed types with any Debug satisfying the condition, all targets", "why_tests_cant": "Injectivity over all lines and attributes; a snapshot shows one display only.", "anchors": ["src/ll_line/display.rs: Display for LLLineDisplay, include"]}
{"id": "C70", "title": "Printed texts tell values apart", "statement": "The Debug texts of TextTag, Amount, ClauseKeyword and Clause satisfy the condition of C69, and two values of these types, of the same or of different ones, are never printed the same. Hence the displays of any of these types on two lines with the same tokens are equal exactly when the queries for these types are. Two selections of the same line are printed the same exactly when they are equal; LLLineFind, LLCursorAssignment, AnyOf2 and AnyOf3 are printed differently if what they hold is. Each text has the form in which Rust prints a value of that name with those fields or parts; numbers are in decimal, and the text of an amount is its sign, whole part without zeros in front, and as many digits after the point as its scale, which together denote its coefficient.", "quantifier": "all values, all selections, all lines reachable by creation and runs without reversed ranges, all lists of distinct library types", "why_tests_cant": "All pairs of values and lines.", "anchors": ["src/ll_line/ll_selection.rs: Debug for LLSelection", "src/ll_line.rs: Debug for LLLineFind, LLCursorAssignment, TextTag", "src/ll_line/x/any_of.rs: AnyOf2, AnyOf3", "layered-amount/src/amounts.rs: Amount", "layered-clauses/src/clause_keyword.rs: ClauseKeyword", "layered-clauses/src/clauses.rs: Clause"]}
{"id": "C71", "title": "Matchers written by users cannot leave the line", "statement": "XMatch is a public trait. Whatever a user's implementation computes from the methods of XDirection and from the line itself (its tokens, query, find with other matchers, display), and even if it keeps indexes from earlier calls on the same line, the indexes it returns are token indexes of the line, because ToIdx cannot be built outside the crate. So every selection made from the whole line with such matchers has both ends in the line, finishing such selections never makes run panic, and LLLine::find panics only if the matcher itself panics. A resolver written with such matchers that does not call after makes run panic exactly when it panics itself or keeps a selection. The library's own matchers are of this kind. If the matchers in addition match only onwards, no selection is reversed; without this it is false: XDirection::after takes any number, so a user's matcher can match backwards, and query panics on what is finished then (witness). run hands a resolver exactly the selection of all tokens of the line. An index kept from another line may lie outside the line: find panics exactly if a match does, and so does run (witness).", "quantifier": "all matchers that use the public interface, all lines reachable by creation and runs, all compositions of the selection methods, all resolvers", "why_tests_cant": "The implementations of XMatch by users are unbounded; tests only exercise the ones shipped.", "anchors": ["src/ll_line/x.rs: XMatch, ToIdx, XDirection, XForwards, XBackwards", "src/ll_line/ll_selection.rs: all methods of LLSelection", "src/ll_line.rs: LLLine::run, LLLine::find"]}
{"id": "C72", "title": "What code written by users can see", "statement": "A matcher written by a user, whatever it computes from the methods of XDirection, the token contents and query, answers the same on any two lines with the same token contents and the same attributes of the types it asks for (and, if it uses token_attr_one_of, the same tokens with an attribute of their own). So does a resolver written by a user, whatever it computes from the methods of LLSelection with such matchers: it makes the same assignments. Hence a run that assigns a type it does not ask for changes nothing for it. Every library matcher is one of these, asking for the types it names.", "quantifier": "all matchers and resolvers that use the public interface, all pairs of lines reachable by creation and runs", "why_tests_cant": "All programs over the public interface and all pairs of lines.", "anchors": ["src/ll_line/x.rs: XMatch, XDirection", "src/ll_line/ll_selection.rs: all methods of LLSelection", "src/ll_line.rs: Resolver, LLLine::run, LLLine::query"]}
{"id": "C73", "title": "Resolver runs on joined inputs", "statement": "Create a line from the joined input i1 ++ i2 and lines from i1 and i2, and run the same resolvers on each: text match, part-of-speech tags, clause keywords, and amounts if the last token of the first part or the first of the second is a text token that is neither a number nor a sign of the amount format. The runs succeed on the joined line if and only if they succeed on both parts, and every query on the joined line then gives the answers of the two parts, those of the second moved by the length of the first. Without the condition on amounts this is false: 'pay 1' and ',000'.", "quantifier": "all inputs, all such sequences of resolver runs, all types queried", "why_tests_cant": "All pairs of inputs and all pipelines.", "anchors": ["src/ll_line.rs: LLLine::run, LLLine::query", "src/create_tokens.rs: create_line_from_input_tokens", "layered-amount/src/lib.rs: AmountResolver", "layered-part-of-speech/src/lib.rs: POSTagResolver", "layered-clauses/src/clause_keyword.rs: ClauseKeywordResolver"]}
{"id": "C74", "title": "Clauses on joined inputs", "statement": "If a clause keyword or punctuation ends the first part or begins the second, the clause resolvers report on the joined input the clauses of the two parts, with the same texts and (moved) ranges. The kind of a clause of the first part stays, except that an independent clause may become an effect. If the first part does not end with a keyword, the kind of a clause of the second part stays, except that an independent clause may become an effect and a leading effect a trailing one. Without a separator the clauses may merge: 'it rains' and ' today'.", "quantifier": "all inputs, all keyword lists", "why_tests_cant": "All pairs of inputs and keyword lists.", "anchors": ["layered-clauses/src/clauses.rs: ClauseResolver::go", "layered-clauses/src/clause_keyword.rs: ClauseKeywordResolver"]}
{"id": "C75", "title": "White space matching takes one token", "statement": "On a line created from inputs without text tags of their own, and after any runs of any resolvers that assign other types, x::whitespace() started at a token matches exactly that token if its tag is SPACE, and nothing otherwise, in both directions. (Its documentation, `Match any number of consecutive spaces`, is false: of a space followed by a line break it matches only the first, and trimming with it leaves a selection that starts with white space.)", "quantifier": "all inputs and sizes, all tokens, all runs of resolvers assigning other types", "why_tests_cant": "Tests have single spaces only, where one token and any number of spaces are the same.", "anchors": ["src/ll_line/x/functions.rs:47-50", "src/ll_line/x/attr_eq.rs", "src/create_tokens.rs:48-90", "src/ll_line/ll_selection.rs:309-370"]}
{"id": "C76", "title": "The tokens of a line given again as inputs", "statement": "If the text of every token of a line made from texts is a single segment on its own, then giving the token texts again, one by one, as inputs makes a line with the same tokens at the same positions. The tags are the same too, except that of a character tagged PUNC because it stood inside a segment with a digit in front that is not one of the documented punctuation characters: it becomes SYMB, or SPACE if it is white space.", "quantifier": "all texts, size functions, targets and segmenters; character tables in which letters, digits, white space and the documented punctuation are disjoint as needed", "why_tests_cant": "Idempotence up to the tag of one kind of character, over all texts; the exception would not be found by trying a few.", "anchors": ["src/create_tokens.rs:48-90", "src/create_tokens.rs:92-204", "src/create_tokens/get_word_tag.rs"]}
{"id": "C77", "title": "Tags by text", "statement": "The tag of a text token depends on its text alone as follows, whatever the text stood in: NATN iff it is a non-empty sequence of decimal digits; WORD iff it starts with a letter and continues with letters, apostrophes, hyphens or en dashes; a documented punctuation character is PUNC; PUNC is always a single character, not a digit or letter; SPACE is all white space, and white space is SPACE or (within a segment with a digit in front) PUNC. Hence the part-of-speech resolver reports exactly the tokens with such a word, with the tags the dictionary has for the lowercase word, or noun if the word is not in it. (The documentation of WORD, `A word as identified by unicode word recognition rules`, is false: `v2`, and `don't` with a typographic apostrophe, are single words tagged SYMB and get no part of speech.)", "quantifier": "all inputs, sizes, segmenters and dictionaries; character tables as in C76", "why_tests_cant": "A characterisation of each tag over all texts and segmenters; tests show single words.", "anchors": ["src/create_tokens.rs:92-204", "src/create_tokens/get_word_tag.rs", "src/ll_line.rs:17-37", "layered-part-of-speech/src/lib.rs"]}
{"id": "C78", "title": "Map entries", "statement": "In a map that keeps under each type at most one value, of that type, the entry of a type is occupied exactly if the map has a value of it. get returns that value; insert returns it and puts the new one in its place; remove returns it and takes it out; get_mut and into_mut refer to it; or_insert and or_insert_with refer to it, or, if there is none, put in the default, which or_insert_with computes only then. Values of other types stay, and what is written through a reference is then the map's value. On an entry whose value has another type than the entry's, each of these panics.", "quantifier": "all maps from types to values, all types, values and default functions (which may panic)", "why_tests_cant": "The code is not called by anything, and the tests that used it are commented out.", "anchors": ["src/type_bucket.rs:45-123", "src/type_bucket.rs:262-278"]}
{"id": "C79", "title": "Written numbers are read back", "statement": "Take a number written as groups of digits with any of the resolver's delimiters between them, and perhaps the decimal sign and a fraction. If a text is just that, and the segmenter cuts it only between groups and signs, query after the amount resolver reports exactly one amount: on all tokens, with the whole text, and with the value the decimal parser gives for the digits without delimiters and with a point before the fraction. If the tokens of a line contain these texts in a row, and no further number touches them directly or across one sign, query reports this amount on exactly these tokens; without a fraction and with a decimal sign after the number the parser is given that sign, too, as a point.", "quantifier": "all numbers of groups, all digits, all delimiters and decimal signs, all parsers, all surrounding tokens, all input attributes of other types, all segmenters", "why_tests_cant": "The tests read a handful of literals; all numbers, all groupings and all surroundings cannot be listed.", "anchors": ["layered-amount/src/amounts.rs:17-127", "src/create_tokens.rs:create_tokens_for_string"]}
{"id": "C80", "title": "Lines keep answering", "statement": "Take a line made by creation and then any runs, that returned, of the library's resolvers and of resolvers that only finish selections made from the one they are given by library matchers and the methods of selections other than after, and that keep no selection. Every query returns rows with distinct ranges, each with at least one value, on tokens of the line, with the text of these tokens; display returns a text whatever types are included; find returns for every library matcher without token_has_any; every selection made from the whole line is non-empty and in the line (or just past its end, if after is used); and every further run of such a resolver returns and gives again such a line with the same tokens. The library's resolvers are such resolvers whenever they return.", "quantifier": "all inputs, targets, size functions, resolver configurations, parsers, dictionaries, user resolvers as described, all numbers and orders of runs", "why_tests_cant": "All sequences of runs of all such resolvers cannot be tried; the failures found elsewhere (reversed ranges, selections past the end) arise only from combinations.", "anchors": ["src/ll_line.rs:LLLine::run", "src/ll_line.rs:LLLine::query", "src/ll_line/display.rs", "layered-amount/src/amounts.rs:62-126", "layered-clauses/src/clauses.rs:20-76", "src/resolvers/text_match.rs:45-64"]}
{"id": "C81", "title": "Clauses by one pass over the tokens", "statement": "Mark every token of a created line as clause keyword, as other punctuation, as white space or as anything else; every token has exactly one mark. The clauses the two clause resolvers leave on the line, with ranges, texts and kinds and in order, are those found by one pass over the marks from left to right: cut at keywords and punctuation, leave out one white space token at either end of a stretch, and give the kind by the keyword right before the stretch and by whether a clause that follows a condition keyword was already found. If inputs are joined and the left tokens end with a separator or the right ones begin with one, the clauses of the whole are those of the left part followed by those of a pass over the right part that goes on from the keyword at the seam and from the conditions of the left part.", "quantifier": "all inputs without keyword, tag and clause attributes of their own, all targets, size functions, keyword lists and ids; all pairs of inputs", "why_tests_cant": "A test compares single sentences; the one-pass description determines the answer for every line and every way to join two lines.", "anchors": ["layered-clauses/src/clauses.rs:20-76", "layered-clauses/src/clause_keyword.rs", "src/ll_line/ll_selection.rs:split_by", "src/ll_line/ll_selection.rs:trim"]}
{"id": "C82", "title": "Amounts by one pass over the tokens", "statement": "Mark every token of a created line as number, delimiter, decimal sign, anything else, or value token without attributes of its own; every token has exactly one mark. One pass over the marks from left to right, which remembers only the digit groups read so far and whether a delimiter or a decimal sign follows them, determines the run of the amount resolver: which tokens every amount covers and which text is given to the decimal parser; the run returns, and the query reports exactly these amounts in order, if the pass does not meet a value token without attributes right after digit groups and the parser accepts all texts, and panics otherwise. If inputs are joined, the pass over the right part goes on from what is being read at the end of the left part.", "quantifier": "all inputs without tag, char and amount attributes of their own, all targets, size functions, parsers and formats whose signs are not digits; all pairs of inputs", "why_tests_cant": "A test compares single sentences; the pass determines the answer, and the failures, for every line, every format and every way to join two lines.", "anchors": ["layered-amount/src/amounts.rs:62-126", "src/ll_line/ll_selection.rs:match_first_forwards", "src/ll_line/x/token_has_any.rs"]}
{"id": "C83", "title": "Printed tokens", "statement": "A character and the text of a token are printed as Rust literals that denote them, whatever the tables of printable characters say: line breaks, quotes, backslashes and characters that are not printable are escaped, all others stand for themselves, and a literal can be read in one way only, also when something follows it. Hence different characters, texts, tokens and lists of tokens are printed differently, the printed tokens of a line tell the text it was made from, and a display of any attribute types whose printed forms are plain and pairwise different, characters among them, tells exactly as much as the queries of these types.", "quantifier": "all characters, texts, tokens, token lists and tables of printable characters; all lines with a history and all selections of such attribute types", "why_tests_cant": "Escaping matters for texts nobody writes into a test: quotes, backslashes, combining and invisible characters; that no two tokens are printed alike is a statement about all pairs.", "anchors": ["src/ll_line.rs:38-54", "src/ll_line.rs:129-132", "src/ll_line.rs:208-210", "src/type_bucket.rs:224-236"]}
{"id": "C84", "title": "Matchers and resolvers with memory", "statement": "A matcher or a resolver of the user may keep cells behind its shared reference. Every selection method asks such a matcher each question at most once, in a fixed order (from the start to the end of the selection, at each index forwards before backwards; the first index after or the last before it; when trimming, first at the start, then at the end), stops at the first panic, and gives the result that a matcher without memory giving the same answers would have led to; run asks a resolver once, about the whole line, and never about an empty line. So what holds for all matchers and all resolvers without memory holds for those with memory. Matcher combinators ask their parts in a fixed order, and a sequence asks its second part once for each match of the first.", "quantifier": "all types of memory and all contents of it; all matchers, resolvers, lines, selections and directions", "why_tests_cant": "A test of a counting or caching matcher shows one order of calls on one line; that no method asks twice or in another order concerns all lines and all matchers, also those that panic.", "anchors": ["src/ll_line/x.rs:24-36", "src/ll_line/ll_selection.rs:68-370", "src/ll_line.rs:146-178", "src/ll_line.rs:214-230", "src/ll_line/x/all.rs:27-97", "src/ll_line/x/any_of.rs:33-88", "src/ll_line/x/seq.rs:27-78"]}
{"id": "C85", "title": "Layers that do not read each other", "statement": "Take some runs of resolvers that look at and assign only certain attribute types. Any other resolvers, of the library or of the user, may be run before, between and after them, as long as they assign other types: the line then answers every query, find and matcher about those types, and is displayed with them, as if the other resolvers had never been run, and a further such run succeeds in the one case exactly when it does in the other. In particular the clauses of a line and its amounts are what one pass over the tokens gives, whatever else was run. Where a run asks a token for one of several values, every token must have an attribute to begin with.", "quantifier": "all lines and histories; all sets of attribute types; all lists of library, find and user-written steps on those types; all other resolvers, any number of them, at any place", "why_tests_cant": "A test runs one set of resolvers in one order; that a layer added to a pipeline later, by someone else, cannot disturb an existing one concerns all resolvers.", "anchors": ["src/ll_line.rs:146-178", "src/ll_line.rs:214-230", "src/ll_line.rs:248-270", "src/ll_line/x.rs", "src/ll_line/x/token_has_any.rs", "src/type_bucket.rs", "layered-clauses/src/clauses.rs:20-76", "layered-amount/src/amounts.rs:62-126"]}
{"id": "C86", "title": "Functions given by users", "statement": "The functions a user passes in may have memory and may panic. The text-size function is called once for each text token of the line, in order, with its text, and with nothing else; its answers are the widths of the tokens, a panic of it is the panic of the creation, and the questions stop there or at the first overflow. Token texts, kinds and attributes are the same whatever it answers. `attr_eq` compares each value at the position once, value first; `token_has_any` compares the listed values with each attribute of the token until one is equal; a display prints the values of each range in the order of assignment; `finish_with` calls its closure once per found item, in order; TextMatch clones each value it assigns once. Each ends at the first panic, and with functions without memory each does what the other properties say.", "quantifier": "all types of memory; all size functions, comparisons, printers, closures and clones, panicking or not; all inputs, targets and lines with a history", "why_tests_cant": "Tests use pure functions such as `str::len`; how often, in which order and on which arguments a stateful or panicking function is called shows only over all functions.", "anchors": ["src/create_tokens.rs:30-98", "src/create_tokens.rs:100-203", "src/ll_line/x.rs:87-112", "src/ll_line/x.rs:135-157", "src/ll_line/x.rs:190-276", "src/ll_line/display.rs:104-118", "src/type_bucket.rs:224-236", "src/ll_line/finish_with.rs:1-14", "src/resolvers/text_match.rs:31-64"]}
{"id": "C87", "title": "Printed on several lines", "statement": "In the form `{:#?}` every value of the library prints what it prints in the form `{:?}`, one field, part or item per line: a value inside another one is four columns deeper and followed by a comma, and a user's own text with several lines inside is moved as a whole. A token takes nine lines, a value token six. Tokens, slices of tokens, finds, assignments and alternatives can be told apart by this text, and the printed tokens of a line determine the source text.", "quantifier": "all tokens, slices, selections, finds, assignments and alternatives; all printers of the values inside; all tables of printable characters", "why_tests_cant": "The tokenizing snapshot shows thirteen tokens of one text; nested values, texts with line breaks or quotes and values that print on several lines are unboundedly many.", "anchors": ["src/tests/tokenizing.rs:1-132", "src/ll_line.rs:38-54", "src/ll_line.rs:86-94", "src/ll_line.rs:295-302", "src/ll_line/ll_selection.rs:36-43", "src/ll_line/x/any_of.rs:27-61", "src/type_bucket.rs:17-21", "layered-amount/src/amounts.rs:4-5"]}
{"id": "C88", "title": "Values are opaque", "statement": "The library never looks into an attribute value. Exchange the attribute values of the input tokens and the values assigned by resolvers for others of the same type: the line has the same tokens and the same ranges, and every query, find, matcher and method of a selection gives the same answer with the exchanged values in it, or panics exactly when it did before, with the same message. The only places where a value matters are the functions given by the caller (`==`, Debug, closures) and resolvers that look at the type; where these cannot tell the difference, nothing changes: displays are equal, comparisons match the same, and the resolvers of the library assign the same. Matchers and resolvers written by users that only pass values on keep this up, over any number of runs.", "quantifier": "all relations between values, all types, inputs, resolvers, matchers (of the library and of users), selections and runs", "why_tests_cant": "A test has one value at a time; this is about all pairs of lines that differ in values, of types the library has never seen.", "anchors": ["src/ll_line.rs:146-285", "src/type_bucket.rs:192-250", "src/ll_line/x.rs:87-294", "src/ll_line/x/all.rs:27-97", "src/ll_line/x/any_of.rs:27-88", "src/ll_line/x/seq.rs:27-78", "src/ll_line/ll_selection.rs:55-378", "src/ll_line/display.rs:32-123", "src/resolvers/text_match.rs:45-64", "src/create_tokens.rs:48-90"]}
{"id": "C89", "title": "Tokens of ASCII text, by its characters", "statement": "On ASCII text, with a word segmenter that follows the boundary rules of Unicode Standard Annex #29 there: every non-empty text is accepted. The SPACE tokens are exactly the maximal runs of spaces, the line ends (CR LF as one), and single tabs, vertical tabs and form feeds. Every NATN token is a maximal run of digits, and every maximal run of digits is a NATN token unless a digit follows a letter or an underscore. In text without underscores where no letter touches a digit, all tokens are described by the characters alone: WORD tokens are maximal runs of letters with single apostrophes between letters, such runs that contain a period or colon between letters (`e.g`) are SYMB, and every other character is a token of its own, PUNC or SYMB. In all other ASCII text, every token is a piece with a word boundary at both ends and none inside, or, if that piece starts with a digit, a maximal run of digits (NATN) or letters (WORD) in it or one other character (PUNC). No token contains a hyphen beside other characters and none ends in an apostrophe beside other characters, so the documented words `baseball-card` and `peoples'` are not WORD tokens. A well-written number between white space is one amount. The rules determine the tokens: two segmenters and tables of character classes that obey them give the same line.", "quantifier": "all ASCII texts with any surrounding characters, all attributes, sizes, targets, segmenters and tables that follow the rules on ASCII text (with or without the colon rule)", "why_tests_cant": "The tests tokenize a handful of sentences; this fixes the tokens of every ASCII text, and of every position in it.", "anchors": ["src/create_tokens.rs:93-204", "src/create_tokens/get_word_tag.rs:1-53", "layered-amount/src/amounts.rs:17-127"]}
{"id": "C90", "title": "Amounts of ASCII text, by its characters", "statement": "On ASCII text in which no digit follows a letter or an underscore, with a word segmenter that follows the boundary rules there: the amounts a run of the amount resolver puts on the line are exactly those found by reading the characters from left to right (digit groups joined by single delimiters, then possibly one decimal sign and digits), in this order, each on the tokens with just this text; if the parser refuses one of the texts found, the run panics. Every amount is a well-written number that touches no digit on either side, its value is the parse of what it denotes, and every digit of the text lies in an amount.", "quantifier": "all ASCII texts in which no digit follows a letter or underscore, all attributes other than text tags, characters and amounts, sizes, targets, segmenters and tables that follow the rules, all parsers, all delimiters and decimal signs that are no digits (the decimal sign neither letter nor white space, or a delimiter too)", "why_tests_cant": "The tests resolve a few sentences; this gives the amounts of every such text without mention of tokens.", "anchors": ["layered-amount/src/amounts.rs:17-127", "src/create_tokens.rs:93-204"]}
{"id": "C91", "title": "Clauses of a written sentence", "statement": "Write a sentence as one or more parts separated by spaces, each with perhaps a keyword in front, then one or more words that are no keywords, with a space between two words, then perhaps a punctuation mark, such that between two parts is a punctuation mark or a keyword. Tokenize it and run the two clause resolvers: the clauses left on the line are the words of the parts, one clause for each part in this order, each on the tokens with just this text. A part after a condition keyword is a Condition; a sole part is otherwise Independent; a part after a then keyword is a TrailingEffect; any other is a TrailingEffect if a condition came earlier and a LeadingEffect if not. This does not extend to numbers with signs: of `pay 1,500 dollars` the clauses are `pay 1` and `500 dollars`, so the amount 1,500 lies in no clause.", "quantifier": "all such sentences of ASCII letters and digits, all keyword lists that do not classify the space, all attributes other than text tags, keywords and clauses, sizes, targets, segmenters and tables that follow the boundary rules on ASCII text", "why_tests_cant": "The tests resolve a handful of sentences; this gives the clauses of every sentence of any length from the words alone, through all three stages.", "anchors": ["layered-clauses/src/clause_keyword.rs:13-52", "layered-clauses/src/clauses.rs:20-76", "src/create_tokens.rs:93-204"]}
{"id": "C92", "title": "Keys that can be found in ASCII text", "statement": "A text is one piece if it consists of digits only, or does not begin with a digit and the boundary rules cut it nowhere. Every token of ASCII text is one piece, and one piece tokenized alone is one token. So an entry of a text match table whose key is not one piece (`New York`, `baseball-card`, `1,500`, `etc.`) changes nothing on any ASCII text, with and without regard to case, and an entry whose key is one piece is found in the text that is the key. Clause keyword lists that have the same one-piece words give the same keywords on every ASCII text, so a keyword of several words is never seen. A character of one piece is a letter, a digit, an underscore, a mark that joins letters or digits, a space or a line end, or the whole piece; with a space in it the piece is only spaces; and no piece of more than one character ends with a joining mark.", "quantifier": "all ASCII texts and keys, all tables (with distinct keys for the case-sensitive resolver), all keyword lists, all other attributes, sizes, targets, segmenters and tables that follow the boundary rules on ASCII text", "why_tests_cant": "The statement is that nothing is found in any text; a test tries one text.", "anchors": ["src/resolvers/text_match.rs:16-66", "layered-clauses/src/clause_keyword.rs:13-52", "src/create_tokens.rs:93-204"]}
{"id": "C93", "title": "Prices of ASCII text, by its characters", "statement": "Tokenize an ASCII text and run the currency symbol resolver, the amount resolver and the currency amount resolver of the repository's example. The prices left on the line are exactly these: a dollar sign directly followed by a number of the text (as read character by character, C90), and a number directly followed by a dollar sign, each on the tokens with just this text, with the value of the number. If the dollar sign is no sign of the amount resolver, every dollar sign before a digit begins a price and every dollar sign after a digit ends one, so a sign between two numbers (`5$7`) belongs to two prices; a sign with a space beside it belongs to none.", "quantifier": "all ASCII texts in which no digit follows a letter or an underscore, all amount resolvers with signs that are no digits (and a decimal sign that is a delimiter or neither letter nor white space), all decimal parsers, all currency types and values, attributes of other types, sizes, targets, segmenters and tables that follow the boundary rules on ASCII text", "why_tests_cant": "The repository's example has one text; this gives the prices of every text from its characters alone, through four stages.", "anchors": ["src/tests/currency_amount.rs:14-28", "src/tests/currency_amount.rs:114-125", "layered-amount/src/amounts.rs:17-127", "src/create_tokens.rs:93-204"]}
{"id": "C94", "title": "Texts of words and marks", "statement": "Write a text as words separated by single spaces, each perhaps with a punctuation mark behind, where a word is letters with single apostrophes, periods (or colons) between them, or digits. Its tokens are the words, marks and spaces in the order written: digits are NATN, letters with or without apostrophes WORD, words with a period or colon inside SYMB. Part of speech tagging leaves tags on exactly the words of letters and apostrophes, each with the tags of the dictionary for its lower case form or the noun tag if it is not there; words with periods get none, nor do words for which the dictionary has an empty list. A text match table gives values to exactly the words, marks and spaces that are its keys, with and without regard to case.", "quantifier": "all such texts of any length, all dictionaries and tables (distinct keys for the case-sensitive resolver), all other attributes, sizes, targets, segmenters and tables that follow the boundary rules on ASCII text", "why_tests_cant": "The tests tag two sentences; this gives the whole list of tokens, tags and matches of every such text from the words as written.", "anchors": ["layered-part-of-speech/src/lib.rs:14-30", "src/resolvers/text_match.rs:45-64", "src/create_tokens.rs:93-204", "src/create_tokens/get_word_tag.rs"]}
{"id": "C95", "title": "Shape and case of ASCII text", "statement": "Replace letters of an ASCII text by other letters and digits by other digits: the text is accepted as before, and is cut into tokens in the same places, with the same tags and positions; the amounts that are read lie on the same tokens. If only upper and lower case is changed, part of speech tags, text matches that ignore case, clauses and amounts are also the same, on the same tokens, and the texts reported differ only in case; an amount resolver that fails on one text fails on the other.", "quantifier": "all ASCII texts (alone or in lists of inputs with value tokens, whatever the attributes and sizes), all replacements, dictionaries, tables, keyword lists and amount resolvers (whose signs are neither letters nor digits, on lines without value tokens), all segmenters and tables that follow the boundary rules and the usual lower case on ASCII text", "why_tests_cant": "Relates the runs on two texts, for every text and every way of changing it; the tests look at single texts.", "anchors": ["src/create_tokens.rs:93-204", "src/create_tokens/get_word_tag.rs", "src/resolvers/text_match.rs:22-64", "layered-clauses/src/clause_keyword.rs:32-51", "layered-clauses/src/clauses.rs:20-76", "layered-part-of-speech/src/lib.rs:14-30", "layered-amount/src/amounts.rs:62-126"]}
{"id": "C96", "title": "ASCII text and its pieces", "statement": "ASCII text may be cut wherever no boundary rule forbids it (for instance at white space, or after every line end), and only there: the words of the pieces are the words of the text. The line of the text is then the line of the pieces given as inputs of their own; its tokens and attributes are those of the pieces side by side; single-token resolvers (text matches, keywords, parts of speech) report what they report on the pieces, one piece after the other, and so do pipelines with amounts if the character on one side of the cut is no part of a number; the clauses are those of the parts if there is punctuation at the cut.", "quantifier": "all ASCII texts, all lists of pieces, all targets and sizes, all inputs before and after, all tables, dictionaries, keyword lists, amount resolvers and pipelines of them, all segmenters and tables that follow the boundary rules on ASCII text", "why_tests_cant": "Relates the runs on a text to the runs on its pieces, for every text and every way of cutting it; the tests look at single texts.", "anchors": ["src/create_tokens.rs:19-204", "src/ll_line.rs:125-269", "src/resolvers/text_match.rs:22-64", "layered-clauses/src/clause_keyword.rs:32-51", "layered-clauses/src/clauses.rs:20-76", "layered-part-of-speech/src/lib.rs:14-30", "layered-amount/src/amounts.rs:62-126"]}
{"id": "C97", "title": "Results are no larger than the text", "statement": "A line has at least one token for each input and at most one for each character of its texts. A query gives at most n*n rows for n tokens, for any line reachable through the API. A new line gives at most one row per input for an attribute type that creation does not assign itself, and at most one per token and input for the others. Each step of a pipeline of the library's resolvers adds at most n rows, and only to the query for the type it assigns. There is at most one amount for each number token and at most one clause for each two tokens, and the texts of all amounts, or of all clauses, together have no more characters than the line.", "quantifier": "all inputs, targets, sizes, attribute types, tables, dictionaries, keyword lists, amount resolvers without digit signs, decimal parsers and pipelines", "why_tests_cant": "Bounds memory and output for every text and every configuration; no finite set of tests can show the absence of a text with more rows.", "anchors": ["src/create_tokens.rs:19-204", "src/ll_line.rs:125-269", "src/resolvers/text_match.rs:22-64", "layered-clauses/src/clause_keyword.rs:32-51", "layered-clauses/src/clauses.rs:20-76", "layered-part-of-speech/src/lib.rs:14-30", "layered-amount/src/amounts.rs:62-126"]}
{"id": "C98", "title": "Tables and keyword lists may be taken apart", "statement": "A text match table may be split into several tables without common keys and the resolvers run one after the other, in any order; so may a table that ignores case, if no key is in two of the parts in whatever case (refuted without), and tables of both kinds may be mixed as long as every text is given the same values; so may the lists of a clause keyword resolver if no word is in two of the parts. Whatever pipeline of library resolvers and searches is run afterwards, the lines answer every query for other types, every matcher and find, and every display of other types alike; only the rows of the query for the assigned type itself may be in another order (and they can be: refuted that they are equal). A word configured in two of the keyword lists can change the clauses (refuted that it cannot).", "quantifier": "all lines reachable through the API, all attribute types and tables, all keyword lists, all ways of splitting and orders, all later pipelines of library resolvers and searches with matcher expressions", "why_tests_cant": "Compares different sequences of runs for every table, every split and every later pipeline; a test fixes one of each.", "anchors": ["src/resolvers/text_match.rs:8-64", "layered-clauses/src/clause_keyword.rs:13-51", "layered-clauses/src/clauses.rs:20-76", "src/ll_line.rs:125-269"]}
{"id": "C99", "title": "More keywords split clauses, more delimiters join amounts, more entries add matches", "statement": "On a new line: if a clause keyword resolver is given more words (roles may change), every clause lies within exactly one of the clauses there were before, and a clause with no new separator in it or next to it is still there with the same range and text. If an amount resolver is given more delimiters (not the decimal sign), the amounts are those there were before with neighbours put together, and each is the number parsed from what these spelled one after the other. If a text match table is given more entries, no row of the query is lost or changed; ignoring case the same, if the new entries come before the old. If the decimal sign itself becomes a delimiter an amount can be torn apart (refuted that it cannot).", "quantifier": "all input token lists, all pairs of keyword lists, delimiter lists and tables of which one extends the other, all number parsers", "why_tests_cant": "Compares the results of two configurations on every line; a test compares a result with a fixed expectation.", "anchors": ["layered-clauses/src/clause_keyword.rs:13-51", "layered-clauses/src/clauses.rs:20-76", "layered-amount/src/amounts.rs:22-122", "src/resolvers/text_match.rs:8-64"]}
{"id": "C100", "title": "Pieces may be replaced by others of the same role", "statement": "Take two lists of input pieces, and replace each piece by another that has as many tokens, each of the same role: for clauses the same kind of keyword (of a resolver for another language, perhaps), other punctuation, other white space, or anything else, a value token included; for amounts the same digits, a delimiter, the decimal sign (of a resolver for another notation, perhaps), anything else, or a value token without attributes; for text matching and parts of speech the same values in two tables or dictionaries, or none in either. Then the clauses of the two lines are on the same tokens and of the same kinds, and the amounts are on the same tokens and have the same values, or both runs panic; the matches and the parts of speech are on the same tokens and have the same values. In particular words may be replaced by placeholders, keywords may be translated, and numbers rewritten in another notation.", "quantifier": "all lists of input pieces, size functions and targets on either side; all keyword lists, delimiter and decimal signs that are no digits, on either side; all number parsers; all pairs of tables (ignoring case or not) and dictionaries", "why_tests_cant": "Relates the results on two different inputs under two different configurations, for all pairs that correspond; a test has one input.", "anchors": ["layered-clauses/src/clause_keyword.rs:13-51", "layered-clauses/src/clauses.rs:20-76", "layered-amount/src/amounts.rs:22-126", "src/resolvers/text_match.rs:16-64", "layered-part-of-speech/src/lib.rs:14-30", "src/create_tokens.rs:30-203"]}
