(** The assumptions of every property theorem, printed when this file is built:
    each is "Closed under the global context". *)

From Verif Require Import PropLine PropMatch PropSel PropRes PropMore PropApart PropAscii PropBound PropCalls PropCase PropChars PropCross PropCurrency PropCut PropEnd PropEntry PropFiner PropGrown PropIndent PropJoin PropKeys PropLaws PropLayer PropMerge PropOpaque PropOrder PropPass PropPrices PropPrint PropRead PropReplaced PropScan PropSeam PropSentence PropSlice PropState PropUser PropWords PropWordy PropWritten.

Print Assumptions C01_no_text_lost.
Print Assumptions C02_positions.
Print Assumptions C02_deprecated.
Print Assumptions C02_tiling.
Print Assumptions C03_byte_offsets.
Print Assumptions C04_rejected.
Print Assumptions C05_tags.
Print Assumptions C05_natn.
Print Assumptions C05_natn_any_line.
Print Assumptions C05_one_tag_each.
Print Assumptions C06_refuted.
Print Assumptions C07_char_iff_one_char.
Print Assumptions C07_created_plain.
Print Assumptions C08_unique.
Print Assumptions C09_input_attributes.
Print Assumptions C09_groups.
Print Assumptions C09_add_attr.
Print Assumptions C10_query_exact.
Print Assumptions C10_query_panics.
Print Assumptions C10_rows.
Print Assumptions C10_creation_ordered.
Print Assumptions C11_run_only_adds.
Print Assumptions C12_no_interference.
Print Assumptions C12_keeps_plain.
Print Assumptions C12_token_has_any_refuted.
Print Assumptions C13_empty_line.
Print Assumptions C13_only_empty.
Print Assumptions C14_run_ok_iff.
Print Assumptions C14_run_panics_iff.
Print Assumptions C17_any_attribute.
Print Assumptions C17_bucket.
Print Assumptions C51_commute.
Print Assumptions C53_indexes_agree.
Print Assumptions C15_attr.
Print Assumptions C15_attr_eq.
Print Assumptions C15_reads_query.
Print Assumptions C16_attr.
Print Assumptions C16_attr_eq.
Print Assumptions C16_token_text.
Print Assumptions C16_all.
Print Assumptions C16_token_has_any_refuted.
Print Assumptions C16_any_of_refuted.
Print Assumptions C18_unattributed.
Print Assumptions C18_token_has_any.
Print Assumptions C19_all2.
Print Assumptions C19_all3.
Print Assumptions C19_panics.
Print Assumptions C20_any_of2.
Print Assumptions C20_any_of3.
Print Assumptions C20_none.
Print Assumptions C21_seq2.
Print Assumptions C21_seq3.
Print Assumptions C21_inside_only.
Print Assumptions C22_inside.
Print Assumptions C22_ends_in_line.
Print Assumptions C23_without_has_any.
Print Assumptions C23_backwards.
Print Assumptions C23_attributed.
Print Assumptions C23_text_only.
Print Assumptions C24_in_range.
Print Assumptions C24_with_after.
Print Assumptions C24_created.
Print Assumptions C24_run.
Print Assumptions C24_after_refuted.
Print Assumptions C25_find_by.
Print Assumptions C25_ok_iff.
Print Assumptions C25_first.
Print Assumptions C26_found_inside_partial.
Print Assumptions C26_exact.
Print Assumptions C26_refuted.
Print Assumptions C27_runs.
Print Assumptions C27_single_tokens.
Print Assumptions C27_no_match.
Print Assumptions C27_refuted.
Print Assumptions C28_split_with.
Print Assumptions C28_panics_iff.
Print Assumptions C29_trim_start.
Print Assumptions C29_trim_end_exact.
Print Assumptions C29_trim_exact.
Print Assumptions C29_trim_end_partial.
Print Assumptions C29_trim_partial.
Print Assumptions C29_trim_end_refuted.
Print Assumptions C29_trim_refuted.
Print Assumptions C30_match_forwards.
Print Assumptions C30_match_backwards.
Print Assumptions C30_first.
Print Assumptions C30_unwritten.
Print Assumptions C30_seq.
Print Assumptions C31_exact.
Print Assumptions C31_after_partial.
Print Assumptions C31_wrong_none.
Print Assumptions C31_wrong_some.
Print Assumptions C31_none_refuted.
Print Assumptions C31_some_refuted.
Print Assumptions C32_both_directions.
Print Assumptions C32_order.
Print Assumptions C32_twice.
Print Assumptions C33_find.
Print Assumptions C33_empty.
Print Assumptions C33_ordered.
Print Assumptions C34_eq_iff.
Print Assumptions C34_equivalence.
Print Assumptions C34_same.
Print Assumptions C35_display.
Print Assumptions C35_columns.
Print Assumptions C35_underline.
Print Assumptions C35_reversed_panics.
Print Assumptions C36_include.
Print Assumptions C36_with.
Print Assumptions C36_once.
Print Assumptions C37_case_sensitive.
Print Assumptions C37_case_insensitive.
Print Assumptions C37_array.
Print Assumptions C38_last_wins.
Print Assumptions C38_order_independent.
Print Assumptions C38_order_dependent.
Print Assumptions C38_refuted.
Print Assumptions C38_array_refuted.
Print Assumptions C39_terminates.
Print Assumptions C39_ordered.
Print Assumptions C40_covered.
Print Assumptions C40_numbers_apart.
Print Assumptions C41_value.
Print Assumptions C41_text.
Print Assumptions C41_decimal.
Print Assumptions C42_partial.
Print Assumptions C42_no_neighbours.
Print Assumptions C42_refuted.
Print Assumptions C43_grouped.
Print Assumptions C43_documented.
Print Assumptions C43_english_refuted.
Print Assumptions C43_french_refuted.
Print Assumptions C44_run.
Print Assumptions C44_panics_iff.
Print Assumptions C44_text_only.
Print Assumptions C45_keywords.
Print Assumptions C46_exact.
Print Assumptions C46_lowercase_partial.
Print Assumptions C46_never.
Print Assumptions C46_refuted.
Print Assumptions C47_clauses.
Print Assumptions C47_disjoint.
Print Assumptions C47_after_keywords.
Print Assumptions C48_kinds.
Print Assumptions C48_no_leading_effect_after_condition.
Print Assumptions C48_independent.
Print Assumptions C49_covered.
Print Assumptions C49_refuted.
Print Assumptions C50_tags.
Print Assumptions C50_plain.
Print Assumptions C52_created_single.
Print Assumptions C52_without_amounts.
Print Assumptions C52_pipelines.
Print Assumptions C06_exact.
Print Assumptions C06_documented_partial.
Print Assumptions C43_grouped_integer.
Print Assumptions C43_french_integers.
Print Assumptions C85_layers.
Print Assumptions C85_clauses.
Print Assumptions C85_amounts.
Print Assumptions C85_read_refuted.
Print Assumptions C85_unattributed_refuted.
Print Assumptions C89_accepted.
Print Assumptions C89_spaces.
Print Assumptions C89_numbers.
Print Assumptions C89_plain.
Print Assumptions C89_all.
Print Assumptions C89_compounds.
Print Assumptions C89_written.
Print Assumptions C89_determined.
Print Assumptions C97_tokens.
Print Assumptions C97_query.
Print Assumptions C97_created.
Print Assumptions C97_pipelines.
Print Assumptions C97_amounts.
Print Assumptions C97_clauses.
Print Assumptions C86_sizes.
Print Assumptions C86_sizes_only.
Print Assumptions C86_sizes_panic.
Print Assumptions C86_sizes_answered.
Print Assumptions C86_attr_eq.
Print Assumptions C86_has_any.
Print Assumptions C86_debug.
Print Assumptions C86_finish.
Print Assumptions C86_clone.
Print Assumptions C86_clone_array.
Print Assumptions C86_pure.
Print Assumptions C95_shape.
Print Assumptions C95_string.
Print Assumptions C95_parts_of_speech.
Print Assumptions C95_matches.
Print Assumptions C95_clauses.
Print Assumptions C95_amount_places.
Print Assumptions C95_amounts.
Print Assumptions C90_amounts.
Print Assumptions C90_written.
Print Assumptions C68_inside.
Print Assumptions C68_no_seq.
Print Assumptions C68_any_of_refuted.
Print Assumptions C64_currency.
Print Assumptions C64_next_to_number.
Print Assumptions C65_local.
Print Assumptions C65_joined.
Print Assumptions C66_cut.
Print Assumptions C96_words.
Print Assumptions C96_places.
Print Assumptions C96_pieces.
Print Assumptions C96_local.
Print Assumptions C96_line.
Print Assumptions C96_steps.
Print Assumptions C96_clauses.
Print Assumptions C37_created.
Print Assumptions C38_created.
Print Assumptions C39_created.
Print Assumptions C40_created.
Print Assumptions C41_created.
Print Assumptions C42_created.
Print Assumptions C44_created.
Print Assumptions C45_created.
Print Assumptions C50_created.
Print Assumptions C47_created.
Print Assumptions C48_created.
Print Assumptions C49_created.
Print Assumptions C49_exact.
Print Assumptions C59_partition.
Print Assumptions C78_occupied.
Print Assumptions C78_vacant.
Print Assumptions C78_or_insert.
Print Assumptions C78_or_insert_with.
Print Assumptions C78_other_type.
Print Assumptions C99_clauses.
Print Assumptions C99_amounts.
Print Assumptions C99_tables.
Print Assumptions C99_tables_ci.
Print Assumptions C99_point_refuted.
Print Assumptions C80_answers.
Print Assumptions C80_library.
Print Assumptions C87_layouts.
Print Assumptions C87_inside.
Print Assumptions C87_token_lines.
Print Assumptions C87_apart.
Print Assumptions C87_source.
Print Assumptions C08_runs.
Print Assumptions C55_join.
Print Assumptions C55_joins.
Print Assumptions C56_query.
Print Assumptions C56_find.
Print Assumptions C92_tokens.
Print Assumptions C92_alone.
Print Assumptions C92_characters.
Print Assumptions C92_useless.
Print Assumptions C92_useless_ci.
Print Assumptions C92_useful.
Print Assumptions C92_keywords.
Print Assumptions C60_adjacent.
Print Assumptions C60_first.
Print Assumptions C60_split_with.
Print Assumptions C60_trim.
Print Assumptions C60_seq_forwards.
Print Assumptions C60_seq_backwards.
Print Assumptions C60_seq_find.
Print Assumptions C60_split_again.
Print Assumptions C61_sizes.
Print Assumptions C62_attributes.
Print Assumptions C63_again.
Print Assumptions C63_created.
Print Assumptions C54_seq3_left.
Print Assumptions C54_seq3_right.
Print Assumptions C54_all3.
Print Assumptions C54_any_of3.
Print Assumptions C54_all_swap.
Print Assumptions C57_every_matcher.
Print Assumptions C57_meaning.
Print Assumptions C57_find_by.
Print Assumptions C57_find_both.
Print Assumptions C57_run.
Print Assumptions C57_run_both.
Print Assumptions C57_find.
Print Assumptions C57_currency.
Print Assumptions C57_symbols.
Print Assumptions C98_tables.
Print Assumptions C98_split.
Print Assumptions C98_order.
Print Assumptions C98_keywords.
Print Assumptions C98_mixed.
Print Assumptions C98_split_ci.
Print Assumptions C98_rows_refuted.
Print Assumptions C98_overlap_refuted.
Print Assumptions C98_case_refuted.
Print Assumptions C88_layers.
Print Assumptions C88_run.
Print Assumptions C88_resolvers.
Print Assumptions C88_answers.
Print Assumptions C88_exchanged.
Print Assumptions C88_matchers.
Print Assumptions C88_user_matchers.
Print Assumptions C88_selections.
Print Assumptions C88_compared_refuted.
Print Assumptions C27_unique.
Print Assumptions C47_unique.
Print Assumptions C58_reorder.
Print Assumptions C58_created.
Print Assumptions C82_marks.
Print Assumptions C82_pass.
Print Assumptions C82_parts.
Print Assumptions C93_prices.
Print Assumptions C93_dollars.
Print Assumptions C83_literal_once.
Print Assumptions C83_literals.
Print Assumptions C83_escapes.
Print Assumptions C83_apart.
Print Assumptions C83_layout.
Print Assumptions C83_display.
Print Assumptions C83_types.
Print Assumptions C83_source.
Print Assumptions C69_read.
Print Assumptions C69_query.
Print Assumptions C69_any_text_refuted.
Print Assumptions C70_number.
Print Assumptions C70_plain.
Print Assumptions C70_apart.
Print Assumptions C70_display.
Print Assumptions C70_selection.
Print Assumptions C70_selection_eq.
Print Assumptions C70_find.
Print Assumptions C70_assignment.
Print Assumptions C70_any_of.
Print Assumptions C70_layout.
Print Assumptions C70_decimal.
Print Assumptions C100_clauses.
Print Assumptions C100_amounts.
Print Assumptions C100_matches.
Print Assumptions C100_parts_of_speech.
Print Assumptions C81_marks.
Print Assumptions C81_scan.
Print Assumptions C81_parts.
Print Assumptions C73_pipelines.
Print Assumptions C73_seam_refuted.
Print Assumptions C74_ranges.
Print Assumptions C74_kinds.
Print Assumptions C74_seam_refuted.
Print Assumptions C91_clauses.
Print Assumptions C91_numbers_refuted.
Print Assumptions C27_exact.
Print Assumptions C27_untouched.
Print Assumptions C67_query.
Print Assumptions C67_find.
Print Assumptions C67_determined.
Print Assumptions C67_units.
Print Assumptions C84_asked.
Print Assumptions C84_asked_line.
Print Assumptions C84_memoryless.
Print Assumptions C84_combinators.
Print Assumptions C84_order.
Print Assumptions C84_order_seq.
Print Assumptions C84_run.
Print Assumptions C84_history.
Print Assumptions C84_again_refuted.
Print Assumptions C84_seq_refuted.
Print Assumptions C71_inside.
Print Assumptions C71_library.
Print Assumptions C71_ends.
Print Assumptions C71_onward.
Print Assumptions C71_run.
Print Assumptions C71_find.
Print Assumptions C71_whole.
Print Assumptions C71_code.
Print Assumptions C71_find_any.
Print Assumptions C71_reversed_refuted.
Print Assumptions C71_foreign_refuted.
Print Assumptions C72_sees.
Print Assumptions C72_unaffected.
Print Assumptions C72_library.
Print Assumptions C75_whitespace.
Print Assumptions C75_documented_refuted.
Print Assumptions C76_again.
Print Assumptions C77_tags.
Print Assumptions C77_parts_of_speech.
Print Assumptions C77_documented_refuted.
Print Assumptions C77_compounds_refuted.
Print Assumptions C05_each_token_refuted.
Print Assumptions C94_tokens.
Print Assumptions C94_tags.
Print Assumptions C94_matches.
Print Assumptions C79_within.
Print Assumptions C79_alone.
