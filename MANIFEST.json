{
 "claims": [
  {
   "property": "C01",
   "status": "proved",
   "theorems": [
    "C01_parse_str_grammar"
   ],
   "note": "Grammar.v is the declarative grammar; iff."
  },
  {
   "property": "C02",
   "status": "proved",
   "theorems": [
    "C02_from_str_terminates",
    "C02_from_str_fuel_irrelevant",
    "C02_parse_str_terminates",
    "C02_expression_terminates",
    "C02_fuel_irrelevant"
   ],
   "note": ""
  },
  {
   "property": "C03",
   "status": "partial",
   "theorems": [
    "C03_from_str_refuted",
    "C03_from_str_panic_cause",
    "C03_from_str_partial",
    "C03_no_panic_refuted",
    "C03_no_panic_partial",
    "C03_panic_cause"
   ],
   "note": "The property as stated is false of the code: C03_no_panic_refuted gives a document on which parse_str panics. The partial theorem covers all documents without \"<<-\"; C03_panic_cause characterises the cause. C89 characterises exactly the documents that panic."
  },
  {
   "property": "C04",
   "status": "proved",
   "theorems": [
    "C04_no_bug",
    "C04_every_character_accounted"
   ],
   "note": ""
  },
  {
   "property": "C05",
   "status": "proved",
   "theorems": [
    "C05_print_parse",
    "C05_canonical_print_parse"
   ],
   "note": ""
  },
  {
   "property": "C06",
   "status": "proved",
   "theorems": [
    "C06_concatenation"
   ],
   "note": ""
  },
  {
   "property": "C07",
   "status": "proved",
   "theorems": [
    "C07_refill",
    "C07_leading",
    "C07_trailing",
    "C07_between_tokens"
   ],
   "note": ""
  },
  {
   "property": "C08",
   "status": "proved",
   "theorems": [
    "C08_label_order",
    "C08_body_order",
    "C08_tuple_order",
    "C08_object_order"
   ],
   "note": ""
  },
  {
   "property": "C09",
   "status": "proved",
   "theorems": [
    "C09_quoted_round_trip",
    "C09_label_round_trip"
   ],
   "note": ""
  },
  {
   "property": "C10",
   "status": "proved",
   "theorems": [
    "C10_quoted_exact",
    "C10_escape_denotes",
    "C10_bad_escape_rejected"
   ],
   "note": ""
  },
  {
   "property": "C11",
   "status": "proved",
   "theorems": [
    "C11_heredoc_verbatim",
    "C11_heredoc_empty"
   ],
   "note": ""
  },
  {
   "property": "C12",
   "status": "partial",
   "theorems": [
    "C12_byte_length",
    "C12_unindent_refuted",
    "C12_unindent_partial",
    "C12_unindent_full_lines"
   ],
   "note": "False as stated (some contents panic). The partial theorem gives the exact value or panic for every content."
  },
  {
   "property": "C13",
   "status": "proved",
   "theorems": [
    "C13_number_literal",
    "C13_number_text",
    "C13_longest"
   ],
   "note": ""
  },
  {
   "property": "C14",
   "status": "proved",
   "theorems": [
    "C14_integer_exact",
    "C14_any_number_exact",
    "C14_not_integer",
    "C14_value_unique"
   ],
   "note": "\"-0\" is rejected by unsigned types (Rust's FromStr rejects any minus sign); the statement says so."
  },
  {
   "property": "C15",
   "status": "proved",
   "theorems": [
    "C15_classification",
    "C15_signed_is_integer"
   ],
   "note": ""
  },
  {
   "property": "C16",
   "status": "partial",
   "theorems": [
    "C16_from_int_refuted",
    "C16_min_panics",
    "C16_round_trip_partial",
    "C16_min_wraps"
   ],
   "note": "False as stated: the smallest value of each signed type panics with overflow checks (n.abs()); all other values are proved to round trip."
  },
  {
   "property": "C17",
   "status": "partial",
   "theorems": [
    "C17_float_transitive_refuted",
    "C17_far_apart_refuted",
    "C17_reflexive_refuted",
    "C17_opposite_sign_refuted",
    "C17_transitive_refuted",
    "C17_hash_refuted",
    "C17_float_merges_integers_refuted",
    "C17_symmetric_partial",
    "C17_reflexive_partial",
    "C17_integer_equality_partial"
   ],
   "note": "False as stated (the _refuted theorems); the exact rule for floats is C96; the _partial theorems: symmetry for all numbers, exact domain of reflexivity, integer equality is equality of values."
  },
  {
   "property": "C18",
   "status": "proved",
   "theorems": [
    "C18_identifier_exact",
    "C18_identifier_longest"
   ],
   "note": ""
  },
  {
   "property": "C19",
   "status": "proved",
   "theorems": [
    "C19_keyword_value",
    "C19_keyword_as_name",
    "C19_keyword_prefix_rejected"
   ],
   "note": ""
  },
  {
   "property": "C20",
   "status": "proved",
   "theorems": [
    "C20_parse_slice_utf8",
    "C20_parse_slice_malformed",
    "C20_utf8_injective",
    "C20_utf8_error_only_malformed",
    "C20_from_slice_utf8",
    "C20_from_slice_malformed"
   ],
   "note": ""
  },
  {
   "property": "C21",
   "status": "proved",
   "theorems": [
    "C21_chunking",
    "C21_reader_is_slice",
    "C21_read_error",
    "C21_reader_total",
    "C21_from_reader_chunking",
    "C21_from_reader_is_str",
    "C21_from_reader_read_error",
    "C21_from_reader_total"
   ],
   "note": ""
  },
  {
   "property": "C22",
   "status": "proved",
   "theorems": [
    "C22_as_owned",
    "C22_as_owned_expr"
   ],
   "note": ""
  },
  {
   "property": "C23",
   "status": "proved",
   "theorems": [
    "C23_expression_parse",
    "C23_trailing_input_rejected"
   ],
   "note": ""
  },
  {
   "property": "C24",
   "status": "partial",
   "theorems": [
    "C24_line_comment_is_blank",
    "C24_inline_comment_is_blank",
    "C24_line_comment_ends_element",
    "C24_line_comment_slash_refuted",
    "C24_final_comment_refuted"
   ],
   "note": "Two sub-claims are false of the code (line_comment and //; comment on the last line without newline), proved as _refuted; the others are proved."
  },
  {
   "property": "C25",
   "status": "proved",
   "theorems": [
    "C25_parens",
    "C25_parens_nested",
    "C25_parens_inv"
   ],
   "note": ""
  },
  {
   "property": "C26",
   "status": "partial",
   "theorems": [
    "C26_lone_comma_refuted",
    "C26_tuple_syntax_partial"
   ],
   "note": "False as stated: the code accepts [,] . The partial theorem is the exact set of accepted texts."
  },
  {
   "property": "C27",
   "status": "proved",
   "theorems": [
    "C27_object_members",
    "C27_last_member",
    "C27_missing_separator"
   ],
   "note": ""
  },
  {
   "property": "C28",
   "status": "proved",
   "theorems": [
    "C28_one_element_per_line",
    "C28_line_end_between_elements",
    "C28_after_attribute"
   ],
   "note": ""
  },
  {
   "property": "C29",
   "status": "proved",
   "theorems": [
    "C29_append_one",
    "C29_blocks_append_one",
    "C29_history"
   ],
   "note": ""
  },
  {
   "property": "C30",
   "status": "partial",
   "theorems": [
    "C30_get_refuted",
    "C30_append_get_partial",
    "C30_short_labels_partial",
    "C30_blocks_get_partial"
   ],
   "note": "False as stated (C30_get_refuted: a block whose first label is new and which has more labels loses them). C30_append_get_partial gives the exact effect of every append on every lookup for consistently written labels."
  },
  {
   "property": "C31",
   "status": "partial",
   "theorems": [
    "C31_new_refuted",
    "C31_new_partial"
   ],
   "note": "False as stated (non-adjacent runs of one type overwrite each other). The partial theorem: with adjacent runs, new = appending one by one."
  },
  {
   "property": "C32",
   "status": "partial",
   "theorems": [
    "C32_iterators_agree",
    "C32_reachable_refuted",
    "C32_reachable_partial",
    "C32_get_is_iterated",
    "C32_into_iter_moved",
    "C32_as_cow",
    "C32_len",
    "C32_is_empty"
   ],
   "note": "Counting and iterators agree for all collections (proved); reachability by get is false when a quoted and an identifier label have the same text (refuted), proved otherwise."
  },
  {
   "property": "C33",
   "status": "proved",
   "theorems": [
    "C33_label_lens",
    "C33_label_lens_body"
   ],
   "note": ""
  },
  {
   "property": "C34",
   "status": "partial",
   "theorems": [
    "C34_value_refuted",
    "C34_is_uniform_refuted",
    "C34_uniform_partial",
    "C34_per_type"
   ],
   "note": "False as stated in both directions of the value; the partial theorem: the value is always 0 when present, no false negatives, exact for unlabelled blocks."
  },
  {
   "property": "C35",
   "status": "proved",
   "theorems": [
    "C35_extend_batches",
    "C35_extend_built",
    "C35_order"
   ],
   "note": ""
  },
  {
   "property": "C36",
   "status": "partial",
   "theorems": [
    "C36_borrow_refuted",
    "C36_labels_partial",
    "C36_eq_str",
    "C36_equivalence",
    "C36_lookup_partial"
   ],
   "note": "The Borrow contract is false (String(\"x\") and Identifier(x) hash and borrow alike but differ); the partial theorems prove the other half."
  },
  {
   "property": "C37",
   "status": "proved",
   "theorems": [
    "C37_no_empty_labels",
    "C37_has_further_labels",
    "C37_no_empty_node"
   ],
   "note": ""
  },
  {
   "property": "C38",
   "status": "partial",
   "theorems": [
    "C38_integer_exact",
    "C38_accepts_refuted",
    "C38_accepts_partial"
   ],
   "note": "The second half is false of the code: literals above i64::MAX are rejected for u64, so are all 128-bit targets' larger values (C38_accepts_refuted). Exactness holds for all; acceptance is proved for literals in the i64 range. C86_integer_errors says exactly which error each literal gives."
  },
  {
   "property": "C39",
   "status": "proved",
   "theorems": [
    "C39_map_entries",
    "C39_map_succeeds",
    "C39_duplicate_attribute"
   ],
   "note": ""
  },
  {
   "property": "C40",
   "status": "partial",
   "theorems": [
    "C40_error_refuted",
    "C40_never_accepted_partial"
   ],
   "note": "False as stated: the code panics (assert). The partial theorem: such a body is never accepted. C88_body_first_problem states the exact outcome."
  },
  {
   "property": "C41",
   "status": "partial",
   "theorems": [
    "C41_no_panic_refuted",
    "C41_object_partial"
   ],
   "note": "False as stated: a quoted or expression key panics. The partial theorem gives the result for identifier-keyed objects exactly. C88_object_first_problem states the exact outcome for all objects."
  },
  {
   "property": "C42",
   "status": "proved",
   "theorems": [
    "C42_option",
    "C42_unit"
   ],
   "note": ""
  },
  {
   "property": "C43",
   "status": "proved",
   "theorems": [
    "C43_sequence",
    "C43_fixed_size",
    "C43_only_tuples"
   ],
   "note": ""
  },
  {
   "property": "C44",
   "status": "partial",
   "theorems": [
    "C44_borrowed_refuted",
    "C44_strings_partial",
    "C44_only_strings"
   ],
   "note": "False as stated: a quoted string is always Owned and never becomes &str. The partial theorems describe String targets."
  },
  {
   "property": "C45",
   "status": "partial",
   "theorems": [
    "C45_labels_refuted",
    "C45_document_refuted",
    "C45_unlabelled_partial"
   ],
   "note": "False as stated: any labelled block panics, for every target. The partial theorem covers unlabelled blocks."
  },
  {
   "property": "C46",
   "status": "proved",
   "theorems": [
    "C46_unmerged",
    "C46_source_order"
   ],
   "note": ""
  },
  {
   "property": "C47",
   "status": "partial",
   "theorems": [
    "C47_all_merged",
    "C47_all_merged_map",
    "C47_keys",
    "C47_block_labels",
    "C47_inside_table_refuted",
    "C47_tidy_partial"
   ],
   "note": "For values in which nothing was merged before (everything from_str(_, None) returns) the property is proved in full. For arbitrary values it is false: a map that is already a table is not looked into (C47_inside_table_refuted); C47_tidy_partial gives the exact invariant needed."
  },
  {
   "property": "C48",
   "status": "proved",
   "theorems": [
    "C48_value",
    "C48_map",
    "C48_deterministic"
   ],
   "note": ""
  },
  {
   "property": "C49",
   "status": "partial",
   "theorems": [
    "C49_from_str_refuted",
    "C49_duplicate_labels_refuted",
    "C49_last_block_wins_partial"
   ],
   "note": "False as stated: blocks with equal labels are silently overwritten, also end to end through from_str with MergeBehaviour::Error (C49_from_str_refuted). The partial theorem says what happens: the last block wins."
  },
  {
   "property": "C50",
   "status": "partial",
   "theorems": [
    "C50_scalars_lost_refuted",
    "C50_scalars_kept_partial",
    "C50_scalars_kept_map_partial"
   ],
   "note": "See the _refuted theorems for the sub-claims that are false; the others are proved for all values."
  },
  {
   "property": "C51",
   "status": "proved",
   "theorems": [
    "C51_idempotent",
    "C51_merged_map",
    "C51_merged_value"
   ],
   "note": ""
  },
  {
   "property": "C52",
   "status": "partial",
   "theorems": [
    "C52_reachable_refuted",
    "C52_null_refuted",
    "C52_len_partial",
    "C52_total_partial",
    "C52_total_map_partial"
   ],
   "note": "False as stated: every method panics on null, which from_str can return (C52_reachable_refuted). Proved total, with the right answers, on values without null; the exact outcome on every value is C100."
  },
  {
   "property": "C53",
   "status": "partial",
   "theorems": [
    "C53_not_implemented_refuted",
    "C53_error_partial",
    "C53_invalid"
   ],
   "note": "False as stated: TakeFirst and TakeLast panic (unimplemented!) on every document that parses. Proved for MergeBehaviour::Error and for None."
  },
  {
   "property": "C54",
   "status": "partial",
   "theorems": [
    "C54_borrow_contract_refuted",
    "C54_ambiguous_lookup_refuted",
    "C54_key_partial"
   ],
   "note": "The Borrow contract is false for Key; the partial theorem proves the other halves."
  },
  {
   "property": "C55",
   "status": "proved",
   "theorems": [
    "C55_unmerged",
    "C55_merged",
    "C55_index"
   ],
   "note": ""
  },
  {
   "property": "C56",
   "status": "proved",
   "theorems": [
    "C56_iterators",
    "C56_yields_unique",
    "C56_extend"
   ],
   "note": ""
  },
  {
   "property": "C57",
   "status": "proved",
   "theorems": [
    "C57_one_or_many"
   ],
   "note": ""
  },
  {
   "property": "C58",
   "status": "partial",
   "theorems": [
    "C58_take_till_match_first",
    "C58_take_till_match_error",
    "C58_safe_indices",
    "C58_safe_indices_increasing",
    "C58_loop",
    "C58_end_refuted",
    "C58_bytes_refuted",
    "C58_bytes_partial"
   ],
   "note": "On strings the macro's loop is proved to be the function used by the parsers and to find the earliest match; an error iff no match at any character. Refuted: the end of the input is not tried (strings), and on byte slices a failing search panics instead of returning an error (C58_bytes_refuted, C58_end_refuted)."
  },
  {
   "property": "C59",
   "status": "proved",
   "theorems": [
    "C59_codes",
    "C59_from_err_str",
    "C59_from_err_bytes",
    "C59_make_custom_err_str",
    "C59_make_custom_err_bytes",
    "C59_positions",
    "C59_bytes_str",
    "C59_causes"
   ],
   "note": ""
  },
  {
   "property": "C60",
   "status": "proved",
   "theorems": [
    "C60_reprint",
    "C60_reprint_canonical"
   ],
   "note": ""
  },
  {
   "property": "C61",
   "status": "proved",
   "theorems": [
    "C61_unambiguous",
    "C61_unambiguous_expression"
   ],
   "note": ""
  },
  {
   "property": "C62",
   "status": "proved",
   "theorems": [
    "C62_block_of_document",
    "C62_attribute_of_expression"
   ],
   "note": ""
  },
  {
   "property": "C63",
   "status": "partial",
   "theorems": [
    "C63_all_blocks_refuted",
    "C63_adjacent_partial",
    "C63_last_run_partial",
    "C63_surplus_blocks_refuted"
   ],
   "note": "False as stated: blocks of one type that are not adjacent overwrite each other, and newtype, tuple and struct targets drop surplus blocks (exactly: C95). Proved for adjacent blocks."
  },
  {
   "property": "C64",
   "status": "proved",
   "theorems": [
    "C64_struct"
   ],
   "note": ""
  },
  {
   "property": "C65",
   "status": "proved",
   "theorems": [
    "C65_no_panic",
    "C65_expression_no_panic",
    "C65_total",
    "C65_from_str"
   ],
   "note": ""
  },
  {
   "property": "C66",
   "status": "proved",
   "theorems": [
    "C66_any"
   ],
   "note": ""
  },
  {
   "property": "C67",
   "status": "proved",
   "theorems": [
    "C67_exact",
    "C67_exact_map",
    "C67_mergeable",
    "C67_result",
    "C67_result_map",
    "C67_closed_form",
    "C67_block_merge"
   ],
   "note": ""
  },
  {
   "property": "C68",
   "status": "proved",
   "theorems": [
    "C68_as_owned",
    "C68_as_owned_map",
    "C68_borrow_keys"
   ],
   "note": ""
  },
  {
   "property": "C69",
   "status": "proved",
   "theorems": [
    "C69_unmerge",
    "C69_unmerge_merge"
   ],
   "note": ""
  },
  {
   "property": "C70",
   "status": "proved",
   "theorems": [
    "C70_from_str_grammar",
    "C70_from_str_error",
    "C70_unambiguous"
   ],
   "note": ""
  },
  {
   "property": "C71",
   "status": "proved",
   "theorems": [
    "C71_agree",
    "C71_names",
    "C71_deterministic"
   ],
   "note": ""
  },
  {
   "property": "C72",
   "status": "proved",
   "theorems": [
    "C72_success",
    "C72_no_clobber",
    "C72_only_output"
   ],
   "note": ""
  },
  {
   "property": "C73",
   "status": "proved",
   "theorems": [
    "C73_exit_codes",
    "C73_accepts"
   ],
   "note": ""
  },
  {
   "property": "C74",
   "status": "proved",
   "theorems": [
    "C74_no_merge_weaker",
    "C74_repeated"
   ],
   "note": ""
  },
  {
   "property": "C75",
   "status": "proved",
   "theorems": [
    "C75_body_equality",
    "C75_expression_equality",
    "C75_symmetric",
    "C75_big_literal_differs_from_itself",
    "C75_not_transitive",
    "C75_reflexive_exactly",
    "C75_integers",
    "C75_as_owned",
    "C75_own_copy"
   ],
   "note": "Proved as stated. Two witnesses show what the condition is about: a parsed document that differs from itself, and three documents on which equality is not transitive."
  },
  {
   "property": "C76",
   "status": "proved",
   "theorems": [
    "C76_blocks_equality",
    "C76_symmetric",
    "C76_history",
    "C76_order_irrelevant",
    "C76_same_history",
    "C76_big_literal_differs_from_itself"
   ],
   "note": "Proved as stated, with the exact condition for an index to equal itself; C76_big_literal_differs_from_itself shows that the condition matters."
  },
  {
   "property": "C77",
   "status": "proved",
   "theorems": [
    "C77_value_equality",
    "C77_map_equality",
    "C77_reflexive",
    "C77_reflexive_map",
    "C77_as_owned",
    "C77_documents",
    "C77_unmerged_order",
    "C77_merged_order",
    "C77_merged_unmerged"
   ],
   "note": ""
  },
  {
   "property": "C78",
   "status": "proved",
   "theorems": [
    "C78_get_mut_iff_get",
    "C78_get_after_get_mut",
    "C78_get_mut_elsewhere",
    "C78_get_mut_above",
    "C78_get_mut_iteration",
    "C78_get_mut_count",
    "C78_blocks_get_mut_iff_get",
    "C78_blocks_get_mut",
    "C78_blocks_get_mut_iteration",
    "C78_flat_iter_mut",
    "C78_flat_iter_mut_shape",
    "C78_blocks_flat_iter_mut",
    "C78_iter_mut"
   ],
   "note": ""
  },
  {
   "property": "C79",
   "status": "proved",
   "theorems": [
    "C79_accessors",
    "C79_consuming",
    "C79_changing",
    "C79_one_kind",
    "C79_unwrap",
    "C79_unwrap_contents"
   ],
   "note": ""
  },
  {
   "property": "C80",
   "status": "proved",
   "theorems": [
    "C80_maps",
    "C80_new_list",
    "C80_new_map",
    "C80_new_single_map",
    "C80_new_block",
    "C80_blocks",
    "C80_from"
   ],
   "note": ""
  },
  {
   "property": "C81",
   "status": "partial",
   "theorems": [
    "C81_round_trip",
    "C81_classification",
    "C81_float_stays_float_refuted",
    "C81_nonfinite",
    "C81_zero"
   ],
   "note": "Refuted in part: whole-valued floats (1.0), infinities and NaN are classified as integers. The rest is proved for both formats; Rust's Display of floats is an explicit hypothesis (ShowsFinite)."
  },
  {
   "property": "C82",
   "status": "partial",
   "theorems": [
    "C82_variant_name",
    "C82_new_object",
    "C82_from_int",
    "C82_from",
    "C82_okey",
    "C82_label_number",
    "C82_okey_borrow_refuted",
    "C82_okey_equal_partial",
    "C82_elements",
    "C82_one_line"
   ],
   "note": "Refuted in part: object keys break the Borrow contract (an identifier and a computed key with the same text borrow alike but differ)."
  },
  {
   "property": "C83",
   "status": "proved",
   "theorems": [
    "C83_contents_function",
    "C83_iteration",
    "C83_nodes",
    "C83_get",
    "C83_per_type"
   ],
   "note": ""
  },
  {
   "property": "C84",
   "status": "proved",
   "theorems": [
    "C84_uniform"
   ],
   "note": ""
  },
  {
   "property": "C85",
   "status": "proved",
   "theorems": [
    "C85_new",
    "C85_keeps_all"
   ],
   "note": ""
  },
  {
   "property": "C86",
   "status": "proved",
   "theorems": [
    "C86_cause",
    "C86_parsed",
    "C86_integer_errors"
   ],
   "note": ""
  },
  {
   "property": "C87",
   "status": "proved",
   "theorems": [
    "C87_determined",
    "C87_object_calls",
    "C87_body_calls",
    "C87_answered",
    "C87_in_turn",
    "C87_in_turn_object",
    "C87_in_turn_body"
   ],
   "note": ""
  },
  {
   "property": "C88",
   "status": "proved",
   "theorems": [
    "C88_object_first_problem",
    "C88_object_cases",
    "C88_body_first_problem",
    "C88_sources_cases",
    "C88_struct_missing",
    "C88_sequence_first_problem"
   ],
   "note": ""
  },
  {
   "property": "C89",
   "status": "proved",
   "theorems": [
    "C89_parse_str_panics",
    "C89_expression_panics",
    "C89_parse_str_errors",
    "C89_parse_str_outcomes",
    "C89_expression_outcomes"
   ],
   "note": ""
  },
  {
   "property": "C90",
   "status": "proved",
   "theorems": [
    "C90_classes",
    "C90_document",
    "C90_meets",
    "C90_neither",
    "C90_from_str_panics"
   ],
   "note": ""
  },
  {
   "property": "C91",
   "status": "proved",
   "theorems": [
    "C91_nearest",
    "C91_parsed",
    "C91_unique",
    "C91_text_unique",
    "C91_value_numbers"
   ],
   "note": ""
  },
  {
   "property": "C92",
   "status": "proved",
   "theorems": [
    "C92_only_numbers",
    "C92_f64",
    "C92_f32",
    "C92_f32_rounds_twice",
    "C92_bytes"
   ],
   "note": "Proved as stated. C92_f32_rounds_twice: a text for which the result is not the nearest f32. The sign of an integer zero is lost."
  },
  {
   "property": "C93",
   "status": "proved",
   "theorems": [
    "C93_config_file",
    "C93_expression",
    "C93_parse_str",
    "C93_expression_parse",
    "C93_value_from_str",
    "C93_place_unique",
    "C93_place",
    "C93_outcomes",
    "C93_value_body",
    "C93_value_body_outcomes"
   ],
   "note": ""
  },
  {
   "property": "C94",
   "status": "proved",
   "theorems": [
    "C94_char_keys",
    "C94_borrowed_keys",
    "C94_key_errors"
   ],
   "note": ""
  },
  {
   "property": "C95",
   "status": "proved",
   "theorems": [
    "C95_newtype_expression",
    "C95_body_only_maps",
    "C95_document",
    "C95_newtype_blocks",
    "C95_tuple_blocks",
    "C95_struct_blocks",
    "C95_other_blocks"
   ],
   "note": ""
  },
  {
   "property": "C96",
   "status": "proved",
   "theorems": [
    "C96_exact",
    "C96_bounds",
    "C96_same_number"
   ],
   "note": ""
  },
  {
   "property": "C97",
   "status": "proved",
   "theorems": [
    "C97_exact"
   ],
   "note": ""
  },
  {
   "property": "C98",
   "status": "proved",
   "theorems": [
    "C98_append",
    "C98_config_file",
    "C98_panic_final",
    "C98_expression_panic_final",
    "C98_escape_final",
    "C98_expression_escape_final",
    "C98_documents"
   ],
   "note": ""
  },
  {
   "property": "C99",
   "status": "proved",
   "theorems": [
    "C99_concatenation",
    "C99_concatenation_merged",
    "C99_panic_final",
    "C99_escape_final"
   ],
   "note": ""
  },
  {
   "property": "C100",
   "status": "proved",
   "theorems": [
    "C100_len_scalar",
    "C100_len_scalar_map",
    "C100_len_scalar_panic",
    "C100_is_merged",
    "C100_is_unmerged",
    "C100_is_merged_map",
    "C100_is_unmerged_map",
    "C100_is_empty_scalar",
    "C100_is_empty_scalar_map",
    "C100_one_or_many",
    "C100_len",
    "C100_is_empty"
   ],
   "note": ""
  },
  {
   "property": "C101",
   "status": "proved",
   "theorems": [
    "C101_parse_str",
    "C101_unique",
    "C101_place",
    "C101_total",
    "C101_value_from_str",
    "C101_value_unique",
    "C101_value_place"
   ],
   "note": ""
  },
  {
   "property": "C102",
   "status": "proved",
   "theorems": [
    "C102_sound",
    "C102_complete",
    "C102_exact",
    "C102_ordered",
    "C102_one_meaning",
    "C102_order_free"
   ],
   "note": ""
  },
  {
   "property": "C103",
   "status": "proved",
   "theorems": [
    "C103_counted",
    "C103_parse_str",
    "C103_expression"
   ],
   "note": ""
  },
  {
   "property": "C104",
   "status": "proved",
   "theorems": [
    "C104_counted",
    "C104_accepted",
    "C104_doubling",
    "C104_no_bound",
    "C104_unclosed"
   ],
   "note": "A finding: value::from_str is exponential in the nesting depth on texts it rejects (C104_doubling, C104_unclosed, C104_no_bound)."
  },
  {
   "property": "C105",
   "status": "proved",
   "theorems": [
    "C105_counted",
    "C105_bounds",
    "C105_tower"
   ],
   "note": ""
  },
  {
   "property": "C106",
   "status": "proved",
   "theorems": [
    "C106_one",
    "C106_loop",
    "C106_survives"
   ],
   "note": ""
  },
  {
   "property": "C107",
   "status": "proved",
   "theorems": [
    "C107_error",
    "C107_names",
    "C107_serde",
    "C107_cli"
   ],
   "note": ""
  },
  {
   "property": "C108",
   "status": "proved",
   "theorems": [
    "C108_unknown",
    "C108_other_errors",
    "C108_rejected",
    "C108_says_why",
    "C108_conversions",
    "C108_default"
   ],
   "note": ""
  },
  {
   "property": "C109",
   "status": "proved",
   "theorems": [
    "C109_sound",
    "C109_complete",
    "C109_exact",
    "C109_ordered",
    "C109_field",
    "C109_not_reached",
    "C109_every_string"
   ],
   "note": ""
  },
  {
   "property": "C110",
   "status": "proved",
   "theorems": [
    "C110_exact",
    "C110_decided",
    "C110_order"
   ],
   "note": ""
  },
  {
   "property": "C111",
   "status": "proved",
   "theorems": [
    "C111_steps",
    "C111_panics",
    "C111_safe",
    "C111_impolite",
    "C111_types"
   ],
   "note": ""
  },
  {
   "property": "C112",
   "status": "proved",
   "theorems": [
    "C112_exact",
    "C112_alike"
   ],
   "note": ""
  },
  {
   "property": "C113",
   "status": "proved",
   "theorems": [
    "C113_ends",
    "C113_types",
    "C113_recursive_newtype"
   ],
   "note": ""
  },
  {
   "property": "C114",
   "status": "proved",
   "theorems": [
    "C114_values",
    "C114_merged",
    "C114_merge_errors",
    "C114_slice"
   ],
   "note": ""
  },
  {
   "property": "C115",
   "status": "proved",
   "theorems": [
    "C115_null",
    "C115_boolean",
    "C115_string_literal_content",
    "C115_string_literal",
    "C115_string",
    "C115_heredoc",
    "C115_heredoc_begin",
    "C115_heredoc_end",
    "C115_inline_comment",
    "C115_hash_comment",
    "C115_slash_comment",
    "C115_line_comment",
    "C115_inline_whitespace",
    "C115_whitespace",
    "C115_newline",
    "C115_inline_whitespace_all",
    "C115_whitespace_all"
   ],
   "note": ""
  },
  {
   "property": "C116",
   "status": "proved",
   "theorems": [
    "C116_expression",
    "C116_tuple",
    "C116_object",
    "C116_bracket_expression",
    "C116_object_element_identifier",
    "C116_object_element",
    "C116_object_separator",
    "C116_attribute",
    "C116_block_label",
    "C116_one_line_block",
    "C116_block",
    "C116_body_element",
    "C116_one_line_block_body",
    "C116_block_labels",
    "C116_object_body",
    "C116_body",
    "C116_object_begin",
    "C116_object_end",
    "C116_config_file"
   ],
   "note": ""
  },
  {
   "property": "C117",
   "status": "proved",
   "theorems": [
    "C117_expression",
    "C117_tuple",
    "C117_object",
    "C117_bracket_expression",
    "C117_object_element_identifier",
    "C117_object_element",
    "C117_object_body",
    "C117_attribute",
    "C117_one_line_block_body",
    "C117_block_label",
    "C117_block_labels",
    "C117_one_line_block",
    "C117_block",
    "C117_body_element",
    "C117_body",
    "C117_string",
    "C117_string_literal",
    "C117_string_literal_content",
    "C117_heredoc",
    "C117_tokens"
   ],
   "note": ""
  },
  {
   "property": "C118",
   "status": "proved",
   "theorems": [
    "C118_braces",
    "C118_no_braces",
    "C118_length",
    "C118_worst"
   ],
   "note": ""
  },
  {
   "property": "C119",
   "status": "proved",
   "theorems": [
    "C119_exact",
    "C119_minify",
    "C119_serde"
   ],
   "note": ""
  },
  {
   "property": "C120",
   "status": "proved",
   "theorems": [
    "C120_determines",
    "C120_determines_value",
    "C120_same_output"
   ],
   "note": ""
  },
  {
   "property": "C121",
   "status": "proved",
   "theorems": [
    "C121_exact",
    "C121_refill",
    "C121_minify"
   ],
   "note": ""
  },
  {
   "property": "C122",
   "status": "proved",
   "theorems": [
    "C122_exact",
    "C122_refill",
    "C122_trees",
    "C122_values"
   ],
   "note": ""
  },
  {
   "property": "C123",
   "status": "proved",
   "theorems": [
    "C123_expression",
    "C123_body"
   ],
   "note": ""
  },
  {
   "property": "C124",
   "status": "proved",
   "theorems": [
    "C124_value",
    "C124_entries",
    "C124_document",
    "C124_document_lines"
   ],
   "note": ""
  },
  {
   "property": "C125",
   "status": "proved",
   "theorems": [
    "C125_parse_str",
    "C125_same",
    "C125_value_from_str"
   ],
   "note": ""
  },
  {
   "property": "C126",
   "status": "proved",
   "theorems": [
    "C126_from_str",
    "C126_accepted",
    "C126_move_lines"
   ],
   "note": ""
  },
  {
   "property": "C127",
   "status": "proved",
   "theorems": [
    "C127_cut",
    "C127_whole_elements",
    "C127_lines",
    "C127_each",
    "C127_slice",
    "C127_expression"
   ],
   "note": ""
  },
  {
   "property": "C128",
   "status": "proved",
   "theorems": [
    "C128_cut",
    "C128_whole_entries",
    "C128_lines",
    "C128_each",
    "C128_merged",
    "C128_slice"
   ],
   "note": ""
  },
  {
   "property": "C129",
   "status": "proved",
   "theorems": [
    "C129_same_for",
    "C129_accepted",
    "C129_attribute",
    "C129_line",
    "C129_block",
    "C129_fields",
    "C129_new_field"
   ],
   "note": ""
  },
  {
   "property": "C130",
   "status": "proved",
   "theorems": [
    "C130_map",
    "C130_value",
    "C130_from_str",
    "C130_permutation",
    "C130_joined"
   ],
   "note": ""
  },
  {
   "property": "C131",
   "status": "proved",
   "theorems": [
    "C131_from_str",
    "C131_expression"
   ],
   "note": ""
  },
  {
   "property": "C132",
   "status": "proved",
   "theorems": [
    "C132_counted",
    "C132_expression",
    "C132_prefix",
    "C132_expression_least",
    "C132_parse_str_least"
   ],
   "note": ""
  }
 ]
}