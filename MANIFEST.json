{"claims": [
 {"property": "C01", "status": "proved", "theorems": ["C01_literal_exact"], "note": ""},
 {"property": "C02", "status": "proved", "theorems": ["C02_prelude_exact"], "note": ""},
 {"property": "C03", "status": "proved", "theorems": ["C03_int_range_exact"], "note": ""},
 {"property": "C04", "status": "proved", "theorems": ["C04_float_range_exact", "C04_range_kinds_structural", "C04_range_not_numbers"], "note": ""},
 {"property": "C05", "status": "proved", "theorems": ["C05_comparison_exact", "C05_bad_limit_structural", "C05_bad_target_structural"], "note": ""},
 {"property": "C06", "status": "proved", "theorems": ["C06_size_uint_exact", "C06_size_uint_range_exact", "C06_size_uint_point_range", "C06_size_empty_range_rejects", "C06_size_limit_structural", "C06_size_range_limit_structural", "C06_size_argument_structural", "C06_size_target_structural"], "note": ""},
 {"property": "C07", "status": "proved", "theorems": ["C07_size_string_exact", "C07_size_string_range_exact"], "note": ""},
 {"property": "C08", "status": "proved", "theorems": ["C08_regexp_exact", "C08_cbor_exact"], "note": ""},
 {"property": "C09", "status": "proved", "theorems": ["C09_choice_iff", "C09_first_wins"], "note": ""},
 {"property": "C10", "status": "proved", "theorems": ["C10_fatal_option_wins", "C10_fatal_error_wins"], "note": ""},
 {"property": "C11", "status": "proved", "theorems": ["C11_rule_is_definition_type", "C11_rule_is_definition_array", "C11_rule_is_definition_map", "C11_acyclic_within_limit", "C11_anywhere", "C11_refuted_size_range", "C11_refuted_inline_choice"], "note": "C11_anywhere: definitions written in place anywhere in the schema and the rules, within the recursion limit; the positions where the program distinguishes a name from its definition (range end under .size, items of &()) are excluded by the relation `inl` and refuted (C11_refuted_*)."},
 {"property": "C12", "status": "proved", "theorems": ["C12_missing_rule_reported", "C12_reported_name_is_missing"], "note": ""},
 {"property": "C13", "status": "proved", "theorems": ["C13_wrong_arity_reported", "C13_generic_start_rejected"], "note": ""},
 {"property": "C14", "status": "partial", "theorems": ["C14_macro_expansion_partial", "C14_checked_partial", "C14_refuted_unwrap", "C14_refuted_size_range", "C14_refuted_inline_choice"], "note": "Proved: on the class `expandable` and within the recursion limit, validation has the verdict of macro expansion. The class excludes parameters as operands of ~ or &, as members of &(), and as ends of a range that limits a size; everything else, including ends of other ranges and sizes themselves, is covered. C14_checked_partial: the class is checked by a procedure. Missing: the excluded uses, for which the claim is refuted (C14_refuted_*)."},
 {"property": "C15", "status": "proved", "theorems": ["C15_terminates"], "note": ""},
 {"property": "C16", "status": "proved", "theorems": ["C16_cycle_reported"], "note": ""},
 {"property": "C17", "status": "partial", "theorems": ["C17_refuted", "C17_plain_partial", "C17_any_partial", "C17_accounted_partial"], "note": "The full claim is false: C17_refuted exhibits K+1 generic rules that nest 2^K calls, because looking up a generic parameter restores the caller's depth. Proved: the linear bound for schemas without generic parameters (C17_plain_partial), a power bound for every schema (C17_any_partial), and that the chains of calls counted are all the calls the validator makes (C17_accounted_partial)."},
 {"property": "C18", "status": "partial", "theorems": ["C18_refuted", "C18_array_partial", "C18_map_partial", "C18_array_consumes_partial", "C18_map_consumes_partial"], "note": "The full claim is false: C18_refuted shows an occurrence over a member that consumes nothing iterates as often as its upper limit allows. C18_array_partial and C18_map_partial bound the calls by elements (entries) plus one for every member of the classes eats_a / eats_m, which are defined on the schema only; the consumes theorems show that these members always use something up. A bound on the total work, under the same condition on repeated members, is C77."},
 {"property": "C19", "status": "proved", "theorems": ["C19_one_call_never_panics", "C19_never_panics"], "note": ""},
 {"property": "C20", "status": "proved", "theorems": ["C20_one_call", "C20_cut_never_escapes", "C20_cut_never_escapes_api"], "note": ""},
 {"property": "C21", "status": "proved", "theorems": ["C21_fixed_array_exact", "C21_first_error_reported", "C21_too_short", "C21_too_long", "C21_not_an_array"], "note": ""},
 {"property": "C22", "status": "proved", "theorems": ["C22_homogeneous_array_exact", "C22_prefix_array_exact", "C22_limits"], "note": ""},
 {"property": "C23", "status": "partial", "theorems": ["C23_refuted", "C23_array_bounds_partial", "C23_map_bounds_partial", "C23_too_few_rejected_partial"], "note": "The full claim is false for an upper limit of 0 (C23_refuted: *0 int still consumes one element). The partial theorems give the exact bounds that hold for every limit."},
 {"property": "C24", "status": "proved", "theorems": ["C24_struct_map_exact", "C24_not_a_map"], "note": ""},
 {"property": "C25", "status": "proved", "theorems": ["C25_table_map_exact"], "note": ""},
 {"property": "C26", "status": "proved", "theorems": ["C26_key_found", "C26_cut_is_final", "C26_group_stops_cut", "C26_extensible_map_exact"], "note": ""},
 {"property": "C27", "status": "proved", "theorems": ["C27_array_consumed", "C27_map_consumed"], "note": ""},
 {"property": "C28", "status": "partial", "theorems": ["C28_alternatives_array_partial", "C28_alternatives_map_partial", "C28_refuted", "C28_unwrap_refuted", "C28_occurrence_refuted", "C28_map_refuted", "C28_flat_group_array_partial", "C28_flat_group_map_partial", "C28_group_loss_array_partial", "C28_member_loss_array_partial", "C28_group_loss_map_partial", "C28_member_loss_map_partial"], "note": "The full claim is false (C28_refuted, C28_unwrap_refuted, C28_occurrence_refuted, C28_map_refuted): nested groups, unwraps and short occurrences leave consumed data behind. Proved: flat groups that fail restore everything (C28_flat_group_*_partial); with a choice among alternatives of the class `steady` (groups without groups inside, single elements or entries, names, nested choices, occurrences with lower limit at most 1, unwraps of one member) the verdict is the one with an alternative written in place of the choice (C28_alternatives_*_partial); for every group and member, a failure leaves the data in order and unchanged except for elements that were accepted by a parenthesised group inside it, or by the member itself when it is not a group (C28_group_loss_*_partial, C28_member_loss_*_partial). C66 gives the exact account of what is left behind, for every schema."},
 {"property": "C29", "status": "partial", "theorems": ["C29_soundness_partial", "C29_ordered_choice_sound", "C29_refuted", "C29_checked_partial"], "note": "Proved on the class `tame` (alternatives of choices and bodies of occurrences restore what they took; no upper limit 0), decidable by tame_b (C29_checked_partial). Missing: schemas outside the class, where the claim is refuted (C29_refuted). The declarative reading respects cuts. The ordered-choice reading is sound for every schema (C29_ordered_choice_sound)."},
 {"property": "C30", "status": "partial", "theorems": ["C30_ordered_choice_partial", "C30_reading_deterministic", "C30_refuted", "C30_checked_partial"], "note": "Proved on the class `tame`, decidable by tame_b (C30_checked_partial): the verdict, including every kind of schema error, is exactly the one of the ordered-choice relation peg, which is deterministic. Missing: schemas outside the class, where the claim is refuted (C30_refuted). C66 gives the exact account for every schema, inside and outside the class."},
 {"property": "C31", "status": "partial", "theorems": ["C31_refuted", "C31_key_errors_are_mismatches_partial"], "note": "The full claim is false (C31_refuted): fatal errors raised while testing keys are turned into mismatches. C31_key_errors_are_mismatches_partial says what is reported instead."},
 {"property": "C32", "status": "proved", "theorems": ["C32_unreachable_irrelevant"], "note": ""},
 {"property": "C33", "status": "proved", "theorems": ["C33_conversion_exact", "C33_untagged_converts", "C33_tag_rejected", "C33_entry_order_irrelevant", "C33_last_duplicate_wins"], "note": ""},
 {"property": "C34", "status": "proved", "theorems": ["C34_conversion_exact", "C34_validation"], "note": ""},
 {"property": "C35", "status": "proved", "theorems": ["C35_one_call_agree", "C35_json_cbor_agree", "C35_corresponding_cbor_exists"], "note": ""},
 {"property": "C36", "status": "proved", "theorems": ["C36_parse_error_first", "C36_unsupported_second", "C36_missing_rule_third", "C36_bad_data_fourth", "C36_validated_last", "C36_cbor_success", "C36_json_success"], "note": ""},
 {"property": "C37", "status": "proved", "theorems": ["C37_prelude_name_meaning", "C37_redefinition_ineffective"], "note": ""},
 {"property": "C38", "status": "proved", "theorems": ["C38_success", "C38_last_definition_wins", "C38_rule_order_irrelevant", "C38_first_error_reported"], "note": ""},
 {"property": "C39", "status": "proved", "theorems": ["C39_flatten_from_str", "C39_slice_flatten", "C39_same_rules", "C39_same_success", "C39_same_errors"], "note": ""},
 {"property": "C40", "status": "proved", "theorems": ["C40_supported_exact", "C40_errors"], "note": ""},
 {"property": "C41", "status": "proved", "theorems": ["C41_conversion_exact", "C41_members_in_order", "C41_member"], "note": ""},
 {"property": "C42", "status": "proved", "theorems": ["C42_parse_total", "C42_slice_parse_total"], "note": ""},
 {"property": "C43", "status": "proved", "theorems": ["C43_input_covered", "C43_parse_covered"], "note": ""},
 {"property": "C44", "status": "proved", "theorems": ["C44_uint", "C44_nint", "C44_uint_too_large", "C44_nint_too_large"], "note": ""},
 {"property": "C45", "status": "proved", "theorems": ["C45_text", "C45_text_plain", "C45_bytes", "C45_hex", "C45_hex_malformed", "C45_base64"], "note": ""},
 {"property": "C46", "status": "partial", "theorems": ["C46_partial", "C46_refuted_above", "C46_refuted"], "note": "The full claim is false: the code's upper bound is 10FFD instead of 10FFFD, so no character above U+10FFD is accepted (C46_refuted, C46_refuted_above). C46_partial proves the claim for all other characters."},
 {"property": "C47", "status": "proved", "theorems": ["C47_rule_name", "C47_reference"], "note": ""},
 {"property": "C48", "status": "proved", "theorems": ["C48_one_call", "C48_longest_run", "C48_layout", "C48_layout_error", "C48_leading"], "note": ""},
 {"property": "C49", "status": "proved", "theorems": ["C49_print_parse", "C49_any_layout", "C49_unambiguous", "C49_canonical", "C49_accepted"], "note": ""},
 {"property": "C50", "status": "proved", "theorems": ["C50_parse_sound"], "note": ""},
 {"property": "C51", "status": "proved", "theorems": ["C51_total_order", "C51_lookup_exact", "C51_map_extensional", "C51_insert_remove", "C51_order_exact", "C51_sorted", "C51_first_entry"], "note": ""},
 {"property": "C52", "status": "proved", "theorems": ["C52_symbol_parses"], "note": ""},
 {"property": "C53", "status": "proved", "theorems": ["C53_shape"], "note": ""},
 {"property": "C54", "status": "proved", "theorems": ["C54_group_in_array", "C54_group_in_map", "C54_unwrap_in_array", "C54_unwrap_in_map", "C54_nested_refuted", "C54_alias_refuted"], "note": "For members of arrays and maps. Inside alternatives of group choices the claim is refuted (C54_nested_refuted)."},
 {"property": "C55", "status": "proved", "theorems": ["C55_accepted_is_offered", "C55_exact", "C55_inline_exact"], "note": ""},
 {"property": "C56", "status": "proved", "theorems": ["C56_spelling_array", "C56_spelling_map", "C56_shorthands", "C56_copies_in_array", "C56_copies_in_map", "C56_copies_array_member", "C56_copies_map_member"], "note": ""},
 {"property": "C57", "status": "proved", "theorems": ["C57_nested_type", "C57_nested_array", "C57_nested_map", "C57_single", "C57_more_options", "C57_reordered", "C57_order_matters_in_groups"], "note": ""},
 {"property": "C58", "status": "proved", "theorems": ["C58_json_exact", "C58_cbor_exact", "C58_ordered_choice", "C58_same_verdict"], "note": ""},
 {"property": "C59", "status": "partial", "theorems": ["C59_exact_partial", "C59_mismatch_justified_partial", "C59_checked_partial", "C59_greedy_array_refuted", "C59_greedy_map_refuted", "C59_empty_alternative_refuted"], "note": "Proved on the class `orderly` (tame, and alternatives, repetitions and successive members are told apart by one element or key), for which orderly_b decides a large part given the list of names and roles (C59_checked_partial). Missing: schemas outside the class, where completeness is refuted (C59_greedy_array_refuted, C59_greedy_map_refuted, C59_empty_alternative_refuted)."},
 {"property": "C60", "status": "proved", "theorems": ["C60_error_has_defect", "C60_no_defect_no_error", "C60_checked", "C60_acyclic", "C60_decides"], "note": ""},
 {"property": "C61", "status": "proved", "theorems": ["C61_exact", "C61_unique", "C61_in_grammar", "C61_error"], "note": ""},
 {"property": "C62", "status": "proved", "theorems": ["C62_parse_joined", "C62_flatten_joined", "C62_same_verdict", "C62_replaced"], "note": ""},
 {"property": "C63", "status": "proved", "theorems": ["C63_errors", "C63_literal", "C63_context"], "note": ""},
 {"property": "C64", "status": "proved", "theorems": ["C64_contexts", "C64_flatten", "C64_json", "C64_cbor", "C64_accepts", "C64_parameters"], "note": ""},
 {"property": "C65", "status": "proved", "theorems": ["C65_mismatch_explained", "C65_json", "C65_cbor"], "note": ""},
 {"property": "C66", "status": "proved", "theorems": ["C66_exact", "C66_answered", "C66_deterministic", "C66_array_member", "C66_map_member", "C66_json", "C66_cbor", "C66_tame"], "note": ""},
 {"property": "C67", "status": "partial", "theorems": ["C67_described", "C67_widening_partial", "C67_checked_partial", "C67_greedy_refuted", "C67_cut_refuted"], "note": "C67_described holds for all schemas. For verdicts (C67_widening_partial, C67_checked_partial) the old schema must be `tame` and the new one `orderly`; the procedures tame_b, orderly_b, wider_b and rules_b check the conditions. Missing: new schemas outside the class, where the claim is refuted (C67_greedy_refuted); C67_cut_refuted shows that a new entry before a wildcard must not claim a key."},
 {"property": "C68", "status": "proved", "theorems": ["C68_reading_exact", "C68_json", "C68_cbor", "C68_accepted_described"], "note": ""},
 {"property": "C69", "status": "proved", "theorems": ["C69_error_exact", "C69_supported_or_fault", "C69_rest_irrelevant", "C69_text", "C69_text_converse"], "note": ""},
 {"property": "C70", "status": "proved", "theorems": ["C70_exact", "C70_rule", "C70_one_judgement", "C70_whatever_value"], "note": ""},
 {"property": "C71", "status": "proved", "theorems": ["C71_error_exact", "C71_json", "C71_cbor", "C71_choice_message"], "note": ""},
 {"property": "C72", "status": "proved", "theorems": ["C72_errors_from_schema", "C72_mismatch", "C72_json", "C72_cbor"], "note": ""},
 {"property": "C73", "status": "proved", "theorems": ["C73_same_value", "C73_same_value_json", "C73_cbor", "C73_json", "C73_cbor_bytes", "C73_json_str"], "note": ""},
 {"property": "C74", "status": "proved", "theorems": ["C74_printed_exact", "C74_printed_injective", "C74_printed_from_schema"], "note": ""},
 {"property": "C75", "status": "proved", "theorems": ["C75_names_exact", "C75_names_total", "C75_names_unique", "C75_scopes_proper"], "note": ""},
 {"property": "C76", "status": "proved", "theorems": ["C76_interchangeable", "C76_interchangeable_names", "C76_int", "C76_bool", "C76_equivalence", "C76_needs_new_rules", "C76_needs_uninspected"], "note": ""},
 {"property": "C77", "status": "proved", "theorems": ["C77_defined", "C77_bound", "C77_polynomial", "C77_polynomial_generic", "C77_doubling"], "note": "The cost counts the questions of SpecActs.v (C66 proves that description exact); following the names of a range or a control is not counted, C17 bounds it. Members repeated without using anything up are excluded unless repeated at most B times: C18_refuted shows why."},
 {"property": "C78", "status": "proved", "theorems": ["C78_spellings", "C78_anywhere", "C78_texts", "C78_flawless", "C78_sizes_differ", "C78_order_needs_flawless"], "note": ""},
 {"property": "C79", "status": "proved", "theorems": ["C79_counted", "C79_depth", "C79_nesting", "C79_brackets", "C79_doubling", "C79_no_polynomial", "C79_alternatives"], "note": ""},
 {"property": "C80", "status": "proved", "theorems": ["C80_reported", "C80_hidden", "C80_hidden_literal", "C80_reported_literal"], "note": ""},
 {"property": "C81", "status": "proved", "theorems": ["C81_type", "C81_map", "C81_array"], "note": ""}
]}
