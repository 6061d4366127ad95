{"claims":[
{"property": "C01", "status": "proved", "theorems": ["C01_literal_lossless", "C01_chomp_choice"], "note": ""},
{"property": "C02", "status": "proved", "theorems": ["C02_folded_lossless", "C02_long_word_refuted", "C02_double_space_refuted", "C02_leading_newline_refuted", "C02_indented_line_refuted"], "note": "lossless on foldable text; the refutations show each side condition is needed"},
{"property": "C03", "status": "proved", "theorems": ["C03_literal_chomping", "C03_folded_chomping"], "note": ""},
{"property": "C04", "status": "proved", "theorems": ["C04_single_quote_lossless", "C04_single_quote_parts_clean"], "note": ""},
{"property": "C05", "status": "proved", "theorems": ["C05_string_scalar_value"], "note": ""},
{"property": "C06", "status": "proved", "theorems": ["C06_unquoted_not_special", "C06_any_reads_string", "C06_null_words_refuted"], "note": "except for the words Null and NULL (C06_null_words_refuted)"},
{"property": "C07", "status": "proved", "theorems": ["C07_pretty_scalar_value", "C07_unfoldable_refuted"], "note": "under the foldability proviso; C07_unfoldable_refuted shows the proviso is needed"},
{"property": "C08", "status": "proved", "theorems": ["C08_pretty_view", "C08_pretty_document"], "note": ""},
{"property": "C09", "status": "proved", "theorems": ["C09_pretty_keeps_comments_and_aliases", "C09_pretty_document", "C09_pretty_keeps_places", "C09_pretty_document_places", "C09_block_in_inline_refuted"], "note": "refuted without the side condition"},
{"property": "C10", "status": "proved", "theorems": ["C10_pretty_idempotent", "C10_pretty_document_idempotent", "C10_pretty_idempotent_refuted"], "note": "false in general (refuted); proved for a class slightly larger than the one in the statement: only elements of sequences nested in sequences are restricted"},
{"property": "C100", "status": "proved", "theorems": ["C100_insert", "C100_remove", "C100_rename", "C100_nest"], "note": "Extends C96 from single positions to all paths that end in a key."},
{"property": "C11", "status": "proved", "theorems": ["C11_auto_inline_iff"], "note": ""},
{"property": "C12", "status": "proved", "theorems": ["C12_inline_stays_inline", "C12_inline_stays_inline_refuted"], "note": "false in general (refuted); proved under the stated side condition"},
{"property": "C13", "status": "proved", "theorems": ["C13_visit_order"], "note": ""},
{"property": "C14", "status": "proved", "theorems": ["C14_map_order", "C14_map_identity"], "note": ""},
{"property": "C15", "status": "proved", "theorems": ["C15_find_is_read_only"], "note": ""},
{"property": "C16", "status": "proved", "theorems": ["C16_zero_means_unchanged", "C16_movers_zero_means_unchanged"], "note": ""},
{"property": "C17", "status": "proved", "theorems": ["C17_only_appends", "C17_lookups_survive", "C17_scalars_survive"], "note": ""},
{"property": "C18", "status": "proved", "theorems": ["C18_find_spec", "C18_insert_count", "C18_insert_then_find"], "note": "lookup after insert for condition-free paths (a condition can be falsified by the insertion, see C18_condition_needed)"},
{"property": "C19", "status": "proved", "theorems": ["C19_overwrite_in_place", "C19_absent_is_appended", "C19_no_overwrite_keeps", "C19_edit_below_key"], "note": ""},
{"property": "C20", "status": "proved", "theorems": ["C20_remove_first", "C20_remove_absent", "C20_remove_below_key"], "note": ""},
{"property": "C21", "status": "proved", "theorems": ["C21_insert_remove_restores"], "note": ""},
{"property": "C22", "status": "proved", "theorems": ["C22_rename_only_keys", "C22_rename_count", "C22_rename_entry"], "note": ""},
{"property": "C23", "status": "proved", "theorems": ["C23_to_object_count", "C23_to_object_find"], "note": ""},
{"property": "C24", "status": "proved", "theorems": ["C24_conditions_exact", "C24_edits_filtered"], "note": ""},
{"property": "C25", "status": "proved", "theorems": ["C25_wildcard_finds_union", "C25_wildcard_edits", "C25_out_of_range"], "note": ""},
{"property": "C26", "status": "proved", "theorems": ["C26_inline_index_refuted", "C26_inline_index_finds_nothing"], "note": "the property as a user would expect it is false; refuted with a witness and a general theorem"},
{"property": "C27", "status": "proved", "theorems": ["C27_lookups_compose"], "note": "for paths whose root parts carry no conditions; counterexample beside the theorem"},
{"property": "C28", "status": "proved", "theorems": ["C28_document_edits", "C28_document_find"], "note": ""},
{"property": "C29", "status": "proved", "theorems": ["C29_move_conserves", "C29_move_new", "C29_move_into", "C29_move_nothing", "C29_move_at_key", "C29_move_below_key", "C29_scalar_subfield_refuted"], "note": "Proved when the subfield is absent or a mapping; C29_scalar_subfield_refuted is the witness otherwise."},
{"property": "C30", "status": "proved", "theorems": ["C30_move_map_conserves", "C30_move_map_at_key", "C30_move_map_below_key", "C30_existing_target_refuted"], "note": "Proved when the new map name is absent; C30_existing_target_refuted is the witness otherwise."},
{"property": "C31", "status": "proved", "theorems": ["C31_groups_sorted"], "note": ""},
{"property": "C32", "status": "proved", "theorems": ["C32_path_round_trip", "C32_root_round_trip", "C32_condition_then_index_refuted"], "note": "Paths where an index follows a condition are excluded by the grammar (C32_condition_then_index_refuted)."},
{"property": "C33", "status": "proved", "theorems": ["C33_plain_name", "C33_separator", "C33_separator_after_space_refuted"], "note": "Names with a separator: proved for names without spaces; C33_separator_after_space_refuted shows a leading space lets '.' into the key."},
{"property": "C34", "status": "proved", "theorems": ["C34_path_decides", "C34_empty_is_root", "C34_no_panic_refuted"], "note": "Totality, determinism and absence of stack panics proved; a huge index panics (C34_no_panic_refuted)."},
{"property": "C35", "status": "proved", "theorems": ["C35_format_parse", "C35_final_newline", "C35_format_injective", "C35_one_element_sequence_refuted", "C35_aliased_first_value_refuted", "C35_block_scalar_first_value_refuted", "C35_empty_collection_refuted", "C35_final_colon_refuted", "C35_alias_text_refuted", "C35_first_line_refuted", "C35_rejected_text_refuted"], "note": "The class is canon_doc in Spec_Format.v. The _refuted theorems are documents outside it whose text is parsed to another document or rejected."},
{"property": "C36", "status": "proved", "theorems": ["C36_parse_terminates", "C36_error_iff_rejected"], "note": "Termination of the grammar engine model with an explicit bound; the consumer is structurally recursive."},
{"property": "C37", "status": "proved", "theorems": ["C37_stack_safe", "C37_whole_text"], "note": ""},
{"property": "C38", "status": "proved", "theorems": ["C38_accepted_converts", "C38_zero_indent_refuted", "C38_less_indented_refuted", "C38_huge_indent_refuted"], "note": "A panic needs `|` or `>` in the text; three panic witnesses beside it."},
{"property": "C39", "status": "proved", "theorems": ["C39_parsed_keys_plain", "C39_plain_key_is_path"], "note": ""},
{"property": "C40", "status": "proved", "theorems": ["C40_parsed_inline", "C40_nonempty_refuted", "C40_leading_space_refuted"], "note": "The stronger claims (non-empty, no leading space) are refuted beside it."},
{"property": "C41", "status": "proved", "theorems": ["C41_deserialize_serialize", "C41_serializes", "C41_null_word_refuted", "C41_nested_option_refuted", "C41_wide_integer_refuted", "C41_data_variant_refuted", "C41_variant_confusion_refuted", "C41_map_key_refuted"], "note": "for faithful values; the five refutations show what is excluded"},
{"property": "C42", "status": "proved", "theorems": ["C42_deserialize_pretty_serialize", "C42_unfoldable_refuted"], "note": "under the foldability proviso of C07 on the serialized tree (long_ok)"},
{"property": "C43", "status": "proved", "theorems": ["C43_text_roundtrip", "C43_text_roundtrip_canonical", "C43_alias_text_refuted", "C43_space_text_refuted", "C43_empty_line_refuted", "C43_tab_line_refuted", "C43_reference_text_refuted", "C43_dash_text_refuted", "C43_final_colon_refuted", "C43_carriage_return_refuted", "C43_first_field_refuted", "C43_one_element_refuted", "C43_root_scalar_refuted", "C43_root_tuple_refuted", "C43_root_empty_refuted", "C43_dotted_key_refuted", "C43_negative_key_refuted", "C43_not_pretty_refuted"], "note": "The class is root_fits in Spec_Text.v (with has_ty and faithful of Spec_Serde.v). The _refuted theorems are values outside it that come back changed or not at all."},
{"property": "C44", "status": "proved", "theorems": ["C44_resolve_last", "C44_resolve_unknown", "C44_hash_registers", "C44_seq_registers", "C44_reference_is_value", "C44_unknown_is_error", "C44_forward_reference_refuted", "C44_chain_refuted"], "note": "forward references are accepted and chains are not followed (refutations)"},
{"property": "C45", "status": "proved", "theorems": ["C45_terminates_without_references", "C45_termination_refuted", "C45_cycles_do_not_terminate"], "note": "refuted with a parsed document; terminates without references"},
{"property": "C46", "status": "proved", "theorems": ["C46_integer_text", "C46_no_other_result", "C46_written_text"], "note": "128-bit types are unsupported (C41_wide_integer_refuted)"},
{"property": "C47", "status": "proved", "theorems": ["C47_parsed_shape", "C47_parsed_writable", "C47_parsed_places", "C47_root_starts_plain"], "note": ""},
{"property": "C48", "status": "proved", "theorems": ["C48_double_quoted", "C48_single_quoted", "C48_unquoted", "C48_literal", "C48_folded", "C48_line_break_refuted", "C48_quoted_indentation_refuted", "C48_escaped_break_refuted", "C48_leading_line_refuted", "C48_indented_lines_refuted", "C48_short_line_refuted", "C48_crlf_block_refuted", "C48_crlf_quoted_refuted"], "note": "Meaning of scalars in Spec_Scalar.v, following YAML 1.2 where the crate does; the _refuted theorems list the deviations."},
{"property": "C49", "status": "proved", "theorems": ["C49_parsed_stable", "C49_parsed_stable_newline", "C49_one_element_sequence_refuted", "C49_block_scalar_refuted", "C49_aliased_mapping_refuted", "C49_rejected_refuted"], "note": "The class is calm_doc in Spec_Stable.v; the _refuted theorems are accepted texts outside it."},
{"property": "C50", "status": "proved", "theorems": ["C50_entries_are_siblings", "C50_elements_are_siblings", "C50_missing_value_refuted", "C50_missing_element_refuted", "C50_outer_element_refuted", "C50_aliased_mapping_refuted"], "note": "One-line unquoted values. The _refuted theorems are texts whose lines are read as parent and child."},
{"property": "C51", "status": "proved", "theorems": ["C51_pretty_file", "C51_pretty_parses", "C51_pretty_canonical", "C51_comment_refuted", "C51_first_value_refuted", "C51_alias_text_refuted", "C51_dash_text_refuted", "C51_colon_text_refuted", "C51_rejected_refuted"], "note": "The class is calm_doc (Spec_Stable.v) with polish_doc (Spec_Polish.v); the _refuted theorems are calm documents outside polish_doc."},
{"property": "C52", "status": "proved", "theorems": ["C52_insert_file", "C52_insert_block_file", "C52_insert_found", "C52_rename_file", "C52_to_object_file", "C52_remove_file", "C52_insert_after_block_scalar_refuted", "C52_remove_nests_next_entry_refuted", "C52_remove_moves_comment_refuted", "C52_remove_before_block_scalar_refuted", "C52_to_object_moves_comment_refuted"], "note": "Classes: calm_doc (Spec_Stable.v) with firm_doc for insertion, no_inline_comment for to_object, no_comment with firm_doc and filled on the result for removal (Spec_Edit.v). The _refuted theorems are calm documents outside them."},
{"property": "C53", "status": "proved", "theorems": ["C53_typed_reader", "C53_reader_sees_the_rest", "C53_untyped_reader", "C53_pretty_typed", "C53_pretty_untyped", "C53_pretty_file", "C53_format_file", "C53_bool_word_refuted", "C53_null_word_refuted", "C53_null_word_file_refuted"], "note": "Both directions (the second for nodes without references, aliases and repeated keys). Refutations: pretty printing removes the quotes around 'yes' and 'Null', which a bool or an option then reads differently."},
{"property": "C54", "status": "proved", "theorems": ["C54_remove_file", "C54_subfield_file", "C54_subfield_root", "C54_map_file", "C54_group_name_unreadable_refuted", "C54_group_name_meaning_refuted", "C54_map_doubles_alias_refuted", "C54_subfield_before_block_scalar_refuted"], "note": "Class: calm documents without comments (Spec_Stable.v, Spec_Edit.v) whose result is firm; names_under (Spec_Rearrange.v) for grouping. The _refuted theorems are calm documents outside it."},
{"property": "C55", "status": "proved", "theorems": ["C55_reads_the_meaning", "C55_floats", "C55_typed", "C55_order", "C55_unknown_fields", "C55_file", "C55_extra_element_refuted", "C55_unit_refuted", "C55_yaml_numbers_refuted"], "note": "means (Spec_Typed.v) is the declarative meaning; nodes without references for the characterisation, any node for typing. The _refuted theorems show where data is ignored."},
{"property": "C56", "status": "proved", "theorems": ["C56_round_trip", "C56_pretty", "C56_text", "C56_bare", "C56_null_text_refuted", "C56_negative_zero_refuted", "C56_order_refuted", "C56_two_flattened_refuted", "C56_flattened_none_refuted", "C56_flattened_keys_refuted", "C56_collision_refuted", "C56_number_name_refuted", "C56_field_name_refuted", "C56_direct_refuted", "C56_direct_struct_refuted"], "note": "carried (Spec_Attr.v) states the conditions on type and value; serde's buffer readers are modelled from serde 1.0, not from the repository. The _refuted theorems show that the conditions are needed."},
{"property": "C57", "status": "proved", "theorems": ["C57_reads_the_meaning", "C57_data_only", "C57_pretty", "C57_pretty_file", "C57_format_file", "C57_pretty_refuted", "C57_first_variant", "C57_tag_anywhere", "C57_flattened_order_refuted", "C57_more_steps", "C57_terminates", "C57_terminates_refuted"], "note": "any_means (Spec_Attr.v) is the declarative meaning; nodes without references where stated. The bound on steps is shown to be no restriction."},
{"property": "C58", "status": "proved", "theorems": ["C58_crlf", "C58_same", "C58_format", "C58_empty_line_refuted", "C58_quoted_refuted", "C58_continuation_refuted"], "note": "blur_doc (Spec_Crlf.v) names what may differ; the _refuted theorems show each difference and the condition on escaped line breaks."},
{"property": "C59", "status": "proved", "theorems": ["C59_calls", "C59_nested", "C59_polynomial_refuted"], "note": "Work is the number of rule calls of a run (Spec_Time.v); the polynomial bound is refuted for accepted files."},
{"property": "C60", "status": "proved", "theorems": ["C60_pure", "C60_calls", "C60_values", "C60_document", "C60_call_per_insertion_refuted"], "note": "The closure is a function S -> value * S. C60_values has no conditions on the way, because an insertion can make a condition true or false."},
{"property": "C61", "status": "proved", "theorems": ["C61_layout", "C61_unambiguous", "C61_blank_after_scalar_refuted", "C61_comment_after_scalar_refuted", "C61_space_blank_comment_refuted"], "note": "layout (Spec_Layout.v) is a relation between documents and texts; the _refuted theorems show texts that break one condition of it."},
{"property": "C62", "status": "proved", "theorems": ["C62_insert", "C62_overwrite", "C62_remove", "C62_rename", "C62_nest", "C62_insert_lines", "C62_lines_kept", "C62_line_count", "C62_remove_lines_refuted"], "note": "times/patch (Spec_Local.v) describe texts only; the text of an inserted value is what format_aliased writes in that column. The _refuted theorem shows that removal does not keep lines."},
{"property": "C63", "status": "proved", "theorems": ["C63_reads_the_meaning", "C63_buffer", "C63_flattened", "C63_left", "C63_lost_refuted", "C63_one_meaning", "C63_file", "C63_unknown_refuted"], "note": "xmeans/bmeans/fmeans (Spec_Buffer.v) are written without the reader's functions. Flattened fields may have any type. C63_lost_refuted: an entry can vanish although a map is flattened last."},
{"property": "C64", "status": "proved", "theorems": ["C64_insert_again", "C64_overwrite_wins", "C64_insert_then_remove", "C64_overwrite_wins_refuted", "C64_remove_again", "C64_remove_again_refuted", "C64_removes_swap", "C64_insert_remove_swap", "C64_inserts_count", "C64_inserts_swap_refuted", "C64_rename_back", "C64_rename_back_refuted", "C64_documents"], "note": "Renaming back is for trees whose inline sequences hold no block collections (what text can express)."},
{"property": "C65", "status": "proved", "theorems": ["C65_written", "C65_fails", "C65_text_key_refuted"], "note": ""},
{"property": "C66", "status": "proved", "theorems": ["C66_visible", "C66_pretty", "C66_document", "C66_width", "C66_pretty_width", "C66_full", "C66_words_refuted"], "note": "The unconditional counterpart of C07 and C08."},
{"property": "C67", "status": "proved", "theorems": ["C67_path", "C67_error", "C67_panic", "C67_panic_cause"], "note": "Completes C32, which covers texts without spaces in the forward direction."},
{"property": "C68", "status": "proved", "theorems": ["C68_panics", "C68_converts"], "note": "The exact form of C38."},
{"property": "C69", "status": "proved", "theorems": ["C69_read", "C69_error", "C69_no_mapping", "C69_unique", "C69_headed"], "note": "Block collections are covered in one direction by C61."},
{"property": "C70", "status": "proved", "theorems": ["C70_sound", "C70_complete", "C70_sound_attributes", "C70_complete_attributes", "C70_sound_untyped", "C70_complete_untyped", "C70_one", "C70_replaced", "C70_exists", "C70_earlier", "C70_meaning", "C70_meaning_attributes", "C70_file", "C70_ignored_refuted", "C70_redefined_refuted", "C70_chain_refuted"], "note": "Types with attributes are those of Attr.v. The fuel bound (twice the depth) is only needed for the untyped parts, which C45 shows may not terminate."},
{"property": "C71", "status": "proved", "theorems": ["C71_accepted", "C71_letters", "C71_same_letters", "C71_block_letters_refuted", "C71_own_line_refuted", "C71_converse_refuted"], "note": "Soundness of the parser for whole files; C61 and C69 give the other direction for tidy texts and for inline collections."},
{"property": "C72", "status": "proved", "theorems": ["C72_same", "C72_errors", "C72_panics", "C72_more", "C72_agree_refuted"], "note": "The wrapping subtraction is the only arithmetic of the parser that differs between the profiles (Release.v)."},
{"property": "C73", "status": "proved", "theorems": ["C73_same", "C73_first", "C73_one", "C73_undefined", "C73_in_scope", "C73_unused", "C73_messages", "C73_says"], "note": "The texts of errors made by std and serde are not modelled, only which error it is."},
{"property": "C74", "status": "proved", "theorems": ["C74_exact", "C74_from_yaml", "C74_file", "C74_one"], "note": "Extends C55 and C70, which are about the tree with references replaced."},
{"property": "C75", "status": "proved", "theorems": ["C75_value", "C75_error", "C75_one_error", "C75_levels", "C75_endless", "C75_one", "C75_cycle", "C75_ends", "C75_acyclic", "C75_bound", "C75_redefined_refuted"], "note": "C75_redefined_refuted: with a redefined label a reference can come back and the reading still ends."},
{"property": "C76", "status": "proved", "theorems": ["C76_value", "C76_panic", "C76_safe", "C76_derived", "C76_lost_key_refuted"], "note": "C76_lost_key_refuted: a key without a value is dropped without an error."},
{"property": "C77", "status": "proved", "theorems": ["C77_value", "C77_error", "C77_panic", "C77_safe", "C77_sequence", "C77_sequence_panic", "C77_vec", "C77_tuple", "C77_map", "C77_struct", "C77_polite", "C77_after_end_refuted"], "note": "C77_after_end_refuted: after the last entry its value can still be asked for."},
{"property": "C78", "status": "proved", "theorems": ["C78_heading", "C78_only", "C78_split", "C78_comment_line", "C78_blank_refuted"], "note": "C78_blank_refuted: blank lines alone before --- are rejected, after a comment they are not."},
{"property": "C79", "status": "proved", "theorems": ["C79_reads", "C79_fails", "C79_roundtrip", "C79_text_roundtrip", "C79_again", "C79_written_keys", "C79_lost_refuted", "C79_file"], "note": "C79_lost_refuted: two different key texts of one number leave one entry, without an error."},
{"property": "C80", "status": "proved", "theorems": ["C80_told", "C80_fails", "C80_any_fails", "C80_endless", "C80_any_typed", "C80_null", "C80_any_typed_refuted", "C80_typed_any_refuted"], "note": "C80_any_typed_refuted: a reference to a reference is read by the untyped method only. C80_typed_any_refuted: a number in quotes is a number for the typed method only."},
{"property": "C81", "status": "proved", "theorems": ["C81_derived", "C81_reads", "C81_no_panic", "C81_names", "C81_scalars", "C81_inner", "C81_variant_loops"], "note": ""},
{"property": "C82", "status": "proved", "theorems": ["C82_append", "C82_cut", "C82_hand_maps", "C82_hand_seqs", "C82_half_refuted"], "note": "C82_half_refuted: a cut elsewhere is not noticed either; a number that is half written is read as another number."},
{"property": "C83", "status": "proved", "theorems": ["C83_yaml", "C83_reserved_refuted", "C83_taken_refuted", "C83_marker_refuted", "C83_named_reference_refuted"], "note": "The productions of YAML are in Spec_Yaml12.v, with their numbers; they are special cases of those of the specification. C83_reserved_refuted, C83_taken_refuted: the serializer writes texts without quotes that YAML rejects (\"@home\"), or takes for a reference (\"*b\"), a named value (\"&b c\") or a key (\"a:\"). C83_marker_refuted: a key that starts with \"--- \" is written as a document marker. C83_named_reference_refuted: a reference with a name of its own is not YAML."},
{"property": "C84", "status": "proved", "theorems": ["C84_one", "C84_same", "C84_only_yaml", "C84_only_rust", "C84_too_long", "C84_written", "C84_text", "C84_text_refuted", "C84_infinity_refuted"], "note": "C84_text_refuted: the strings \"Null\", \"True\", \"0x1F\" and \".nan\" are serialized without quotes and are not text for YAML. C84_infinity_refuted: infinity and NaN are serialized as inf and NaN, which are text for YAML."},
{"property": "C85", "status": "proved", "theorems": ["C85_read", "C85_one", "C85_texts", "C85_quoted", "C85_read_refuted"], "note": "C85_read_refuted: the text \"Null\" is read by YAML as nothing."},
{"property": "C86", "status": "proved", "theorems": ["C86_both", "C86_name_at_dash_refuted", "C86_scalar_at_dash_refuted", "C86_digit_at_dash_refuted"], "note": "Refuted without the restrictions: '- &a k: 1' (name of the mapping or of the key); '- a: |' with lines and a next entry 'b: 1' (read as a line of the scalar, without its first characters); '- a: |2' (counted from the dash or from the key)."},
{"property": "C87", "status": "proved", "theorems": ["C87_pretty", "C87_meaning", "C87_export", "C87_null_refuted", "C87_comma_refuted", "C87_comment_refuted"], "note": "Refuted without the conditions: 'Null' loses its quotes and is null; '- - a, b' becomes a sequence of two; a double quoted text with an escape takes the comment on its line into the block scalar."},
{"property": "C88", "status": "proved", "theorems": ["C88_node", "C88_one", "C88_tag", "C88_name_refuted", "C88_flat_refuted"], "note": "Refuted: the names of variants with data are kept by plain enums (two values, one node); a struct that can be written can still be written after one of its fields is flattened."},
{"property": "C89", "status": "proved", "theorems": ["C89_read", "C89_order_refuted", "C89_tab_refuted"], "note": "C89_order_refuted: the same characters in another order are an error. C89_tab_refuted: a tab is no indentation."},
{"property": "C90", "status": "proved", "theorems": ["C90_one", "C90_written", "C90_apart", "C90_common", "C90_export", "C90_pretty_export", "C90_shared", "C90_pretty", "C90_misread_refuted"], "note": "C90_misread_refuted: for a file outside of the common layout, the crate reads data that YAML does not find in it."},
{"property": "C91", "status": "proved", "theorems": ["C91_insert", "C91_rename", "C91_nest", "C91_remove", "C91_every", "C91_comment_refuted"], "note": "C91_comment_refuted: overwriting a value before a comment on its line with a literal makes the comment part of the text. Keys that are repeated and references without a target are not excluded by the grammar."},
{"property": "C92", "status": "proved", "theorems": ["C92_kept", "C92_insert", "C92_rename", "C92_nest", "C92_remove", "C92_pretty"], "note": "Combines C86 and C91: every file in the common layout is read as a document that can be written as YAML, without empty block mappings."},
{"property": "C93", "status": "proved", "theorems": ["C93_insert", "C93_remove", "C93_rename", "C93_nest", "C93_insert_found", "C93_remove_found", "C93_rename_found", "C93_nest_found", "C93_inline_refuted"], "note": "Names the place that C91 leaves open; C93_inline_refuted records that entries of inline mappings are not found."},
{"property": "C94", "status": "proved", "theorems": ["C94_one", "C94_there", "C94_found", "C94_file", "C94_file_found", "C94_inline_refuted"], "note": "C94_inline_refuted records that values inside inline collections are not found (see C26)."},
{"property": "C95", "status": "proved", "theorems": ["C95_gather", "C95_strings", "C95_file"], "note": "Extends C94 to conditions and wildcards, as an equation."},
{"property": "C96", "status": "proved", "theorems": ["C96_insert", "C96_remove", "C96_rename", "C96_nest", "C96_file"], "note": "Names all places that C91 leaves open, as a function on the data of YAML."},
{"property": "C97", "status": "proved", "theorems": ["C97_move"], "note": "C29 in terms of the data of YAML; with C96_file also from the text that was read."},
{"property": "C98", "status": "proved", "theorems": ["C98_select", "C98_file"], "note": "Extends C95 from single positions to all paths."},
{"property": "C99", "status": "proved", "theorems": ["C99_move", "C99_file"], "note": "Extends C97 from the top of the file to paths of keys, and to files that are read."}
]}
