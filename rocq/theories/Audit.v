(** Generated by tools/gen_manifest.py: what every theorem of MANIFEST.json rests on. *)
From Verif Require ArrayProps CallProps CodecProps DStringProps DictProps DigestProps EventProps FmtProps FnProps GlobProps HashProps HofProps JsonProps LexProps LimitProps ListProps MiscProps NfaProps NumProps NumProps2 ObjProps OpsProps OptProofs2 OptProofs3 OptProofs4 OptProofs5 OptProps PatProps RefProps RxProps SafeProps StackProps StrProps TreeProps UtfProps ValProps VmProofs9 VmProps XxteaProps.
Print Assumptions TreeProps.tree_is_map.
Print Assumptions TreeProps.object_properties_are_a_map.
Print Assumptions TreeProps.tree_delete_reports_presence.
Print Assumptions TreeProps.struct_tree_delete_loses_keys_refuted.
Print Assumptions TreeProps.tree_walk_inorder_ascending_and_complete.
Print Assumptions TreeProps.tree_walks_agree.
Print Assumptions TreeProps.tree_search_lists_all_in_order.
Print Assumptions TreeProps.tree_search_postorder.
Print Assumptions TreeProps.tree_search_levelorder_small.
Print Assumptions TreeProps.tree_search_levelorder_large_refuted.
Print Assumptions TreeProps.tree_search_preorder_diverges_refuted.
Print Assumptions TreeProps.tree_height_logarithmic.
Print Assumptions HashProps.hash_is_map.
Print Assumptions HashProps.hash_never_fails.
Print Assumptions HashProps.hash_unset_reports_presence.
Print Assumptions HashProps.stringkey_hash_loses_keys_refuted.
Print Assumptions HashProps.stringkey_hash_delete_crashes_refuted.
Print Assumptions HashProps.hash_clear_keeps_size_refuted.
Print Assumptions HashProps.hash_walk_visits_each_once.
Print Assumptions HashProps.hash_walk_deleting_other_entry_crashes_refuted.
Print Assumptions TreeProps.oneword_keys_distinct.
Print Assumptions TreeProps.oneword_tree_is_map.
Print Assumptions TreeProps.oneword_keys_collide_refuted.
Print Assumptions TreeProps.oneword_order_cyclic_refuted.
Print Assumptions DStringProps.ds_history_content.
Print Assumptions DStringProps.ds_is_concatenation.
Print Assumptions DStringProps.ds_freedup_returns_content.
Print Assumptions DStringProps.ds_value_is_c_string.
Print Assumptions DStringProps.ds_printf_appends.
Print Assumptions DStringProps.ds_printf_long_text_lost_refuted.
Print Assumptions DStringProps.ds_printf_roomy_lost_refuted.
Print Assumptions DStringProps.ds_printf_roomy_reachable.
Print Assumptions DStringProps.ds_reserve_not_terminated_refuted.
Print Assumptions UtfProps.utf_encode_is_utf8.
Print Assumptions UtfProps.utf_decode_encode.
Print Assumptions UtfProps.utf_decode_sequence.
Print Assumptions UtfProps.string_length_counts_characters.
Print Assumptions UtfProps.string_offset_of_index.
Print Assumptions UtfProps.string_char_code_at.
Print Assumptions UtfProps.string_subscript_selects_character.
Print Assumptions UtfProps.string_substr_to_end.
Print Assumptions UtfProps.string_char_at.
Print Assumptions UtfProps.string_substr.
Print Assumptions UtfProps.string_char_at_refuted.
Print Assumptions UtfProps.string_substr_refuted.
Print Assumptions UtfProps.empty_substr_negative_diverges_refuted.
Print Assumptions JsonProps.quoted_is_one_token.
Print Assumptions JsonProps.stringify_string_is_quote.
Print Assumptions JsonProps.quote_parse_roundtrip.
Print Assumptions JsonProps.quote_parse_roundtrip_refuted.
Print Assumptions JsonProps.slash_escape_refuted.
Print Assumptions JsonProps.quoted_is_printable_ascii.
Print Assumptions JsonProps.stringify_parse_roundtrip.
Print Assumptions JsonProps.stringify_parse_roundtrip_17.
Print Assumptions JsonProps.too_deep_refused.
Print Assumptions JsonProps.quote_in_key_refuted.
Print Assumptions JsonProps.backslash_in_key_refuted.
Print Assumptions JsonProps.undefined_field_comma_refuted.
Print Assumptions JsonProps.repeated_fields_last_wins.
Print Assumptions JsonProps.json_number_refuted.
Print Assumptions JsonProps.tokenizer_total_well_nested.
Print Assumptions JsonProps.tokenizer_error_in_input.
Print Assumptions CodecProps.base64_encode_is_rfc4648.
Print Assumptions CodecProps.base64_alphabet.
Print Assumptions CodecProps.base64_length.
Print Assumptions CodecProps.base64_roundtrip.
Print Assumptions CodecProps.base64_decode_tolerant.
Print Assumptions CodecProps.base64_decode_total.
Print Assumptions CodecProps.uri_component_roundtrip.
Print Assumptions CodecProps.uri_roundtrip.
Print Assumptions CodecProps.uri_component_has_no_separators.
Print Assumptions CodecProps.url_encode_fits.
Print Assumptions CodecProps.url_decode_fits.
Print Assumptions CodecProps.uri_component_roundtrip_refuted.
Print Assumptions CodecProps.uri_percent_lost_refuted.
Print Assumptions CodecProps.uri_plus_roundtrip_refuted.
Print Assumptions XxteaProps.encrypt_decrypt_roundtrip.
Print Assumptions XxteaProps.encrypt_injective.
Print Assumptions XxteaProps.encrypt_length.
Print Assumptions XxteaProps.encrypt_short_in_the_clear_refuted.
Print Assumptions DigestProps.sha1_is_sha1.
Print Assumptions DigestProps.sha256_is_sha256.
Print Assumptions DigestProps.md5_is_md5.
Print Assumptions DigestProps.hash_command_right.
Print Assumptions DigestProps.sha3_chunking.
Print Assumptions DigestProps.sha3_is_sha3.
Print Assumptions DigestProps.sha3_short_is_sha3.
Print Assumptions DigestProps.sha3_long_message_refuted.
Print Assumptions DigestProps.sha3_types_mixed_up_refuted.
Print Assumptions CodecProps.crc32_is_crc32.
Print Assumptions CodecProps.crc32_incremental.
Print Assumptions CodecProps.crc32_range.
Print Assumptions ArrayProps.push_appends.
Print Assumptions ArrayProps.pop_removes_last.
Print Assumptions ArrayProps.shift_removes_first.
Print Assumptions ArrayProps.unshift_prepends.
Print Assumptions ArrayProps.reverse_reverses.
Print Assumptions ArrayProps.fill_overwrites.
Print Assumptions ArrayProps.splice_replaces.
Print Assumptions ArrayProps.element_assignment.
Print Assumptions ArrayProps.array_history.
Print Assumptions ArrayProps.array_memory_safe.
Print Assumptions ArrayProps.shift_hole_refuted.
Print Assumptions ArrayProps.unshift_nothing_refuted.
Print Assumptions ArrayProps.splice_beyond_end_refuted.
Print Assumptions ArrayProps.push_limit_refuted.
Print Assumptions ArrayProps.slice_is_slice.
Print Assumptions ArrayProps.concat_concatenates.
Print Assumptions ArrayProps.index_of_first.
Print Assumptions ArrayProps.last_index_of_last.
Print Assumptions ArrayProps.last_index_of_start_refuted.
Print Assumptions ArrayProps.map_maps.
Print Assumptions ArrayProps.filter_filters.
Print Assumptions ArrayProps.find_finds_first.
Print Assumptions ArrayProps.find_index_first.
Print Assumptions ArrayProps.some_is_exists.
Print Assumptions ArrayProps.every_is_forall.
Print Assumptions ArrayProps.every_empty_refuted.
Print Assumptions ArrayProps.reduce_folds.
Print Assumptions ArrayProps.reduce_folds_from_first.
Print Assumptions ArrayProps.reduce_hole_refuted.
Print Assumptions ArrayProps.join_joins.
Print Assumptions ArrayProps.join_hole_refuted.
Print Assumptions ArrayProps.filter_shares_refuted.
Print Assumptions ArrayProps.sort_sorts.
Print Assumptions ArrayProps.sort_unique.
Print Assumptions ArrayProps.isort_meets_contract.
Print Assumptions ArrayProps.sort_unique_stale_refuted.
Print Assumptions ArrayProps.sort_fraction_refuted.
Print Assumptions GlobProps.glob_matches_language.
Print Assumptions GlobProps.glob_star_suffix.
Print Assumptions GlobProps.glob_query_empty_refuted.
Print Assumptions GlobProps.glob_nocase_wide_refuted.
Print Assumptions StrProps.split_gives_pieces.
Print Assumptions StrProps.split_cmd_pieces.
Print Assumptions StrProps.join_split.
Print Assumptions StrProps.split_pieces_free.
Print Assumptions StrProps.split_join.
Print Assumptions StrProps.pieces_unique.
Print Assumptions StrProps.split_null_drops_empty.
Print Assumptions StrProps.split_default_on_white.
Print Assumptions StrProps.split_empty.
Print Assumptions StrProps.split_empty_refuted.
Print Assumptions StrProps.split_default_on_bytes_refuted.
Print Assumptions StrProps.join_holes_refuted.
Print Assumptions StrProps.join_with_holes.
Print Assumptions StrProps.index_of_least.
Print Assumptions StrProps.last_index_of_greatest.
Print Assumptions StrProps.index_of_subscript.
Print Assumptions StrProps.strrstr_greatest.
Print Assumptions StrProps.last_index_of_empty_refuted.
Print Assumptions StrProps.index_of_characters_refuted.
Print Assumptions StrProps.strrstr_empty_refuted.
Print Assumptions StrProps.trim_both_ends.
Print Assumptions StrProps.trim_left_end.
Print Assumptions StrProps.trim_right_end.
Print Assumptions StrProps.trim_str_white.
Print Assumptions StrProps.trimmed_unique.
Print Assumptions StrProps.trim_characters_refuted.
Print Assumptions ListProps.lists_are_sequences.
Print Assumptions ListProps.search_returns_one_sequence.
Print Assumptions ListProps.delete_only_entry_refuted.
Print Assumptions ListProps.back_after_clear_refuted.
Print Assumptions ListProps.backward_search_refuted.
Print Assumptions ListProps.push_front_again_refuted.
Print Assumptions ListProps.push_after_list_delete_refuted.
Print Assumptions StackProps.stack_is_a_sequence.
Print Assumptions StackProps.stack_overflow_refuted.
Print Assumptions RefProps.reference_counts_are_exact.
Print Assumptions RefProps.nothing_in_use_is_freed.
Print Assumptions RefProps.nothing_unheld_stays.
Print Assumptions RefProps.heap_is_what_is_reachable.
Print Assumptions RefProps.all_released_all_freed.
Print Assumptions RefProps.rules_kept_before.
Print Assumptions RefProps.circles_leak.
Print Assumptions RefProps.copy_of_unheld_value_refuted.
Print Assumptions RefProps.set_element_kept_by_old_refuted.
Print Assumptions RefProps.move_own_referent_refuted.
Print Assumptions RefProps.set_prototype_twice_leaks_refuted.
Print Assumptions RefProps.set_prototype_of_empty_refuted.
Print Assumptions EventProps.timer_not_early.
Print Assumptions EventProps.timeout_runs_at_most_once.
Print Assumptions EventProps.due_timers_run.
Print Assumptions EventProps.update_waits.
Print Assumptions EventProps.timer_early_refuted.
Print Assumptions EventProps.update_early_refuted.
Print Assumptions EventProps.due_timer_skipped_refuted.
Print Assumptions EventProps.event_ids_unique.
Print Assumptions EventProps.cleared_timer_never_runs.
Print Assumptions EventProps.events_wait_for_next_pass.
Print Assumptions EventProps.event_loop_memory_safe.
Print Assumptions EventProps.clear_self_crashes_refuted.
Print Assumptions EventProps.clear_other_crashes_refuted.
Print Assumptions EventProps.nested_update_crashes_refuted.
Print Assumptions SafeProps.existing_access.
Print Assumptions SafeProps.no_dirs_no_access.
Print Assumptions SafeProps.root_dir_refuted.
Print Assumptions SafeProps.normalize_resolves.
Print Assumptions SafeProps.normalize_plain.
Print Assumptions SafeProps.lexical_no_dots.
Print Assumptions SafeProps.normalize_same_object.
Print Assumptions SafeProps.file_normalize.
Print Assumptions SafeProps.normalize_dotdot_refuted.
Print Assumptions SafeProps.normalize_trailing_dotdot_refuted.
Print Assumptions SafeProps.normalize_relative_refuted.
Print Assumptions SafeProps.file_normalize_dotdot_refuted.
Print Assumptions SafeProps.safe_chain.
Print Assumptions SafeProps.safe_chain_no_files.
Print Assumptions SafeProps.lockdown_widens_refuted.
Print Assumptions SafeProps.source_widens_refuted.
Print Assumptions VmProps.expression_code_partial.
Print Assumptions VmProps.post_increment_refuted.
Print Assumptions VmProps.program_result_partial.
Print Assumptions VmProps.normal_end_stack_partial.
Print Assumptions VmProps.program_halts_iff_terminates_partial.
Print Assumptions VmProps.divergence_partial.
Print Assumptions VmProofs9.vm_late.
Print Assumptions VmProps.left_to_right_refuted.
Print Assumptions VmProps.op_assign_refuted.
Print Assumptions VmProps.return_skips_finally_refuted.
Print Assumptions VmProps.throw_in_catch_skips_finally_refuted.
Print Assumptions VmProps.error_in_finally_refuted.
Print Assumptions VmProps.discarded_exception_refuted.
Print Assumptions VmProps.throw_undefined_refuted.
Print Assumptions VmProps.error_in_inner_catch_refuted.
Print Assumptions LimitProps.op_limit_respected.
Print Assumptions LimitProps.after_the_limit.
Print Assumptions LimitProps.every_evaluation_ends.
Print Assumptions LimitProps.limit_not_reached.
Print Assumptions LimitProps.int_max_limit_refuted.
Print Assumptions DictProps.dictionary_total.
Print Assumptions DictProps.dictionary_opposite.
Print Assumptions DictProps.dictionary_reflexive.
Print Assumptions DictProps.dictionary_transitive.
Print Assumptions DictProps.dictionary_equal.
Print Assumptions DictProps.dictionary_numbers.
Print Assumptions DictProps.dictionary_case.
Print Assumptions DictProps.dictionary_cycle_refuted.
Print Assumptions DictProps.dictionary_comma_refuted.
Print Assumptions ValProps.strict_equal_refl.
Print Assumptions ValProps.strict_equal_sym.
Print Assumptions ValProps.strict_equal_trans.
Print Assumptions ValProps.strict_equal_meaning.
Print Assumptions ValProps.strict_nul_refuted.
Print Assumptions ValProps.loose_equal_sym.
Print Assumptions ValProps.strict_implies_loose.
Print Assumptions ValProps.loose_equal_numeric.
Print Assumptions ValProps.loose_equal_integers.
Print Assumptions ValProps.loose_equal_converted.
Print Assumptions ValProps.loose_equal_undefined.
Print Assumptions ValProps.loose_fraction_refuted.
Print Assumptions ValProps.loose_object_null_refuted.
Print Assumptions ValProps.loose_infinity_refuted.
Print Assumptions MiscProps.lookup_unique.
Print Assumptions MiscProps.lookup_unknown.
Print Assumptions MiscProps.lookup_exact_first.
Print Assumptions MiscProps.lookup_ambiguous.
Print Assumptions MiscProps.lookup_exact_flag.
Print Assumptions MiscProps.lookup_exact_refuted.
Print Assumptions MiscProps.lookup_nocase_ambiguous_refuted.
Print Assumptions MiscProps.balanced_iff_closed.
Print Assumptions MiscProps.balanced_refuted.
Print Assumptions MiscProps.parse_int_numeral.
Print Assumptions MiscProps.parse_int_text.
Print Assumptions MiscProps.parse_int_hex_prefix.
Print Assumptions MiscProps.get_number_decimal.
Print Assumptions MiscProps.parse_int_base36_refuted.
Print Assumptions MiscProps.to_string_parse_int.
Print Assumptions MiscProps.decimal_round_trip.
Print Assumptions MiscProps.to_string_radix_refuted.
Print Assumptions MiscProps.parse_int_octal_refuted.
Print Assumptions MiscProps.get_wide_prefixed.
Print Assumptions MiscProps.get_wide_offset_refuted.
Print Assumptions MiscProps.get_int_range_refuted.
Print Assumptions MiscProps.get_bool_abbreviations.
Print Assumptions CodecProps.to_hex_is_hex.
Print Assumptions CodecProps.from_hex_rejects_everything_refuted.
Print Assumptions CodecProps.hexstr_command_is_never_right_refuted.
Print Assumptions CodecProps.hexstr_decode_overflows_refuted.
Print Assumptions HashProps.interning_is_injective.
Print Assumptions TreeProps.string_tree_entry_pointer_stable.
Print Assumptions TreeProps.word_tree_entry_pointer_unstable_refuted.
Print Assumptions DigestProps.proof_of_work.
Print Assumptions VmProps.never_stuck.
Print Assumptions VmProps.jump_through_finally_refuted.
Print Assumptions StrProps.to_upper_case.
Print Assumptions StrProps.to_lower_case.
Print Assumptions StrProps.to_title_case.
Print Assumptions StrProps.case_idempotent.
Print Assumptions StrProps.case_drops_last_refuted.
Print Assumptions StrProps.substring_inclusive.
Print Assumptions StrProps.substring_inclusive_ascii.
Print Assumptions StrProps.substring_empty.
Print Assumptions StrProps.substring_to_end.
Print Assumptions StrProps.slice_to_end.
Print Assumptions StrProps.slice_prefix.
Print Assumptions StrProps.substring_exclusive_refuted.
Print Assumptions StrProps.slice_end_refuted.
Print Assumptions StrProps.slice_negative_bytes_refuted.
Print Assumptions StrProps.repeat_copies.
Print Assumptions StrProps.repeat_bounds.
Print Assumptions StrProps.concat_appends.
Print Assumptions StrProps.repeat_empty_refuted.
Print Assumptions StrProps.map_replaces.
Print Assumptions StrProps.map_answers.
Print Assumptions StrProps.map_total.
Print Assumptions StrProps.map_unique.
Print Assumptions ValProps.less_numbers.
Print Assumptions ValProps.less_equ_numbers.
Print Assumptions ValProps.less_converted.
Print Assumptions ValProps.less_undefined.
Print Assumptions ValProps.less_nan.
Print Assumptions ValProps.less_strings.
Print Assumptions ValProps.trichotomy.
Print Assumptions ValProps.less_mixed_refuted.
Print Assumptions SafeProps.new_file_access_partial.
Print Assumptions SafeProps.commands_guarded_partial.
Print Assumptions SafeProps.lockdown_read_only.
Print Assumptions SafeProps.dotdot_escape_refuted.
Print Assumptions SafeProps.symlink_parent_escape_refuted.
Print Assumptions SafeProps.dangling_symlink_escape_refuted.
Print Assumptions SafeProps.tilde_mkdir_refuted.
Print Assumptions SafeProps.glob_unguarded_refuted.
Print Assumptions LexProps.lex_tokens.
Print Assumptions LexProps.tokens_unique.
Print Assumptions LexProps.newline_lost_refuted.
Print Assumptions LexProps.newline_lost_comment_refuted.
Print Assumptions LexProps.newline_lost_string_refuted.
Print Assumptions LexProps.zero_exponent_refuted.
Print Assumptions LexProps.hex_minus_refuted.
Print Assumptions LexProps.long_word_refuted.
Print Assumptions LexProps.non_ascii_ends_refuted.
Print Assumptions LexProps.byte_128_skipped_refuted.
Print Assumptions LexProps.ellipsis_refuted.
Print Assumptions LexProps.lex_total.
Print Assumptions LexProps.string_literal.
Print Assumptions LexProps.literal_end_unique.
Print Assumptions LexProps.stringified_is_literal.
Print Assumptions LexProps.continuation_kept_refuted.
Print Assumptions LexProps.hex_escape_refuted.
Print Assumptions NumProps.read_nearest.
Print Assumptions NumProps.read_same.
Print Assumptions NumProps.number_of_string.
Print Assumptions NumProps.integer_text_exact.
Print Assumptions NumProps.number_text_nearest.
Print Assumptions NumProps.precision_digits.
Print Assumptions NumProps.number_round_trip.
Print Assumptions NumProps.digits_survive.
Print Assumptions NumProps.default_round_trip_refuted.
Print Assumptions NumProps.max_precision_refuted.
Print Assumptions NumProps.text_exceptions_refuted.
Print Assumptions NumProps.number_text_meets.
Print Assumptions NumProps2.to_fixed_nearest.
Print Assumptions NumProps2.to_fixed_meets.
Print Assumptions NumProps2.to_exponential_nearest.
Print Assumptions NumProps2.to_exponential_meets.
Print Assumptions NumProps2.to_precision_refuted.
Print Assumptions NumProps2.to_fixed_long_refuted.
Print Assumptions FnProps.program_value.
Print Assumptions FnProps.program_error.
Print Assumptions FnProps.program_forever.
Print Assumptions FnProps.program_never_stuck.
Print Assumptions FnProps.javascript_order_value.
Print Assumptions FnProps.javascript_order_error.
Print Assumptions FnProps.javascript_order_forever.
Print Assumptions FnProps.private_variable.
Print Assumptions FnProps.no_new_variables.
Print Assumptions FnProps.no_arrows_specified.
Print Assumptions FnProps.no_arrows_never_stuck.
Print Assumptions FnProps.bounded_calls_end.
Print Assumptions FnProps.prototypes_acyclic.
Print Assumptions FnProps.lookup_ends.
Print Assumptions FnProps.instanceof_inherits.
Print Assumptions FnProps.functions_have_prototypes.
Print Assumptions FnProps.prototype_fixed.
Print Assumptions FnProps.function_fixed.
Print Assumptions FnProps.instanceof_fixed.
Print Assumptions FnProps.set_prototype_acyclic.
Print Assumptions FnProps.set_prototype_cycle_refuted.
Print Assumptions FnProps.new_gives_object.
Print Assumptions FnProps.new_gives_instance.
Print Assumptions FnProps.references_valid.
Print Assumptions FmtProps.format_meaning.
Print Assumptions FmtProps.format_plain.
Print Assumptions FmtProps.format_string.
Print Assumptions FmtProps.format_total.
Print Assumptions FmtProps.format_extra.
Print Assumptions FmtProps.format_safe.
Print Assumptions FmtProps.format_safe_total.
Print Assumptions FmtProps.format_flags_refuted.
Print Assumptions FmtProps.format_precision_refuted.
Print Assumptions FmtProps.format_cut_refuted.
Print Assumptions OpsProps.bitwise_js.
Print Assumptions OpsProps.and_js.
Print Assumptions OpsProps.bitwise_wide.
Print Assumptions OpsProps.shifts_js.
Print Assumptions OpsProps.bnot_js.
Print Assumptions OpsProps.or_zero.
Print Assumptions OpsProps.or_negative_refuted.
Print Assumptions OpsProps.xor_large_refuted.
Print Assumptions OpsProps.ushr_large_refuted.
Print Assumptions RxProps.replace_all_text.
Print Assumptions RxProps.matches_exist.
Print Assumptions RxProps.replace_identity.
Print Assumptions RxProps.replace_first_text.
Print Assumptions RxProps.replace_all_fun.
Print Assumptions RxProps.replace_safe.
Print Assumptions RxProps.replace_string_first.
Print Assumptions RxProps.replace_empty_refuted.
Print Assumptions RxProps.replace_empty_fun_refuted.
Print Assumptions RxProps.replace_dollar_refuted.
Print Assumptions RxProps.replace_before_refuted.
Print Assumptions RxProps.replace_string_fun_refuted.
Print Assumptions RxProps.match_all.
Print Assumptions RxProps.match_first.
Print Assumptions RxProps.match_groups.
Print Assumptions RxProps.search_test.
Print Assumptions RxProps.exec_step.
Print Assumptions RxProps.exec_enumerates.
Print Assumptions RxProps.match_groups_refuted.
Print Assumptions RxProps.match_same_group_refuted.
Print Assumptions RxProps.exec_group_refuted.
Print Assumptions RxProps.exec_last_index_refuted.
Print Assumptions RxProps.exec_shared_refuted.
Print Assumptions RxProps.exec_negative_refuted.
Print Assumptions HofProps.script_functions_tame.
Print Assumptions HofProps.map_any_function.
Print Assumptions HofProps.filter_any_function.
Print Assumptions HofProps.reduce_any_function.
Print Assumptions HofProps.reduce_from_first.
Print Assumptions HofProps.foreach_any_function.
Print Assumptions HofProps.find_any_function.
Print Assumptions HofProps.every_any_function.
Print Assumptions HofProps.walk_unique.
Print Assumptions HofProps.foreach_every_element_once.
Print Assumptions HofProps.foreach_growing_refuted.
Print Assumptions HofProps.parameter_assignment_refuted.
Print Assumptions HofProps.filter_removed_refuted.
Print Assumptions HofProps.find_removed_refuted.
Print Assumptions HofProps.every_none_refuted.
Print Assumptions ObjProps.freeze_holds.
Print Assumptions ObjProps.freeze_holds_assign.
Print Assumptions ObjProps.frozen_names.
Print Assumptions ObjProps.frozen_refuses.
Print Assumptions ObjProps.frozen_read_check.
Print Assumptions ObjProps.thaw_restores.
Print Assumptions ObjProps.freeze_values_refuted.
Print Assumptions ObjProps.freeze_assign_thaw_refuted.
Print Assumptions ObjProps.freeze_twice_refuted.
Print Assumptions ObjProps.frozen_copy_refuted.
Print Assumptions ObjProps.freeze_array_refuted.
Print Assumptions ObjProps.read_first.
Print Assumptions ObjProps.read_length.
Print Assumptions ObjProps.line_there.
Print Assumptions ObjProps.read_ends.
Print Assumptions ObjProps.set_property.
Print Assumptions ObjProps.update_property.
Print Assumptions ObjProps.delete_property.
Print Assumptions ObjProps.increment_property.
Print Assumptions ObjProps.set_variable.
Print Assumptions ObjProps.set_element.
Print Assumptions ObjProps.create_object.
Print Assumptions ObjProps.set_prototype.
Print Assumptions ObjProps.assign_object.
Print Assumptions ObjProps.values_array.
Print Assumptions ObjProps.values_apart.
Print Assumptions ObjProps.history_wf.
Print Assumptions ObjProps.increment_inherited_refuted.
Print Assumptions ObjProps.assign_shares_refuted.
Print Assumptions ObjProps.set_prototype_empty_refuted.
Print Assumptions ObjProps.cycle_refuted.
Print Assumptions ObjProps.keys_listed.
Print Assumptions ObjProps.has_own_property.
Print Assumptions ObjProps.for_in_visits.
Print Assumptions ObjProps.for_in_complete.
Print Assumptions ObjProps.for_in_ends.
Print Assumptions ObjProps.for_in_pure.
Print Assumptions ObjProps.keys_own_refuted.
Print Assumptions CallProps.typed_call.
Print Assumptions CallProps.refused_call.
Print Assumptions CallProps.typed_new.
Print Assumptions CallProps.unchecked_call.
Print Assumptions CallProps.type_text.
Print Assumptions CallProps.type_shown.
Print Assumptions CallProps.type_shown_any.
Print Assumptions CallProps.warn_max_refuted.
Print Assumptions CallProps.noundef_lost.
Print Assumptions CallProps.call_as_method.
Print Assumptions CallProps.apply_as_call.
Print Assumptions CallProps.apply_no_array.
Print Assumptions CallProps.apply_not_array.
Print Assumptions CallProps.bind_call.
Print Assumptions CallProps.bind_nothing.
Print Assumptions CallProps.bind_chain.
Print Assumptions CallProps.called_once.
Print Assumptions CallProps.tidy_call.
Print Assumptions CallProps.bind_fresh_refuted.
Print Assumptions CallProps.bind_undefined_refuted.
Print Assumptions CallProps.bound_argument_refuted.
Print Assumptions CallProps.apply_array_refuted.
Print Assumptions OptProps.option_exact.
Print Assumptions OptProps.option_prefix.
Print Assumptions OptProps.option_ambiguous.
Print Assumptions OptProps.option_unknown.
Print Assumptions OptProps.option_found.
Print Assumptions OptProps.option_exact_refuted.
Print Assumptions OptProps.conf_reads.
Print Assumptions OptProps.conf_others.
Print Assumptions OptProps.conf_accepts.
Print Assumptions OptProps.conf_checks.
Print Assumptions OptProps.required_given.
Print Assumptions OptProps.refused_same.
Print Assumptions OptProofs4.process_sets.
Print Assumptions OptProofs4.process_others.
Print Assumptions OptProofs3.leaf_takes.
Print Assumptions OptProofs4.leaf_only_takes.
Print Assumptions OptProofs2.set_option_only.
Print Assumptions OptProps.conf_error_refuted.
Print Assumptions OptProps.nan_refuted.
Print Assumptions OptProps.wide_nan_refuted.
Print Assumptions OptProps.confs_protected.
Print Assumptions OptProofs3.protected_kept.
Print Assumptions OptProps.no_null_spares.
Print Assumptions OptProps.sub_null_refuted.
Print Assumptions OptProps.array_init_refuted.
Print Assumptions OptProps.enum_exact.
Print Assumptions OptProps.set_text.
Print Assumptions OptProps.set_array.
Print Assumptions OptProps.set_object_byte.
Print Assumptions OptProps.set_text_reads.
Print Assumptions OptProofs5.bitset_reads.
Print Assumptions OptProps.set_object_refuted.
Print Assumptions OptProps.set_empty_refuted.
Print Assumptions OptProps.set_small_refuted.
Print Assumptions OptProps.set_31_refuted.
Print Assumptions OptProps.enum_negative_refuted.
Print Assumptions NfaProps.finds.
Print Assumptions NfaProps.class_in_count_refuted.
Print Assumptions NfaProps.deep_count_refuted.
Print Assumptions NfaProps.deep_optional_refuted.
Print Assumptions NfaProps.zero_count_refuted.
Print Assumptions NfaProps.empty_assertion_refuted.
Print Assumptions NfaProps.optional_assertion_refuted.
Print Assumptions NfaProps.counts_keep_meaning.
Print Assumptions NfaProps.states_apart.
Print Assumptions PatProps.bracket_reads.
Print Assumptions PatProps.icase_range_refuted.
Print Assumptions PatProps.pattern_reads.
Print Assumptions PatProps.search_finds.
Print Assumptions PatProps.parse_total.
Print Assumptions PatProps.counts_bounded.
Print Assumptions PatProps.open_group_refused.
Print Assumptions PatProps.bad_count_refused.
Print Assumptions PatProps.escape_refuted.
