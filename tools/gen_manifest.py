# Writes MANIFEST.json.  One entry per property; edit here, then run.
import json, os
C = []
def c(prop, status, theorems, note):
    C.append(dict(property=prop, status=status, theorems=theorems.split(), note=note))

c("C01", "proved", "tree_is_map object_properties_are_a_map tree_delete_reports_presence struct_tree_delete_loses_keys_refuted",
  "Map semantics for all histories for string and one-word keyed trees; for struct-keyed trees deletion loses keys (refutation).")
c("C02","proved", "tree_walk_inorder_ascending_and_complete tree_walks_agree tree_search_lists_all_in_order tree_search_postorder tree_search_levelorder_small tree_search_levelorder_large_refuted tree_search_preorder_diverges_refuted",
  "In-order walk/search and post-order search complete; level-order search complete up to 197 keys and refuted beyond; pre-order search refuted (diverges).")
c("C03", "proved", "tree_height_logarithmic", "Height <= 2*log2(n+1) after every history.")
c("C06","proved", "oneword_keys_distinct oneword_tree_is_map oneword_keys_collide_refuted oneword_order_cyclic_refuted",
  "Distinctness holds for keys within a 2^31 window; the full property is false of the code (refutation: keys equal mod 2^32 collide).")
c("C46","proved", "string_tree_entry_pointer_stable word_tree_entry_pointer_unstable_refuted",
  "String-keyed trees (JSI_KEYS_STRING). The trees of JS objects are of the other kind, for which it is refuted.")
c("C04","proved", "hash_is_map hash_never_fails hash_unset_reports_presence stringkey_hash_loses_keys_refuted stringkey_hash_delete_crashes_refuted hash_clear_keeps_size_refuted",
  "Map semantics for every history for string, one-word and struct keys (all rebuilds included). False for JSI_KEYS_STRINGKEY tables and after Jsi_HashClear (refutations).")
c("C05","proved", "hash_walk_visits_each_once hash_walk_deleting_other_entry_crashes_refuted",
  "Walk with arbitrary deletions of the entry just returned; deleting another entry during the walk is a use after free (refutation).")
c("C45", "proved", "interning_is_injective", "For every sequence of Jsi_KeyAdd calls.")
c("C08", "proved", "utf_encode_is_utf8 utf_decode_encode utf_decode_sequence", "All code points and sequences.")
c("C09","proved", "string_length_counts_characters string_offset_of_index string_char_code_at string_subscript_selects_character string_substr_to_end string_char_at string_substr string_char_at_refuted string_substr_refuted empty_substr_negative_diverges_refuted",
  "length, charCodeAt, subscript and substr(start) right for every text; charAt and substr(start,n) right only when the first selected character is ASCII or the selection reaches the end (refutations otherwise).")
c("C13", "proved", "base64_encode_is_rfc4648 base64_alphabet base64_length base64_roundtrip base64_decode_tolerant base64_decode_total", "All byte strings; also the line buffer never overflows and the decoder tolerates interspersed characters.")
c("C14","proved", "uri_component_roundtrip uri_roundtrip uri_component_has_no_separators url_encode_fits url_decode_fits uri_component_roundtrip_refuted uri_percent_lost_refuted uri_plus_roundtrip_refuted", "The full property is false of the code: '%' is never escaped (and '+' not by encodeURI). Proved for all strings without those characters.")
c("C18", "proved", "crc32_is_crc32 crc32_incremental crc32_range", "All inputs.")
c("C44", "partial", "to_hex_is_hex from_hex_rejects_everything_refuted hexstr_command_is_never_right_refuted hexstr_decode_overflows_refuted", "Encoding into hex digits is right; the command and the decoder are wrong for every input (refutations).")
c("C07","proved", "ds_history_content ds_is_concatenation ds_freedup_returns_content ds_value_is_c_string ds_printf_appends ds_printf_long_text_lost_refuted ds_printf_roomy_lost_refuted ds_printf_roomy_reachable ds_reserve_not_terminated_refuted", "Append, truncate, set and free: all histories, with memory safety. Formatted output (Jsi_DSPrintf) loses text of 8192 characters or more, or when 8192 bytes are spare (refutations).")
c("C15","proved", "encrypt_decrypt_roundtrip encrypt_injective encrypt_length encrypt_short_in_the_clear_refuted", "Round trip for every data length 2..2^31-1 and every key; data of 2 to 4 bytes is left in the clear (refutation).")
c("C16", "proved", "sha1_is_sha1 sha256_is_sha256 md5_is_md5 hash_command_right", "Every message and chunking (MD5 pieces below 2^32 bytes, the C parameter type); compression functions included, against FIPS 180-4 / RFC 1321.")
c("C17","proved", "sha3_chunking sha3_is_sha3 sha3_short_is_sha3 sha3_long_message_refuted sha3_types_mixed_up_refuted", "Chunk-independent for every message; equal to FIPS 202 for messages shorter than a block (or with a zero leftover). False in general: the buffer is not cleared before padding, and the type numbers are mixed up (refutations).")
c("C47", "proved", "proof_of_work", "For every digest function of 32 bytes and strength up to 256.")
c("C10","proved","quoted_is_one_token stringify_string_is_quote quote_parse_roundtrip quote_parse_roundtrip_refuted slash_escape_refuted quoted_is_printable_ascii",
  "One-token property for every byte string; the round trip for texts of characters up to U+FFFF (beyond that the code is wrong: refuted).")
c("C11","proved","stringify_parse_roundtrip stringify_parse_roundtrip_17 too_deep_refused quote_in_key_refuted backslash_in_key_refuted undefined_field_comma_refuted repeated_fields_last_wins json_number_refuted",
  "Round trip for all trees of the statement, with the number conversions of the NumModel (correctly rounded printf and strtod). The _refuted theorems are the exceptions named in the statement.")
c("C12","proved","tokenizer_total_well_nested tokenizer_error_in_input","")
c("C19","proved","push_appends pop_removes_last shift_removes_first unshift_prepends reverse_reverses fill_overwrites splice_replaces element_assignment array_history array_memory_safe shift_hole_refuted unshift_nothing_refuted splice_beyond_end_refuted push_limit_refuted",
  "Every mutator, and every sequence of them, on arrays without holes within the size limit is the list operation; for all sequences at all (holes, limit exceeded) no out-of-bounds access and no shared cells. The four _refuted theorems give the cases where the documented result is not met (holes, unshift(), splice beyond the end, push at the limit). Assigning to length only makes a plain field in jsish and is not modelled.")
c("C20","proved","slice_is_slice concat_concatenates index_of_first last_index_of_last last_index_of_start_refuted map_maps filter_filters find_finds_first find_index_first some_is_exists every_is_forall every_empty_refuted reduce_folds reduce_folds_from_first reduce_hole_refuted join_joins join_hole_refuted filter_shares_refuted",
  "Readers against list functions, holes included. Partial: every() on no elements, reduce starting at a hole, join with holes and filter's sharing of cells are refuted; lastIndexOf without its start argument; callbacks are pure functions.")
c("C21","proved","sort_sorts sort_unique isort_meets_contract sort_unique_stale_refuted sort_fraction_refuted",
  "Sorted permutation for every consistent comparison, given that the C library's qsort meets its contract (hypothesis qsort_contract, satisfied by isort). unique: proved for arrays without holes as to the elements seen; the stale slot it leaves behind is the refuted part.")
c("C34","partial","expression_code_partial post_increment_refuted",
  "All expressions of the modelled fragment (variables, constants, operators, assignments, && || ?: comma void) whose operands do not assign each other's variables and without x++ in value position; x++ itself is refuted for doubles at 2^53. Property access and calls are not modelled.")
c("C35","partial","program_result_partial normal_end_stack_partial program_halts_iff_terminates_partial divergence_partial vm_late",
  "All well-behaved programs (VmSpec.well_behaved), unbounded loops, termination both ways. The excluded programs are those refuted under C36 and C37.")
c("C36","partial","expression_code_partial left_to_right_refuted op_assign_refuted",
  "False of the code: operands are dereferenced late. Proved when no operand assigns a variable that is itself the left operand.")
c("C37","partial","program_result_partial return_skips_finally_refuted throw_in_catch_skips_finally_refuted error_in_finally_refuted discarded_exception_refuted throw_undefined_refuted error_in_inner_catch_refuted",
  "Holds for well-behaved programs; return inside try, throw in an outermost catch with finally, errors in finally, exceptions discarded by break, throw undefined, and errors (not throw statements) in a catch block nested in another try are refuted.")
c("C48","proved","never_stuck jump_through_finally_refuted",
  "All programs whose break/continue do not leave a try with finally out of a for-in or switch; the excluded case is refuted.")
c("C38","proved","op_limit_respected after_the_limit every_evaluation_ends limit_not_reached int_max_limit_refuted",
  "The main loop's counter with arbitrary nested evaluations and arbitrary native code; int_max_limit_refuted shows why 2147483647 itself is outside the range (the counter is an int). every_evaluation_ends assumes native operations themselves end.")
c("C31","proved","existing_access no_dirs_no_access root_dir_refuted",
  "Every file system with symbolic links, every path and directory list; completeness for directories other than the root written as absolute paths (root_dir_refuted: the directory / itself admits nothing). Native file system only; creation of files is C54.")
c("C32","proved","normalize_resolves normalize_plain lexical_no_dots normalize_same_object file_normalize normalize_dotdot_refuted normalize_trailing_dotdot_refuted normalize_relative_refuted file_normalize_dotdot_refuted",
  "Proved for the paths both normalisers treat correctly; '..' after the first name, at the end, or in a relative path, and any '..' in File.normalize, are refuted.")
c("C33","proved","safe_chain safe_chain_no_files lockdown_widens_refuted source_widens_refuted",
  "Every chain of creations and reconfigurations without lockDown; the lockDown option and Interp.source on the first script widen access (refuted).")
c("C29","proved","timer_not_early timeout_runs_at_most_once due_timers_run update_waits timer_early_refuted update_early_refuted due_timer_skipped_refuted",
  "Every history of timers, callbacks and clock readings. Early firing happens exactly when a due time falls on a whole second (refuted), update(ms) may return about a second early (refuted), and a due timer can be skipped in a pass whose callbacks grow the table (refuted).")
c("C30","proved","event_ids_unique cleared_timer_never_runs events_wait_for_next_pass event_loop_memory_safe clear_self_crashes_refuted clear_other_crashes_refuted nested_update_crashes_refuted",
  "Ids and clearing proved for every history; memory safety proved when callbacks do not clear timers nor run nested updates, and refuted otherwise.")
c("C26","proved","lists_are_sequences search_returns_one_sequence delete_only_entry_refuted back_after_clear_refuted backward_search_refuted push_front_again_refuted push_after_list_delete_refuted",
  "Every legal history over any number of lists with an explicit heap. Not legal, because the code goes wrong there (each refuted): deleting the only entry, back of a cleared list, pushing the front entry to the front again, pushing after the old list is deleted; backward search only when the front entry was put there.")
c("C27","proved","stack_is_a_sequence stack_overflow_refuted",
  "Every history in which the stack holds at most 369098750 elements; one more is a heap overflow (refuted), so the bound is exact.")
c("C22","proved","glob_matches_language glob_star_suffix glob_query_empty_refuted glob_nocase_wide_refuted",
  "All patterns and strings of UTF-8 characters; excluded are a pattern starting with '?' on the empty string (reads past the NUL, refuted) and toupper above 255 in the case-insensitive form (refuted).")
c("C23","proved","split_gives_pieces split_cmd_pieces join_split split_pieces_free split_join pieces_unique split_null_drops_empty split_default_on_white split_empty split_empty_refuted split_default_on_bytes_refuted join_holes_refuted join_with_holes",
  "Fully proved for non-empty separators (with the copy and pointer table modelled); split('') is by bytes, right for ASCII only (refuted otherwise); the help text about an omitted separator and join of arrays with holes are refuted.")
c("C24","proved","index_of_least last_index_of_greatest index_of_subscript strrstr_greatest last_index_of_empty_refuted index_of_characters_refuted strrstr_empty_refuted",
  "indexOf fully, lastIndexOf for non-empty patterns (refuted for empty); positions are byte offsets, which disagree with subscripts on non-ASCII text (refuted).")
c("C25","proved","trim_both_ends trim_left_end trim_right_end trim_str_white trimmed_unique trim_characters_refuted",
  "Proved for every string and every set of bytes; a trim set of non-ASCII characters works on bytes (refuted).")
c("C49","proved","to_upper_case to_lower_case to_title_case case_idempotent case_drops_last_refuted",
  "Proved for text whose last character is ASCII; otherwise the last character is lost (refuted, for every such text).")
c("C50","proved","substring_inclusive substring_inclusive_ascii substring_empty substring_to_end slice_to_end slice_prefix substring_exclusive_refuted slice_end_refuted slice_negative_bytes_refuted",
  "ASCII text, non-negative positions. slice with an end is only right from 0, and a start past the end gives the last character (refuted).")
c("C51","proved","repeat_copies repeat_bounds concat_appends repeat_empty_refuted",
  "repeat of the empty string is an error (refuted); otherwise proved with the exact limit.")
c("C52","proved","map_replaces map_answers map_total map_unique",
  "Case-sensitive form, table without holes and without empty keys.")
c("C41","proved","lookup_unique lookup_unknown lookup_exact_first lookup_ambiguous lookup_exact_flag lookup_exact_refuted lookup_nocase_ambiguous_refuted",
  "An exact name is not found when a longer one that begins with it stands before it, nor without case when another extends it (refuted).")
c("C42","proved","balanced_iff_closed balanced_refuted",
  "Proved for properly nested text whose quoted strings hold no brackets; mismatched brackets and brackets in strings are misjudged (refuted).")
c("C43","proved","parse_int_numeral parse_int_text parse_int_hex_prefix get_number_decimal parse_int_base36_refuted to_string_parse_int decimal_round_trip to_string_radix_refuted parse_int_octal_refuted get_wide_prefixed get_wide_offset_refuted get_int_range_refuted get_bool_abbreviations",
  "Radix 8, 10, 16 round trip for integers up to 2^53 and numerals in bases up to 33; other radixes print decimal, negative numbers print two's complement, 0x in base 34+ (refuted); out-of-bounds read and silent truncation in option values (refuted).")
c("C39","proved","dictionary_total dictionary_opposite dictionary_reflexive dictionary_transitive dictionary_equal dictionary_numbers dictionary_case dictionary_cycle_refuted dictionary_comma_refuted",
  "The two _refuted theorems show that the restrictions in the statement are needed.")
c("C40","proved","strict_equal_refl strict_equal_sym strict_equal_trans strict_equal_meaning strict_nul_refuted loose_equal_sym strict_implies_loose loose_equal_numeric loose_equal_integers loose_equal_converted loose_equal_undefined loose_fraction_refuted loose_object_null_refuted loose_infinity_refuted",
  "Doubles are the standard library's SpecFloat (53, 1024); the out-of-range conversion to int is that of x86-64. The _refuted theorems show the exceptions named in the statement.")
c("C53","proved","less_numbers less_equ_numbers less_converted less_undefined less_nan less_strings trichotomy less_mixed_refuted","")
c("C28", "proved", "reference_counts_are_exact nothing_in_use_is_freed nothing_unheld_stays heap_is_what_is_reachable all_released_all_freed rules_kept_before circles_leak copy_of_unheld_value_refuted set_element_kept_by_old_refuted move_own_referent_refuted set_prototype_twice_leaks_refuted set_prototype_of_empty_refuted",
  "Nineteen calls of the value and object API over a heap whose freed cells stay visible; the rules of the English statement are `allowed`.  Each rule is needed: the _refuted theorems are runs that break one and touch a freed cell or leak.  Not modelled: functions, user objects, getters, address reuse.")
c("C54","partial","new_file_access_partial commands_guarded_partial lockdown_read_only dotdot_escape_refuted symlink_parent_escape_refuted dangling_symlink_escape_refuted tilde_mkdir_refuted glob_unguarded_refuted",
  "Proved when no symbolic link is traversed and no '..' follows the first name; the excluded cases are real escapes (the _refuted theorems). All guarded file commands; File.glob has no guard (refuted).")
c("C55","proved","lex_tokens tokens_unique newline_lost_refuted newline_lost_comment_refuted newline_lost_string_refuted zero_exponent_refuted hex_minus_refuted long_word_refuted non_ascii_ends_refuted byte_128_skipped_refuted ellipsis_refuted",
  "The token grammar of LexSpec; conversion of digits to a double (strtod) and compilation of a regular expression are parameters of the lexer model; line and column counts are left out.")
c("C56","proved","lex_total","")
c("C57","proved","string_literal literal_end_unique stringified_is_literal continuation_kept_refuted hex_escape_refuted","")
c("C58","proved","read_nearest read_same number_of_string integer_text_exact number_text_nearest precision_digits number_round_trip digits_survive default_round_trip_refuted max_precision_refuted text_exceptions_refuted number_text_meets",
  "Doubles are SpecFloat (53, 1024); the C library's printf %g and strtod are modelled as correctly rounded (ISO C annex F). Hexadecimal, inf and nan texts are not modelled.")
c("C59","proved","to_fixed_nearest to_fixed_meets to_exponential_nearest to_exponential_meets to_precision_refuted to_fixed_long_refuted","")
c("C60","proved","program_value program_error program_forever program_never_stuck",
  "Not modelled: built-in functions, arguments, getters, try across calls, delete, freeze. Departures from JavaScript are Examples in FnExamples.v (stale_this_refuted, arrow_this_refuted, arrow_var_refuted, redeclared_refuted, hidden_parameter_refuted).")
c("C61","proved","javascript_order_value javascript_order_error javascript_order_forever",
  "Counterexamples outside the proviso: FnExamples.v, late_argument_refuted, late_operand_refuted; factorial_ok and counter_ok meet it.")
c("C62","proved","private_variable no_new_variables","Scripts that end with an error are not in the histories. counter_private in FnExamples.v meets the hypotheses.")
c("C63","proved","no_arrows_specified no_arrows_never_stuck","With arrow functions it is false: stale_this_refuted.")
c("C64","proved","bounded_calls_end","")
c("C65","proved","prototypes_acyclic lookup_ends instanceof_inherits functions_have_prototypes prototype_fixed function_fixed instanceof_fixed set_prototype_acyclic set_prototype_cycle_refuted",
 "The modelled scripts do not call Object.setPrototypeOf (the default build has no settable __proto__, jsiInt.h 211, and assignment to prototype is an error, jsiEval.c 1068-1108). That call (jsiProto.c 569-585) makes no check: set_prototype_cycle_refuted and cycle_refuted in FnExamples.v show the cycle and so the endless lookup.")
c("C66","proved","new_gives_object new_gives_instance","make_ok in FnExamples.v meets the hypotheses.")
c("C67","proved","references_valid","")
c("C68","proved","format_meaning format_plain format_string format_total format_extra format_safe format_safe_total format_flags_refuted format_precision_refuted format_cut_refuted","What snprintf prints, and the display and JSON forms of values, are parameters. Beyond the limits spec[100] and the number buffer are overrun (two _refuted theorems); a precision on %s counts bytes and can cut a character in two.")
c("C69","proved","bitwise_js and_js bitwise_wide shifts_js bnot_js or_zero or_negative_refuted xor_large_refuted ushr_large_refuted","Outside the ranges the code departs from ECMAScript (operands of & | ^ become unsigned 64-bit numbers; ints saturate to INT_MIN): the three _refuted theorems. Casts out of range are modelled as x86-64 compiles them.")
c("C70","proved","replace_all_text matches_exist replace_identity replace_first_text replace_all_fun replace_safe replace_string_first replace_empty_refuted replace_empty_fun_refuted replace_dollar_refuted replace_before_refuted replace_string_fun_refuted","The regular expression library and the callback are parameters; expressions that never match the empty string for the exact results, any for safety. The _refuted theorems are the departures named in the statement.")
c("C71","proved","match_all match_first match_groups search_test exec_step exec_enumerates match_groups_refuted match_same_group_refuted exec_group_refuted exec_last_index_refuted exec_shared_refuted exec_negative_refuted","As C70.")
c("C72","proved","script_functions_tame map_any_function filter_any_function reduce_any_function reduce_from_first foreach_any_function find_any_function every_any_function walk_unique foreach_every_element_once foreach_growing_refuted parameter_assignment_refuted filter_removed_refuted find_removed_refuted every_none_refuted","The function is any state transformer that leaves the array well formed; script_functions_tame shows that any sequence of the array operations of C25 does. The _refuted theorems are the departures named in the statement.")
c("C73","proved","freeze_holds freeze_holds_assign frozen_names frozen_refuses frozen_read_check thaw_restores freeze_values_refuted freeze_assign_thaw_refuted freeze_twice_refuted frozen_copy_refuted freeze_array_refuted","Accessors, functions and strings as objects are not modelled.")
c("C74","proved","read_first read_length line_there read_ends set_property update_property delete_property increment_property set_variable set_element create_object set_prototype assign_object values_array values_apart history_wf increment_inherited_refuted assign_shares_refuted set_prototype_empty_refuted cycle_refuted","As C73.")
c("C75","proved","keys_listed has_own_property for_in_visits for_in_complete for_in_ends for_in_pure keys_own_refuted","As C73; objects that are not arrays.")
c("C76","proved","typed_call refused_call typed_new unchecked_call type_text type_shown type_shown_any warn_max_refuted noundef_lost","Script functions; argument lists without holes. The body of the function is any state transformer.")
c("C77","proved","call_as_method apply_as_call apply_no_array apply_not_array bind_call bind_nothing bind_chain called_once tidy_call bind_fresh_refuted bind_undefined_refuted bound_argument_refuted apply_array_refuted","As C76; builtin functions only as what bind makes. The _refuted theorems are the departures named in the statement.")
c("C78","proved","option_exact option_prefix option_ambiguous option_unknown option_found option_exact_refuted","Names of C strings without NUL; tables given as lists. option_exact excludes the case of the _refuted theorem.")
c("C79","proved","conf_reads conf_others conf_accepts conf_checks required_given refused_same process_sets process_others leaf_takes leaf_only_takes set_option_only conf_error_refuted nan_refuted wide_nan_refuted","Option types modelled: BOOL, integers, DOUBLE (Jsi_Number), STRBUF, VALUE/STRING/ARRAY/OBJ/FUNC/REGEXP, enumerations, sets, structures, arrays; see OptModel.v for what is left out. conf_reads is for the top level and for types other than structures and sets (sets: C81); set_option_only is the frame at any depth. The _refuted theorems are the departures named in the statement.")
c("C80","proved","confs_protected protected_kept no_null_spares sub_null_refuted array_init_refuted","Protected options in structures at any depth. The _refuted theorems are the departures named in the statement.")
c("C81","proved","enum_exact set_text set_array set_object_byte set_text_reads bitset_reads set_object_refuted set_empty_refuted set_small_refuted set_31_refuted enum_negative_refuted","Tables of at most 31 names (128 for enumerations). The _refuted theorems are the departures named in the statement.")
c("C82","proved","finds class_in_count_refuted deep_count_refuted deep_optional_refuted zero_count_refuted empty_assertion_refuted optional_assertion_refuted","The _refuted theorems show that each condition named in the statement is needed: they are errors of the code.")
c("C83","proved","counts_keep_meaning states_apart","What happens outside the conditions is shown by the _refuted theorems of C82.")
c("C84","proved","bracket_reads icase_range_refuted","For locales in which cases are paired (the code's comments assume this); at most 32767 literals (two for each character and, ignoring case, one more for each character of a range) and 64 classes, as in the code.")
c("C85","proved","pattern_reads search_finds parse_total counts_bounded open_group_refused bad_count_refused escape_refuted","Patterns are lists of characters (mbtowc apart); the grammar of PatSpec.v (no back references, no repetition signs at the beginning of a branch). pattern_reads has no limits but the grammar; search_finds has those of C82.")
#END
p = os.path.join(os.path.dirname(__file__), "..", "MANIFEST.json")
C.sort(key=lambda x: x["property"])
json.dump({"claims": C}, open(p, "w"), indent=1)
print(len(C))
# theories/Audit.v: Print Assumptions of every theorem of the manifest
import glob, re
th = os.path.join(os.path.dirname(__file__), "..", "rocq", "theories")
where = {}
for f in sorted(glob.glob(th + "/*.v")):
    if f.endswith("Audit.v"): continue
    for n in re.findall(r"^\s*(?:Theorem|Lemma|Corollary)\s+(\w+)", open(f).read(), re.M):
        where.setdefault(n, []).append(os.path.basename(f)[:-2])
mods, out = [], []
for x in C:
    for t in x["theorems"]:
        m = where.get(t)
        if not m: print("MISSING", t); continue
        m = [k for k in m if "Props" in k] or m
        if len(m) > 1: print("AMBIGUOUS", t, m)
        if m[0] not in mods: mods.append(m[0])
        out.append("Print Assumptions %s.%s." % (m[0], t))
with open(th + "/Audit.v", "w") as f:
    f.write("(** Generated by tools/gen_manifest.py: what every theorem of MANIFEST.json rests on. *)\n")
    f.write("From Verif Require %s.\n" % " ".join(sorted(mods)))
    f.write("\n".join(dict.fromkeys(out)) + "\n")
