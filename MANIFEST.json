{
 "claims": [
  {
   "property": "C01",
   "status": "proved",
   "theorems": [
    "C01_utf8_round_trip",
    "C01_encoder_accepts_exactly_the_scalar_values"
   ],
   "note": ""
  },
  {
   "property": "C02",
   "status": "proved",
   "theorems": [
    "C02_decode_canonical_and_in_bounds",
    "C02_no_two_encodings"
   ],
   "note": ""
  },
  {
   "property": "C03",
   "status": "partial",
   "theorems": [
    "C03_decode_yields_scalars_refuted",
    "C03_rendering_decoded_text_refuted",
    "C03_decode_range_partial"
   ],
   "note": "Refuted: surrogates (ED A0 80) and numbers up to 0x1FFFFF (F7 BF BF BF) are decoded; rendering then aborts or loses text. Proved: decoded characters lie in 1..0x1FFFFF."
  },
  {
   "property": "C04",
   "status": "proved",
   "theorems": [
    "C04_longest_valid_prefix",
    "C04_prefix_unique",
    "C04_valid_text_kept"
   ],
   "note": ""
  },
  {
   "property": "C05",
   "status": "proved",
   "theorems": [
    "C05_strings_are_sequences_under_any_history"
   ],
   "note": ""
  },
  {
   "property": "C06",
   "status": "proved",
   "theorems": [
    "C06_vector_index",
    "C06_string_index",
    "C06_valid_indices",
    "C06_from_the_end"
   ],
   "note": ""
  },
  {
   "property": "C07",
   "status": "partial",
   "theorems": [
    "C07_substring_to_the_end_refuted",
    "C07_substring_partial",
    "C07_substring_reaching_the_end_never_works"
   ],
   "note": "Refuted: the bound test rejects every slice that reaches the end of the string. Proved for slices that end before it."
  },
  {
   "property": "C08",
   "status": "partial",
   "theorems": [
    "C08_remove_all_substrings_partial",
    "C08_empty_substring_diverges_refuted"
   ],
   "note": "Refuted for the empty substring (never terminates). Proved for every non-empty substring."
  },
  {
   "property": "C09",
   "status": "proved",
   "theorems": [
    "C09_split",
    "C09_split_one_character",
    "C09_empty_delimiter_aborts"
   ],
   "note": ""
  },
  {
   "property": "C10",
   "status": "proved",
   "theorems": [
    "C10_edit_distance",
    "C10_metric"
   ],
   "note": ""
  },
  {
   "property": "C11",
   "status": "proved",
   "theorems": [
    "C11_string_order",
    "C11_total_order",
    "C11_equality"
   ],
   "note": ""
  },
  {
   "property": "C12",
   "status": "proved",
   "theorems": [
    "C12_equal_strings_hash_equally"
   ],
   "note": ""
  },
  {
   "property": "C13",
   "status": "proved",
   "theorems": [
    "C13_vector_refines_list"
   ],
   "note": ""
  },
  {
   "property": "C14",
   "status": "partial",
   "theorems": [
    "C14_gap_is_zero_refuted",
    "C14_gap_partial"
   ],
   "note": "Refuted: slots freed by earlier removals keep their stale content. Proved: position and length in all cases, zero gap when the vector had to grow."
  },
  {
   "property": "C15",
   "status": "proved",
   "theorems": [
    "C15_list_well_formed"
   ],
   "note": ""
  },
  {
   "property": "C16",
   "status": "partial",
   "theorems": [
    "C16_get_at_never_crashes_refuted",
    "C16_get_at_partial"
   ],
   "note": "Refuted: octaspire_list_get_at with index other than 0 or -1 on an empty list aborts (verify_not_null). Proved for non-empty lists and for 0, -1."
  },
  {
   "property": "C17",
   "status": "proved",
   "theorems": [
    "C17_queue_fifo",
    "C17_queue_bounded",
    "C17_queue_unlimited_keeps_all"
   ],
   "note": ""
  },
  {
   "property": "C18",
   "status": "proved",
   "theorems": [
    "C18_map_refines_multimap",
    "C18_add_map"
   ],
   "note": ""
  },
  {
   "property": "C19",
   "status": "proved",
   "theorems": [
    "C19_iteration_visits_each_once"
   ],
   "note": ""
  },
  {
   "property": "C20",
   "status": "proved",
   "theorems": [
    "C20_load_assertion_never_fires"
   ],
   "note": ""
  },
  {
   "property": "C21",
   "status": "partial",
   "theorems": [
    "C21_size_bounded_refuted",
    "C21_size_partial"
   ],
   "note": "Refuted: numBucketsInUse is never decremented by remove, so putting and removing one key doubles the table without bound. Proved: size is 128*2^j and bounded by 8/3 of the number of operations."
  },
  {
   "property": "C22",
   "status": "partial",
   "theorems": [
    "C22_put_replaces_refuted",
    "C22_remove_then_put_partial"
   ],
   "note": "Refuted: a second put of a present key stores a second value and reading it asserts. Proved: remove-then-put replaces."
  },
  {
   "property": "C23",
   "status": "proved",
   "theorems": [
    "C23_base64_round_trip"
   ],
   "note": ""
  },
  {
   "property": "C24",
   "status": "partial",
   "theorems": [
    "C24_decoding_is_safe_refuted",
    "C24_decoding_is_safe_partial"
   ],
   "note": "Refuted: decoding 'IC==' peeks into an empty vector. Proved: texts without '=' and all encoder output decode safely; the decoder never aborts or loops."
  },
  {
   "property": "C25",
   "status": "proved",
   "theorems": [
    "C25_line_and_column"
   ],
   "note": ""
  },
  {
   "property": "C26",
   "status": "proved",
   "theorems": [
    "C26_lexer_progress",
    "C26_tokenising_terminates",
    "C26_input_position"
   ],
   "note": ""
  },
  {
   "property": "C27",
   "status": "proved",
   "theorems": [
    "C27_blanks_are_insignificant"
   ],
   "note": ""
  },
  {
   "property": "C28",
   "status": "partial",
   "theorems": [
    "C28_integers_read_back_partial",
    "C28_integers_read_back_refuted"
   ],
   "note": "Refuted for -2147483648 (signed negation overflow while reading). Proved for every other int32."
  },
  {
   "property": "C29",
   "status": "partial",
   "theorems": [
    "C29_strings_read_back_partial",
    "C29_strings_read_back_refuted"
   ],
   "note": "Refuted: ']' and '|...|' inside strings are printed unescaped. Proved for every string of non-NUL scalar characters without ']' and '|'."
  },
  {
   "property": "C30",
   "status": "partial",
   "theorems": [
    "C30_characters_and_symbols_read_back_partial",
    "C30_characters_read_back_refuted"
   ],
   "note": "Refuted for the empty character value read from '|00|'. Proved for every non-NUL scalar character and every symbol text."
  },
  {
   "property": "C31",
   "status": "proved",
   "theorems": [
    "C31_nested_data_reads_back"
   ],
   "note": ""
  },
  {
   "property": "C32",
   "status": "proved",
   "theorems": [
    "C32_values_come_from_balanced_tokens",
    "C32_unmatched_open_is_error",
    "C32_unexpected_close_is_error"
   ],
   "note": ""
  },
  {
   "property": "C33",
   "status": "partial",
   "theorems": [
    "C33_truncated_literals_refuted",
    "C33_truncated_literals_partial"
   ],
   "note": "Refuted for numbers ('{D+5' at end of input is 5). Proved for string and character literals cut anywhere."
  },
  {
   "property": "C34",
   "status": "partial",
   "theorems": [
    "C34_parser_terminates_and_progresses_partial",
    "C34_parsing_never_crashes_refuted"
   ],
   "note": "Refuted: long digit sequences (undefined conversion) and escaped surrogates in strings (abort). Proved: parsing never loops, makes progress, and returns normally whenever every token can be read."
  },
  {
   "property": "C35",
   "status": "partial",
   "theorems": [
    "C35_integer_comparison_refuted",
    "C35_integer_comparison_partial"
   ],
   "note": "False as stated: the comparison subtracts, which overflows (undefined behaviour) when the difference does not fit in 32 bits (C35_integer_comparison_refuted). Proved whenever it fits."
  },
  {
   "property": "C36",
   "status": "partial",
   "theorems": [
    "C36_compare_by_structure_partial",
    "C36_functions_equal",
    "C36_structural_order",
    "C36_equality_is_structural_partial",
    "C36_antisymmetric_partial",
    "C36_transitive_partial"
   ],
   "note": "Proved for values whose integers lie within one window of 2^31 (outside, C35's overflow makes it false), texts without NUL and sequences shorter than 2^31; C36_functions_equal: two functions with equal parts compare equal and differing parts make them unequal. Hash maps and environments are not covered (C39)."
  },
  {
   "property": "C37",
   "status": "partial",
   "theorems": [
    "C37_equal_values_hash_equally_refuted",
    "C37_equal_atoms_hash_equally_partial",
    "C37_equal_keys_find_the_same_partial"
   ],
   "note": "False as stated: 1 == 1.0, equal vectors/lists/maps at different addresses, and versions differing in build metadata are equal with different hashes. Proved for nil, booleans, integers, strings, characters and symbols."
  },
  {
   "property": "C38",
   "status": "partial",
   "theorems": [
    "C38_deep_copy_partial",
    "C38_independent_partial",
    "C38_copy_is_equal_partial",
    "C38_copy_builtin_partial",
    "C38_copy_is_an_error_refuted",
    "C38_copy_of_function_refuted"
   ],
   "note": "Proved for the copy the virtual machine makes (used by the builtin, by =, define, vectors of values ...): every graph with sharing, hash maps with atomic distinct keys, any collection schedule; the copy is structurally equal, consists of new values only, and is independent of the original. Proved for the builtin copy of vectors (deep), strings, integers. Refuted: other kinds of values give an error, a vector with a function crashes. Missing: maps whose keys were made equal by mutation; that copying an acyclic value ends."
  },
  {
   "property": "C39",
   "status": "partial",
   "theorems": [
    "C39_hash_map_comparison_refuted",
    "C39_different_sizes_partial"
   ],
   "note": "False as stated: two maps of the same size with different keys are each greater than the other. Proved for maps of different sizes."
  },
  {
   "property": "C40",
   "status": "partial",
   "theorems": [
    "C40_semver_precedence_partial",
    "C40_precedence_is_a_total_preorder",
    "C40_semver_precedence_refuted"
   ],
   "note": "Refuted for components that differ by 2^31 or more (size_t difference stored in an int). Proved for all components below 2^31; the precedence relation itself is proved to be a total preorder."
  },
  {
   "property": "C41",
   "status": "partial",
   "theorems": [
    "C41_semver_add_subtract_partial",
    "C41_failure_changes_nothing_refuted",
    "C41_identifiers"
   ],
   "note": "Refuted when the argument has pre-release identifiers (partial update before a failing removal). Proved for arguments without pre-release identifiers; 0.0.0 succeeds without effect."
  },
  {
   "property": "C42",
   "status": "proved",
   "theorems": [
    "C42_gc_safe",
    "C42_reachability_preserved"
   ],
   "note": ""
  },
  {
   "property": "C43",
   "status": "proved",
   "theorems": [
    "C43_gc_complete"
   ],
   "note": ""
  },
  {
   "property": "C44",
   "status": "proved",
   "theorems": [
    "C44_mark_terminates",
    "C44_gc_terminates"
   ],
   "note": ""
  },
  {
   "property": "C45",
   "status": "partial",
   "theorems": [
    "C45_docvec_survives_refuted",
    "C45_docstring_survives_partial"
   ],
   "note": "False as stated: documentation vectors are not marked, so they are freed while their function is reachable. Proved for documentation strings."
  },
  {
   "property": "C46",
   "status": "partial",
   "theorems": [
    "C46_pending_return_refuted",
    "C46_collection_partial",
    "C46_without_collection_partial",
    "C46_value_of_form_partial"
   ],
   "note": "False as stated: the pending value is not a root, so a collection before the function returns frees it (C46_pending_return_refuted, with a collection at every allocation). Proved: a collection keeps the pending value exactly if it is reachable from the stack; without a collection it exists; if the form of the body that runs the return has the returned value as its value (return, if, do ...), the call gives it unchanged whenever collections happen."
  },
  {
   "property": "C47",
   "status": "proved",
   "theorems": [
    "C47_identities_unique"
   ],
   "note": ""
  },
  {
   "property": "C48",
   "status": "proved",
   "theorems": [
    "C48_evaluation",
    "C48_reading",
    "C48_texts",
    "C48_library"
   ],
   "note": ""
  },
  {
   "property": "C49",
   "status": "proved",
   "theorems": [
    "C49_lookup",
    "C49_binding",
    "C49_history",
    "C49_in_sessions"
   ],
   "note": "C49_in_sessions: the hypothesis names_unique holds after every session on a booted machine."
  },
  {
   "property": "C50",
   "status": "proved",
   "theorems": [
    "C50_lexical_scope"
   ],
   "note": ""
  },
  {
   "property": "C51",
   "status": "partial",
   "theorems": [
    "C51_plain",
    "C51_rest",
    "C51_refused",
    "C51_lone_ellipsis_refuted"
   ],
   "note": "False for the single corner case of a lone `...' parameter: every call aborts (assert) instead of binding all arguments (C51_lone_ellipsis_refuted). Proved for plain lists, for lists ending in `...' with at least one named parameter, and the refusal of other counts."
  },
  {
   "property": "C52",
   "status": "proved",
   "theorems": [
    "C52_builtin_call",
    "C52_function_call",
    "C52_argument_error"
   ],
   "note": "C52_builtin_call and C52_function_call say what a call consists of (SpecCall.v); C52_argument_error is the property."
  },
  {
   "property": "C53",
   "status": "proved",
   "theorems": [
    "C53_if",
    "C53_if_one_branch",
    "C53_select"
   ],
   "note": "An if whose test gives a function calls that function without arguments and uses its result as the test (if_run/test_run)."
  },
  {
   "property": "C54",
   "status": "partial",
   "theorems": [
    "C54_return_pending_partial",
    "C54_return_ends_partial",
    "C54_stale_return_refuted"
   ],
   "note": "False as stated: a return outside any function stays pending and ends a later call (C54_stale_return_refuted). Proved: (return x) makes x pending; a form of a body after which a value is pending is the last form run, the function ends with that value, and nothing is pending afterwards."
  },
  {
   "property": "C55",
   "status": "partial",
   "theorems": [
    "C55_counting_partial",
    "C55_number_of_turns",
    "C55_changed_start_refuted"
   ],
   "note": "C55_counting_partial: the number of rounds always, the values of the iterator provided the value that the first number evaluates to is not changed by the body (the code reads it again in each round: C55_changed_start_refuted) and both are 32-bit integers. C55_number_of_turns gives the result. With a step, the number of the step is itself evaluated as the first form of the body (SpecFor.step_is). A distance that is no 32-bit integer is undefined behaviour."
  },
  {
   "property": "C56",
   "status": "proved",
   "theorems": [
    "C56_while",
    "C56_count"
   ],
   "note": "A pending return also ends the loop."
  },
  {
   "property": "C57",
   "status": "proved",
   "theorems": [
    "C57_nothing_after_exit"
   ],
   "note": ""
  },
  {
   "property": "C58",
   "status": "partial",
   "theorems": [
    "C58_plus_partial",
    "C58_times_partial",
    "C58_minus_partial",
    "C58_two_partial",
    "C58_one_sign_partial",
    "C58_mod_partial",
    "C58_division_by_zero_partial",
    "C58_overflow_refuted"
   ],
   "note": "False as stated: a partial result that does not fit is undefined behaviour even if the final result fits (C58_overflow_refuted). Proved: +, - and * whenever all partial results fit, in particular for two operands and for summands of one sign; mod is the C remainder, by zero an error; / by zero is an error."
  },
  {
   "property": "C59",
   "status": "partial",
   "theorems": [
    "C59_operands_kept_partial",
    "C59_minus_modifies_refuted"
   ],
   "note": "False as stated: (- s t) on strings modifies s (C59_minus_modifies_refuted). Proved: every other arithmetic call, and every other builtin in only_reads, changes nothing its arguments, the form or the stack reach."
  },
  {
   "property": "C60",
   "status": "proved",
   "theorems": [
    "C60_define",
    "C60_define_variable"
   ],
   "note": "C60_define says what every define form (4, 6 and 8 arguments, computed names, wrong keywords, wrong kinds) consists of (SpecDefine.v); C60_define_variable is the property: a new value for an atom, the value itself for anything else. The documentation is set on the shared collection itself, so a second define changes the first one's documentation."
  },
  {
   "property": "C61",
   "status": "partial",
   "theorems": [
    "C61_literal_changes_refuted",
    "C61_literal_is_itself_partial"
   ],
   "note": "False as stated: a literal is the value itself, so mutating the result of an evaluation changes the literal (C61_literal_changes_refuted). Proved: evaluating a literal gives the value read, as it is, and changes nothing."
  },
  {
   "property": "C62",
   "status": "partial",
   "theorems": [
    "C62_error_dropped_refuted",
    "C62_and_partial",
    "C62_or_partial",
    "C62_last_partial"
   ],
   "note": "False as stated: an error of an operand that is not the last is dropped (C62_error_dropped_refuted). Proved: what and/or evaluate, in which order, and the result (logic_run); an error of the last operand is the result."
  },
  {
   "property": "C63",
   "status": "partial",
   "theorems": [
    "C63_chain_refuted",
    "C63_order_partial",
    "C63_equality_partial",
    "C63_two_partial"
   ],
   "note": "False as stated: each argument is only compared with the first one (C63_chain_refuted). Proved: what is evaluated and compared, and the result (compare_run), so that the property holds for two arguments."
  },
  {
   "property": "C64",
   "status": "proved",
   "theorems": [
    "C64_in_order",
    "C64_value",
    "C64_first_error"
   ],
   "note": ""
  },
  {
   "property": "C65",
   "status": "partial",
   "theorems": [
    "C65_reading_ends",
    "C65_text_ends_partial",
    "C65_reading_stuck_refuted"
   ],
   "note": "False as stated: after exit the reader never moves past a token that cannot be read, e.g. `(exit) ]' (C65_reading_stuck_refuted). Proved: reading one value always ends (C65_reading_ends); the whole text ends whenever every evaluation it asks for ends and nothing unreadable follows an exit (C65_text_ends_partial)."
  },
  {
   "property": "C66",
   "status": "partial",
   "theorems": [
    "C66_memory_safe_partial",
    "C66_consistent_partial",
    "C66_copy_refuted",
    "C66_set_refuted",
    "C66_range_refuted",
    "C66_template_refuted"
   ],
   "note": "False as stated: return (C46), = on a value in use, copy with a predicate, cp@ with a range and template use freed memory (C66_copy_refuted, C66_set_refuted, C66_range_refuted, C66_template_refuted). Proved for every library without these five functions; with the whole library the machine stays consistent."
  },
  {
   "property": "C67",
   "status": "proved",
   "theorems": [
    "C67_do"
   ],
   "note": ""
  },
  {
   "property": "C68",
   "status": "proved",
   "theorems": [
    "C68_quote"
   ],
   "note": ""
  },
  {
   "property": "C69",
   "status": "partial",
   "theorems": [
    "C69_appended_text_partial",
    "C69_appended_at_end_refuted"
   ],
   "note": "Proved while something is left to read; refuted when everything has been read: the position is then that of the last character."
  },
  {
   "property": "C70",
   "status": "partial",
   "theorems": [
    "C70_standard_encoding",
    "C70_one_line",
    "C70_line_length_partial",
    "C70_line_length_refuted"
   ],
   "note": "Proved: the text without newlines is the RFC 4648 encoding, for every input and line length; no newlines with line length 0; full lines when no padding is needed. Refuted with padding: a line may be longer than asked (one octet, lines of 3) and there may be empty lines."
  },
  {
   "property": "C71",
   "status": "proved",
   "theorems": [
    "C71_define_function"
   ],
   "note": "C71_define_function for the six-argument form; what the eight-argument form (in a given environment) does is part of C60_define. Defining with eight arguments a value that is not a function reads a union through the wrong member (undefined)."
  },
  {
   "property": "C72",
   "status": "partial",
   "theorems": [
    "C72_for_in_partial",
    "C72_number_of_turns"
   ],
   "note": "C72_for_in_partial: the number of rounds (fixed from the size at the start) always, the items provided the collection is not changed meanwhile. Missing: loops over environments (not modelled)."
  },
  {
   "property": "C73",
   "status": "partial",
   "theorems": [
    "C73_integer_literals_partial",
    "C73_wrong_digit",
    "C73_real_literals_partial",
    "C73_nearest_refuted"
   ],
   "note": "Integers: at most 256 digits (the code asserts that) and magnitude below 2^31 (larger ones wrap, and -2^31 is undefined behaviour). Reals: the digits together below 2^53; the result is stated by the double operations the code performs (C73_nearest_refuted: it is not always the nearest double). White space inside the braces is not covered."
  },
  {
   "property": "C74",
   "status": "proved",
   "theorems": [
    "C74_character_literals",
    "C74_long_character",
    "C74_string_literals"
   ],
   "note": "For characters that are Unicode scalar values other than NUL."
  },
  {
   "property": "C75",
   "status": "proved",
   "theorems": [
    "C75_abbreviations",
    "C75_abbreviated_error"
   ],
   "note": ""
  },
  {
   "property": "C76",
   "status": "proved",
   "theorems": [
    "C76_names",
    "C76_call",
    "C76_reader_does",
    "C76_not",
    "C76_predicates"
   ],
   "note": ""
  },
  {
   "property": "C77",
   "status": "proved",
   "theorems": [
    "C77_len"
   ],
   "note": "All kinds of data that are modelled; length of errors, specials and builtins is not part of the statement."
  },
  {
   "property": "C78",
   "status": "partial",
   "theorems": [
    "C78_vector",
    "C78_list",
    "C78_queue",
    "C78_queue_max",
    "C78_hash_map",
    "C78_equal_keys_refuted"
   ],
   "note": "Refuted for hash-map with equal keys: both values are kept under one key (reading the key then asserts). Proved for everything else."
  },
  {
   "property": "C79",
   "status": "proved",
   "theorems": [
    "C79_doc",
    "C79_uid",
    "C79_uid_identity",
    "C79_env_new",
    "C79_env_current",
    "C79_env_global"
   ],
   "note": ""
  },
  {
   "property": "C80",
   "status": "proved",
   "theorems": [
    "C80_ln_at"
   ],
   "note": "On vectors (and the errors for strings); ln@ on other kinds is not modelled."
  },
  {
   "property": "C81",
   "status": "proved",
   "theorems": [
    "C81_exit"
   ],
   "note": ""
  },
  {
   "property": "C82",
   "status": "proved",
   "theorems": [
    "C82_nothing_else",
    "C82_increment",
    "C82_decrement",
    "C82_plus_one",
    "C82_minus_one"
   ],
   "note": ""
  },
  {
   "property": "C83",
   "status": "partial",
   "theorems": [
    "C83_nothing_else",
    "C83_pop_back_partial",
    "C83_pop_front_partial",
    "C83_back_of_vector",
    "C83_front_of_vector"
   ],
   "note": "Symbols as arguments are not modelled."
  },
  {
   "property": "C84",
   "status": "partial",
   "theorems": [
    "C84_nothing_else_partial",
    "C84_nothing_else_partial",
    "C84_plus_equals_partial",
    "C84_vector",
    "C84_integers",
    "C84_strings"
   ],
   "note": "Not modelled: symbols as the first argument; adding to a version with a pre-release itself never ends; texts with a point added to numbers are undefined behaviour. With equal keys the hash map keeps both values (C78_equal_keys_refuted), which SpecWrite.entered excludes."
  },
  {
   "property": "C85",
   "status": "proved",
   "theorems": [
    "C85_fn",
    "C85_macro",
    "C85_new_each_time"
   ],
   "note": "Every form, formals and environment; the result is new and its parts are exactly the given forms."
  },
  {
   "property": "C86",
   "status": "proved",
   "theorems": [
    "C86_eval"
   ],
   "note": "Every form and every outcome of the evaluations inside it."
  },
  {
   "property": "C87",
   "status": "partial",
   "theorems": [
    "C87_macro",
    "C87_other_values",
    "C87_evaluated_once_refuted"
   ],
   "note": "C87_macro is the whole behaviour of the code; C87_evaluated_once_refuted: when the value of the expansion is a vector with elements its first element is evaluated once more, and when the value of that is a macro the vector is evaluated as an expansion again."
  },
  {
   "property": "C88",
   "status": "partial",
   "theorems": [
    "C88_set_partial",
    "C88_nothing_else",
    "C88_atom",
    "C88_vector",
    "C88_list",
    "C88_queue",
    "C88_nothing_else_part",
    "C88_element",
    "C88_past_the_end",
    "C88_character",
    "C88_wrong_place",
    "C88_key"
   ],
   "note": "Missing: a symbol as the first argument is not modelled. Elements that are error messages are left out of the closed statements (their text may be extended)."
  },
  {
   "property": "C89",
   "status": "proved",
   "theorems": [
    "C89_max",
    "C89_min",
    "C89_max_integers"
   ],
   "note": ""
  },
  {
   "property": "C90",
   "status": "partial",
   "theorems": [
    "C90_to_string_partial"
   ],
   "note": "Missing: the printed form of environments, builtins, specials and NaN."
  },
  {
   "property": "C91",
   "status": "proved",
   "theorems": [
    "C91_to_integer",
    "C91_to_real",
    "C91_leading_real",
    "C91_nearest",
    "C91_character"
   ],
   "note": "Texts of Unicode scalar values; strtod is modelled as correctly rounding (Strtod.v), integers of texts that do not fit keep their last 32 bits after clamping to long."
  },
  {
   "property": "C92",
   "status": "proved",
   "theorems": [
    "C92_distance",
    "C92_sqrt",
    "C92_starts_with"
   ],
   "note": ""
  },
  {
   "property": "C93",
   "status": "proved",
   "theorems": [
    "C93_find"
   ],
   "note": ""
  },
  {
   "property": "C94",
   "status": "proved",
   "theorems": [
    "C94_split"
   ],
   "note": ""
  },
  {
   "property": "C95",
   "status": "proved",
   "theorems": [
    "C95_minus_equals",
    "C95_minus_equals_equals",
    "C95_identity",
    "C95_vector",
    "C95_integers",
    "C95_string",
    "C95_key",
    "C95_nothing_else",
    "C95_identity_nothing_else"
   ],
   "note": "Complete. A text with a point subtracted from a number is undefined behaviour; of a version minus itself only the numbers are determined, and that only own identifiers leave the pre-release."
  },
  {
   "property": "C96",
   "status": "proved",
   "theorems": [
    "C96_text_outcome",
    "C96_value_outcome"
   ],
   "note": "Proved for the whole modelled evaluator, reader and library. An outcome is anything but NoFuel, the result of runs that reach the bound or code that is not modelled."
  },
  {
   "property": "C97",
   "status": "proved",
   "theorems": [
    "C97_as_without_collection",
    "C97_collection_unobservable",
    "C97_reachable"
   ],
   "note": "Proved for the whole modelled evaluator and library. A collection may make a session fail (use of a freed value, C66; abort on a hash map element with two values); it never changes a value."
  },
  {
   "property": "C98",
   "status": "proved",
   "theorems": [
    "C98_string_format"
   ],
   "note": ""
  },
  {
   "property": "C99",
   "status": "proved",
   "theorems": [
    "C99_print",
    "C99_println"
   ],
   "note": ""
  },
  {
   "property": "C100",
   "status": "proved",
   "theorems": [
    "C100_print_readably"
   ],
   "note": ""
  },
  {
   "property": "C101",
   "status": "proved",
   "theorems": [
    "C101_evaluation",
    "C101_texts"
   ],
   "note": ""
  },
  {
   "property": "C102",
   "status": "proved",
   "theorems": [
    "C102_real_text",
    "C102_every_real"
   ],
   "note": ""
  },
  {
   "property": "C103",
   "status": "partial",
   "theorems": [
    "C103_generate",
    "C103_same_value",
    "C103_same_character",
    "C103_calls",
    "C103_indices",
    "C103_refuted"
   ],
   "note": "False as stated (C103_refuted: a generator that changes the result). Proved: the exact sequence of evaluations and changes for every form (C103_generate), and that the result has exactly n elements, the values of the calls in order, when the calls leave it alone (C103_calls), or n times the value (C103_same_value)."
  },
  {
   "property": "C104",
   "status": "partial",
   "theorems": [
    "C104_refuted",
    "C104_values_partial",
    "C104_calls_partial",
    "C104_length_partial"
   ],
   "note": "False as stated (C104_refuted): the number of calls is the length of the longest vector, so vectors of different lengths end the program, and so does 'string.  Proved for all runs that return: the sequence of evaluations (C103_generate with generate_map), that the values are those of the calls in order (C104_values_partial), what each call is made of (C104_calls_partial), and how many there are (C104_length_partial)."
  },
  {
   "property": "C106",
   "status": "partial",
   "theorems": [
    "C106_read_and_eval_string_partial",
    "C106_refuted"
   ],
   "note": "False as stated for texts without a form, such as blanks or a comment, which end the program (C106_refuted).  Proved for every call that returns."
  },
  {
   "property": "C107",
   "status": "proved",
   "theorems": [
    "C107_plus",
    "C107_times",
    "C107_slash",
    "C107_mod",
    "C107_minus",
    "C107_minus_text"
   ],
   "note": "Calls in which the C code would overflow int32_t end in the model as undefined behaviour, so nothing is claimed of them. Vectors and maps: for arguments whose contained hash maps have atomic, pairwise unequal keys (plain_maps, plain_entries; otherwise a copy can merge entries)."
  },
  {
   "property": "C108",
   "status": "proved",
   "theorems": [
    "C108_cp_at"
   ],
   "note": "For every call that returns. A range during which a collection happens uses freed memory (C66_range_refuted), queues abort, a list index out of range and a reversed range end in abort or undefined behaviour. Copies: contained hash maps with atomic, pairwise unequal keys."
  },
  {
   "property": "C109",
   "status": "proved",
   "theorems": [
    "C109_files_only_grow",
    "C109_other_files_untouched"
   ],
   "note": "stand-alone model of ports (Port.v) above a model of stdio; paths are compared as texts (no links, no '.')."
  },
  {
   "property": "C110",
   "status": "partial",
   "theorems": [
    "C110_written_arrives",
    "C110_short_write_is_an_error_refuted",
    "C110_text_all_or_error"
   ],
   "note": "refuted: a refused integer is not an error."
  },
  {
   "property": "C111",
   "status": "proved",
   "theorems": [
    "C111_opened_at_the_beginning",
    "C111_read_one",
    "C111_read_many",
    "C111_reading_in_order",
    "C111_seek",
    "C111_seek_input",
    "C111_dist"
   ],
   "note": "any symbol means from-current."
  },
  {
   "property": "C112",
   "status": "proved",
   "theorems": [
    "C112_open",
    "C112_closed_port_does_nothing",
    "C112_stays_closed",
    "C112_closed_length"
   ],
   "note": ""
  },
  {
   "property": "C113",
   "status": "partial",
   "theorems": [
    "C113_fine_calls_return",
    "C113_every_call_returns_refuted",
    "C113_read_after_write_refuted",
    "C113_copy_refuted"
   ],
   "note": "refuted in full."
  },
  {
   "property": "C114",
   "status": "partial",
   "theorems": [
    "C114_length_when_opened",
    "C114_present_length_refuted"
   ],
   "note": "refuted as the present length."
  },
  {
   "property": "C115",
   "status": "partial",
   "theorems": [
    "C115_write_seek_read",
    "C115_small_numbers_come_back",
    "C115_all_octets_come_back_refuted"
   ],
   "note": "refuted for octets from 128 on."
  },
  {
   "property": "C116",
   "status": "partial",
   "theorems": [
    "C116_conversation",
    "C116_nothing_after_exit",
    "C116_rest_dropped",
    "C116_blank_line_refuted",
    "C116_every_form_refuted",
    "C116_continued_form_refuted"
   ],
   "note": "C116_conversation is an equivalence between runs of the modelled main and the conversation relation `talk` of SpecRepl.v; blank lines, dropped forms and continued forms are refuted by theorem."
  },
  {
   "property": "C117",
   "status": "proved",
   "theorems": [
    "C117_status",
    "C117_exit_stands",
    "C117_program_exit_stands",
    "C117_first_failure"
   ],
   "note": ""
  },
  {
   "property": "C118",
   "status": "partial",
   "theorems": [
    "C118_command_line",
    "C118_information",
    "C118_strings",
    "C118_script",
    "C118_no_script",
    "C118_interactive",
    "C118_blank_script_refuted"
   ],
   "note": ""
  },
  {
   "property": "C119",
   "status": "partial",
   "theorems": [
    "C119_consistent",
    "C119_memory_safe_partial"
   ],
   "note": "Consistency, stack and history for the whole library; memory safety for the library without the functions C66 excludes (partial)."
  },
  {
   "property": "C120",
   "status": "partial",
   "theorems": [
    "C120_memory_safe_partial",
    "C120_consistent",
    "C120_unanchored_refuted"
   ],
   "note": "C120_memory_safe_partial: for libraries without the functions C66 excludes; balance, consistency and the host's values for the whole library (C120_consistent). C120_unanchored_refuted: create_new_value_vector_from_values with values that are not on the stack."
  },
  {
   "property": "C121",
   "status": "proved",
   "theorems": [
    "C121_call"
   ],
   "note": ""
  },
  {
   "property": "C122",
   "status": "proved",
   "theorems": [
    "C122_no_input",
    "C122_text"
   ],
   "note": ""
  },
  {
   "property": "C123",
   "status": "partial",
   "theorems": [
    "C123_bound",
    "C123_define_integer_refuted",
    "C123_in_histories"
   ],
   "note": "C123_define_integer_refuted is about the machine booted with the whole library. Hypothesis names_unique (no environment binds a name twice) as in C49. C123_in_histories: that hypothesis holds on every machine just booted with any functions and after every host history."
  },
  {
   "property": "C124",
   "status": "proved",
   "theorems": [
    "C124_prevented",
    "C124_settings",
    "C124_stack",
    "C124_quit"
   ],
   "note": "C124_prevented excludes the explicit collection (octaspire_dern_vm_gc), which does not look at the setting."
  },
  {
   "property": "C125",
   "status": "proved",
   "theorems": [
    "C125_evaluation",
    "C125_session",
    "C125_host",
    "C125_put",
    "C125_remove",
    "C125_pairs"
   ],
   "note": "The stored hash of a key is what the key's hash was when it was stored; that it still is (keys changed after) is not claimed."
  },
  {
   "property": "C105",
   "status": "partial",
   "theorems": [
    "C105_template",
    "C105_empty_refuted",
    "C105_flat",
    "C105_copies",
    "C105_one"
   ],
   "note": "C105_template: every template form does what the relation template_run of SpecTemplate.v says (visible events in order, result new); nested vectors included, each form read in the machine at that moment. C105_flat: without vectors among the forms and when what is evaluated leaves the forms alone, the result is a new vector of exactly the forms, values and spliced elements in order, one evaluation for each comma. C105_copies, C105_one: no commas, one form. Refuted: C105_empty_refuted, a template in which an empty vector stands uses a NULL pointer (verify_not_null ends the program). Not stated: that what a nested new vector holds at the end of the template is what it held when it was added (code evaluated later cannot reach it, but the relation describes it at the time it is added)."
  },
  {
   "property": "C126",
   "status": "proved",
   "theorems": [
    "C126_as_without_collection",
    "C126_collection_unobservable",
    "C126_conversation"
   ],
   "note": "C126_as_without_collection: a host session with any schedule and any requests about the collector has the answers of the session without these requests on a machine that never collects; C126_collection_unobservable: two sessions that differ only in the schedule and these requests; C126_conversation: adaptive hosts. Sessions that use a freed value (possible when the host breaks the stack rule, C120, or with the functions of C66) are not compared."
  },
  {
   "property": "C127",
   "status": "partial",
   "theorems": [
    "C127_read_and_eval_path_partial",
    "C127_refuted",
    "C127_same_as_string"
   ],
   "note": "C127_read_and_eval_path_partial gives the whole behaviour of every call that returns; missing is that every file has a value: a file without a form (blanks, a comment) stops the program on a check that the result is not NULL (C127_refuted). The file system is a function of time (the count of addresses) and path: files are not changed by reading. C127_same_as_string: same outcome (including crashes) as read-and-eval-string of the text."
  },
  {
   "property": "C128",
   "status": "proved",
   "theorems": [
    "C128_arguments",
    "C128_variables",
    "C128_unchanged",
    "C128_unchanged_by_text",
    "C128_script_arguments"
   ],
   "note": "C128_arguments, C128_variables: what one call gives; C128_unchanged(_by_text): no evaluation changes what the host gave. C128_script_arguments: octaspire-dern-repl adds what follows the script's path."
  },
  {
   "property": "C129",
   "status": "partial",
   "theorems": [
    "C129_new",
    "C129_copy",
    "C129_copy_allowed",
    "C129_kind",
    "C129_order",
    "C129_order_by",
    "C129_order_pointers",
    "C129_copy_equal_refuted",
    "C129_is_equal_when",
    "C129_is_equal_refuted"
   ],
   "note": "Partial because the last sentence is refuted: without a comparison function a copy never compares equal to its original (C129_copy_equal_refuted), and octaspire_dern_c_data_is_equal is never true of a piece of data and itself (C129_is_equal_refuted; C129_is_equal_when says when it is: same payload and both names different). C129_order: the order, for any comparison functions that are total preorders. Plug-ins are functions here (deterministic, without effects); clean-up functions, which the code stores and never calls, and loading are not modelled. Pointers are compared by address."
  },
  {
   "property": "C130",
   "status": "partial",
   "theorems": [
    "C130_calls_partial",
    "C130_step"
   ],
   "note": "C130_calls_partial and C130_step: the answers of all calls, that the vector is always a permutation, and what one call does. Missing: that no arrangement is met twice."
  }
 ]
}