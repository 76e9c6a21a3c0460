{
 "C03": "Refuted: surrogates (ED A0 80) and numbers up to 0x1FFFFF (F7 BF BF BF) are decoded; rendering then aborts or loses text. Proved: decoded characters lie in 1..0x1FFFFF.",
 "C07": "Refuted: the bound test rejects every slice that reaches the end of the string. Proved for slices that end before it.",
 "C08": "Refuted for the empty substring (never terminates). Proved for every non-empty substring.",
 "C14": "Refuted: slots freed by earlier removals keep their stale content. Proved: position and length in all cases, zero gap when the vector had to grow.",
 "C16": "Refuted: octaspire_list_get_at with index other than 0 or -1 on an empty list aborts (verify_not_null). Proved for non-empty lists and for 0, -1.",
 "C21": "Refuted: numBucketsInUse is never decremented by remove, so putting and removing one key doubles the table without bound. Proved: size is 128*2^j and bounded by 8/3 of the number of operations.",
 "C22": "Refuted: a second put of a present key stores a second value and reading it asserts. Proved: remove-then-put replaces.",
 "C24": "Refuted: decoding 'IC==' peeks into an empty vector. Proved: texts without '=' and all encoder output decode safely; the decoder never aborts or loops.",
 "C28": "Refuted for -2147483648 (signed negation overflow while reading). Proved for every other int32.",
 "C29": "Refuted: ']' and '|...|' inside strings are printed unescaped. Proved for every string of non-NUL scalar characters without ']' and '|'.",
 "C30": "Refuted for the empty character value read from '|00|'. Proved for every non-NUL scalar character and every symbol text.",
 "C33": "Refuted for numbers ('{D+5' at end of input is 5). Proved for string and character literals cut anywhere.",
 "C34": "Refuted: long digit sequences (undefined conversion) and escaped surrogates in strings (abort). Proved: parsing never loops, makes progress, and returns normally whenever every token can be read.",
 "C40": "Refuted for components that differ by 2^31 or more (size_t difference stored in an int). Proved for all components below 2^31; the precedence relation itself is proved to be a total preorder.",
 "C41": "Refuted when the argument has pre-release identifiers (partial update before a failing removal). Proved for arguments without pre-release identifiers; 0.0.0 succeeds without effect.",
 "C35": "False as stated: the comparison subtracts, which overflows (undefined behaviour) when the difference does not fit in 32 bits (C35_integer_comparison_refuted). Proved whenever it fits.",
 "C36": "Proved for values whose integers lie within one window of 2^31 (outside, C35's overflow makes it false), texts without NUL and sequences shorter than 2^31; C36_functions_equal: two functions with equal parts compare equal and differing parts make them unequal. Hash maps and environments are not covered (C39).",
 "C37": "False as stated: 1 == 1.0, equal vectors/lists/maps at different addresses, and versions differing in build metadata are equal with different hashes. Proved for nil, booleans, integers, strings, characters and symbols.",
 "C39": "False as stated: two maps of the same size with different keys are each greater than the other. Proved for maps of different sizes.",
 "C45": "False as stated: documentation vectors are not marked, so they are freed while their function is reachable. Proved for documentation strings.",
 "C51": "False for the single corner case of a lone `...' parameter: every call aborts (assert) instead of binding all arguments (C51_lone_ellipsis_refuted). Proved for plain lists, for lists ending in `...' with at least one named parameter, and the refusal of other counts.",
 "C46": "False as stated: the pending value is not a root, so a collection before the function returns frees it (C46_pending_return_refuted, with a collection at every allocation). Proved: a collection keeps the pending value exactly if it is reachable from the stack; without a collection it exists; if the form of the body that runs the return has the returned value as its value (return, if, do ...), the call gives it unchanged whenever collections happen.",
 "C54": "False as stated: a return outside any function stays pending and ends a later call (C54_stale_return_refuted). Proved: (return x) makes x pending; a form of a body after which a value is pending is the last form run, the function ends with that value, and nothing is pending afterwards.",
 "C58": "False as stated: a partial result that does not fit is undefined behaviour even if the final result fits (C58_overflow_refuted). Proved: +, - and * whenever all partial results fit, in particular for two operands and for summands of one sign; mod is the C remainder, by zero an error; / by zero is an error.",
 "C59": "False as stated: (- s t) on strings modifies s (C59_minus_modifies_refuted). Proved: every other arithmetic call, and every other builtin in only_reads, changes nothing its arguments, the form or the stack reach.",
 "C61": "False as stated: a literal is the value itself, so mutating the result of an evaluation changes the literal (C61_literal_changes_refuted). Proved: evaluating a literal gives the value read, as it is, and changes nothing.",
 "C62": "False as stated: an error of an operand that is not the last is dropped (C62_error_dropped_refuted). Proved: what and/or evaluate, in which order, and the result (logic_run); an error of the last operand is the result.",
 "C63": "False as stated: each argument is only compared with the first one (C63_chain_refuted). Proved: what is evaluated and compared, and the result (compare_run), so that the property holds for two arguments.",
 "C65": "False as stated: after exit the reader never moves past a token that cannot be read, e.g. `(exit) ]' (C65_reading_stuck_refuted). Proved: reading one value always ends (C65_reading_ends); the whole text ends whenever every evaluation it asks for ends and nothing unreadable follows an exit (C65_text_ends_partial).",
 "C53": "An if whose test gives a function calls that function without arguments and uses its result as the test (if_run/test_run).",
 "C56": "A pending return also ends the loop.",
 "C66": "False as stated: return (C46), = on a value in use, copy with a predicate, cp@ with a range and template use freed memory (C66_copy_refuted, C66_set_refuted, C66_range_refuted, C66_template_refuted). Proved for every library without these five functions; with the whole library the machine stays consistent.",
 "C52": "C52_builtin_call and C52_function_call say what a call consists of (SpecCall.v); C52_argument_error is the property.",
 "C38": "Proved for the copy the virtual machine makes (used by the builtin, by =, define, vectors of values ...): every graph with sharing, hash maps with atomic distinct keys, any collection schedule; the copy is structurally equal, consists of new values only, and is independent of the original. Proved for the builtin copy of vectors (deep), strings, integers. Refuted: other kinds of values give an error, a vector with a function crashes. Missing: maps whose keys were made equal by mutation; that copying an acyclic value ends.",
 "C69": "Proved while something is left to read; refuted when everything has been read: the position is then that of the last character.",
 "C70": "Proved: the text without newlines is the RFC 4648 encoding, for every input and line length; no newlines with line length 0; full lines when no padding is needed. Refuted with padding: a line may be longer than asked (one octet, lines of 3) and there may be empty lines.",
 "C60": "C60_define says what every define form (4, 6 and 8 arguments, computed names, wrong keywords, wrong kinds) consists of (SpecDefine.v); C60_define_variable is the property: a new value for an atom, the value itself for anything else. The documentation is set on the shared collection itself, so a second define changes the first one's documentation.",
 "C71": "C71_define_function for the six-argument form; what the eight-argument form (in a given environment) does is part of C60_define. Defining with eight arguments a value that is not a function reads a union through the wrong member (undefined).",
 "C55": "C55_counting_partial: the number of rounds always, the values of the iterator provided the value that the first number evaluates to is not changed by the body (the code reads it again in each round: C55_changed_start_refuted) and both are 32-bit integers. C55_number_of_turns gives the result. With a step, the number of the step is itself evaluated as the first form of the body (SpecFor.step_is). A distance that is no 32-bit integer is undefined behaviour.",
 "C72": "C72_for_in_partial: the number of rounds (fixed from the size at the start) always, the items provided the collection is not changed meanwhile. Missing: loops over environments (not modelled).",
 "C73": "Integers: at most 256 digits (the code asserts that) and magnitude below 2^31 (larger ones wrap, and -2^31 is undefined behaviour). Reals: the digits together below 2^53; the result is stated by the double operations the code performs (C73_nearest_refuted: it is not always the nearest double). White space inside the braces is not covered.",
 "C74": "For characters that are Unicode scalar values other than NUL.",
 "C77": "All kinds of data that are modelled; length of errors, specials and builtins is not part of the statement.",
 "C78": "Refuted for hash-map with equal keys: both values are kept under one key (reading the key then asserts). Proved for everything else.",
 "C80": "On vectors (and the errors for strings); ln@ on other kinds is not modelled.",
 "C83": "Symbols as arguments are not modelled.",
 "C84": "Not modelled: symbols as the first argument; adding to a version with a pre-release itself never ends; texts with a point added to numbers are undefined behaviour. With equal keys the hash map keeps both values (C78_equal_keys_refuted), which SpecWrite.entered excludes.",
 "C85": "Every form, formals and environment; the result is new and its parts are exactly the given forms.",
 "C86": "Every form and every outcome of the evaluations inside it.",
 "C87": "C87_macro is the whole behaviour of the code; C87_evaluated_once_refuted: when the value of the expansion is a vector with elements its first element is evaluated once more, and when the value of that is a macro the vector is evaluated as an expansion again.",
 "C88": "Missing: a symbol as the first argument is not modelled. Elements that are error messages are left out of the closed statements (their text may be extended).",
 "C90": "Missing: the printed form of environments, builtins, specials and NaN.",
 "C91": "Texts of Unicode scalar values; strtod is modelled as correctly rounding (Strtod.v), integers of texts that do not fit keep their last 32 bits after clamping to long.",
 "C95": "Complete. A text with a point subtracted from a number is undefined behaviour; of a version minus itself only the numbers are determined, and that only own identifiers leave the pre-release.",
 "C96": "Proved for the whole modelled evaluator, reader and library. An outcome is anything but NoFuel, the result of runs that reach the bound or code that is not modelled.",
 "C97": "Proved for the whole modelled evaluator and library. A collection may make a session fail (use of a freed value, C66; abort on a hash map element with two values); it never changes a value.",
 "C103": "False as stated (C103_refuted: a generator that changes the result). Proved: the exact sequence of evaluations and changes for every form (C103_generate), and that the result has exactly n elements, the values of the calls in order, when the calls leave it alone (C103_calls), or n times the value (C103_same_value).",
 "C104": "False as stated (C104_refuted): the number of calls is the length of the longest vector, so vectors of different lengths end the program, and so does 'string.  Proved for all runs that return: the sequence of evaluations (C103_generate with generate_map), that the values are those of the calls in order (C104_values_partial), what each call is made of (C104_calls_partial), and how many there are (C104_length_partial).",
 "C106": "False as stated for texts without a form, such as blanks or a comment, which end the program (C106_refuted).  Proved for every call that returns.",
 "C107": "Calls in which the C code would overflow int32_t end in the model as undefined behaviour, so nothing is claimed of them. Vectors and maps: for arguments whose contained hash maps have atomic, pairwise unequal keys (plain_maps, plain_entries; otherwise a copy can merge entries).",
 "C108": "For every call that returns. A range during which a collection happens uses freed memory (C66_range_refuted), queues abort, a list index out of range and a reversed range end in abort or undefined behaviour. Copies: contained hash maps with atomic, pairwise unequal keys.",
 "C109": "stand-alone model of ports (Port.v) above a model of stdio; paths are compared as texts (no links, no '.').",
 "C110": "refuted: a refused integer is not an error.",
 "C111": "any symbol means from-current.",
 "C113": "refuted in full.",
 "C114": "refuted as the present length.",
 "C115": "refuted for octets from 128 on.",
 "C116": "C116_conversation is an equivalence between runs of the modelled main and the conversation relation `talk` of SpecRepl.v; blank lines, dropped forms and continued forms are refuted by theorem.",
 "C119": "Consistency, stack and history for the whole library; memory safety for the library without the functions C66 excludes (partial).",
 "C120": "C120_memory_safe_partial: for libraries without the functions C66 excludes; balance, consistency and the host's values for the whole library (C120_consistent). C120_unanchored_refuted: create_new_value_vector_from_values with values that are not on the stack.",
 "C123": "C123_define_integer_refuted is about the machine booted with the whole library. Hypothesis names_unique (no environment binds a name twice) as in C49. C123_in_histories: that hypothesis holds on every machine just booted with any functions and after every host history.",
 "C124": "C124_prevented excludes the explicit collection (octaspire_dern_vm_gc), which does not look at the setting.",
 "C125": "The stored hash of a key is what the key's hash was when it was stored; that it still is (keys changed after) is not claimed.",
 "C49": "C49_in_sessions: the hypothesis names_unique holds after every session on a booted machine.",
 "C105": "C105_template: every template form does what the relation template_run of SpecTemplate.v says (visible events in order, result new); nested vectors included, each form read in the machine at that moment. C105_flat: without vectors among the forms and when what is evaluated leaves the forms alone, the result is a new vector of exactly the forms, values and spliced elements in order, one evaluation for each comma. C105_copies, C105_one: no commas, one form. Refuted: C105_empty_refuted, a template in which an empty vector stands uses a NULL pointer (verify_not_null ends the program). Not stated: that what a nested new vector holds at the end of the template is what it held when it was added (code evaluated later cannot reach it, but the relation describes it at the time it is added).",
 "C126": "C126_as_without_collection: a host session with any schedule and any requests about the collector has the answers of the session without these requests on a machine that never collects; C126_collection_unobservable: two sessions that differ only in the schedule and these requests; C126_conversation: adaptive hosts. Sessions that use a freed value (possible when the host breaks the stack rule, C120, or with the functions of C66) are not compared.",
 "C127": "C127_read_and_eval_path_partial gives the whole behaviour of every call that returns; missing is that every file has a value: a file without a form (blanks, a comment) stops the program on a check that the result is not NULL (C127_refuted). The file system is a function of time (the count of addresses) and path: files are not changed by reading. C127_same_as_string: same outcome (including crashes) as read-and-eval-string of the text.",
 "C128": "C128_arguments, C128_variables: what one call gives; C128_unchanged(_by_text): no evaluation changes what the host gave. C128_script_arguments: octaspire-dern-repl adds what follows the script's path.",
 "C129": "Partial because the last sentence is refuted: without a comparison function a copy never compares equal to its original (C129_copy_equal_refuted), and octaspire_dern_c_data_is_equal is never true of a piece of data and itself (C129_is_equal_refuted; C129_is_equal_when says when it is: same payload and both names different). C129_order: the order, for any comparison functions that are total preorders. Plug-ins are functions here (deterministic, without effects); clean-up functions, which the code stores and never calls, and loading are not modelled. Pointers are compared by address.",
 "C130": "C130_calls_partial and C130_step: the answers of all calls, that the vector is always a permutation, and what one call does. Missing: that no arrangement is met twice."
}