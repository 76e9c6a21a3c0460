{"id": "C01", "title": "UTF-8 encode/decode round trip", "statement": "Every Unicode scalar value other than NUL that octaspire_utf8_encode_character accepts is encoded to 1-4 octets which, followed by any other octets, octaspire_utf8_decode_character decodes back to the same character, reporting the same number of octets. The encoder accepts exactly the scalar values (0..0x10FFFF without 0xD800..0xDFFF).", "quantifier": "every character number and every octet sequence following it", "why_tests_cant": "1.1 million characters times every continuation; boundary errors live at range edges", "anchors": ["release/octaspire-dern-amalgamated.c:octaspire_utf8_encode_character", "release/octaspire-dern-amalgamated.c:octaspire_utf8_decode_character"]}
{"id": "C02", "title": "UTF-8 decoding is canonical and in bounds", "statement": "Whatever octets are given, a successful decode consumed between 1 and min(4, length) octets, looked at no octet past the given length, and those octets are the shortest encoding of the returned character: two different octet sequences never decode to the same character.", "quantifier": "every octet buffer, terminated or not", "why_tests_cant": "the space of malformed inputs is unbounded", "anchors": ["release/octaspire-dern-amalgamated.c:octaspire_utf8_decode_character", "release/octaspire-dern-amalgamated.c:octaspire_utf8_private_decode_helper"]}
{"id": "C03", "title": "UTF-8 decoding yields only Unicode scalar values", "statement": "A successful decode returns a Unicode scalar value (so that the decoded text can always be encoded again).", "quantifier": "every octet buffer", "why_tests_cant": "must hold of adversarial inputs", "anchors": ["release/octaspire-dern-amalgamated.c:octaspire_utf8_decode_character", "release/octaspire-dern-amalgamated.c:octaspire_string_get_c_string"]}
{"id": "C04", "title": "String construction keeps the longest valid prefix", "statement": "octaspire_string_new_from_buffer always terminates and holds exactly the characters of the longest prefix of the buffer made of whole well-formed characters up to the first undecodable position or NUL; if it stopped early it reports an error together with the octet index where the bad character starts; a valid buffer gives no error.", "quantifier": "every octet buffer and length", "why_tests_cant": "all malformed positions in all buffers", "anchors": ["release/octaspire-dern-amalgamated.c:octaspire_string_new_from_buffer", "release/octaspire-dern-amalgamated.c:octaspire_string_get_error_status"]}
{"id": "C05", "title": "Strings behave as sequences of characters under any history", "statement": "After any sequence of push/pop/insert/overwrite/concatenate/remove/clear operations a string behaves as the corresponding plain sequence of characters: length, indexing and C-string rendering agree with it, and the C string is always the concatenation of the encodings of the characters (the lazily rebuilt octet cache is never stale).", "quantifier": "every finite operation history on a string", "why_tests_cant": "cache staleness depends on the order of updates and reads", "anchors": ["release/octaspire-dern-amalgamated.c:octaspire_string_push_back_ucs_character", "release/octaspire-dern-amalgamated.c:octaspire_string_get_c_string", "release/octaspire-dern-amalgamated.c:octaspire_string_overwrite_with_string_at", "release/octaspire-dern-amalgamated.c:octaspire_string_insert_string_to"]}
{"id": "C06", "title": "Negative indices count from the end", "statement": "For vectors and strings index i>=0 addresses the element i from the start, index -k (1<=k<=n) the element k from the end; an index is valid iff -n <= i < n, and invalid indices never address memory.", "quantifier": "every length and every signed index", "why_tests_cant": "signed/unsigned conversions over the whole ptrdiff range", "anchors": ["release/octaspire-dern-amalgamated.c:octaspire_vector_private_is_index_valid", "release/octaspire-dern-amalgamated.c:octaspire_string_is_index_valid", "release/octaspire-dern-amalgamated.c:octaspire_vector_get_element_at"]}
{"id": "C07", "title": "Substring returns the requested characters", "statement": "octaspire_string substring(start,len) with start+len <= length returns exactly the requested slice.", "quantifier": "every string, start and length", "why_tests_cant": "boundary condition over all slices", "anchors": ["release/octaspire-dern-amalgamated.c:octaspire_string_new_substring"]}
{"id": "C08", "title": "Removing all substrings", "statement": "Removing all occurrences of a non-empty substring terminates, leaves a string in which the substring no longer occurs, and leaves a string without occurrences unchanged; the same call with an empty substring must also terminate.", "quantifier": "every string and substring", "why_tests_cant": "occurrences may be created by removals; termination is a property of all inputs", "anchors": ["release/octaspire-dern-amalgamated.c:octaspire_string_remove_all_substrings", "release/octaspire-dern-amalgamated.c:octaspire_string_find_first_substring"]}
{"id": "C09", "title": "Splitting a string", "statement": "octaspire_string_split returns exactly the non-empty maximal runs of characters between delimiters, in order; no returned token is empty or contains the delimiter when the delimiter is one character; nothing outside the delimiters is lost.", "quantifier": "every string and delimiter", "why_tests_cant": "all delimiter placements", "anchors": ["release/octaspire-dern-amalgamated.c:octaspire_string_split"]}
{"id": "C10", "title": "Edit distance", "statement": "octaspire_string_levenshtein_distance(a,b) equals the minimum number of single-character insertions, deletions and substitutions turning a into b; it is 0 iff a = b, symmetric and bounded by the longer length.", "quantifier": "every pair of strings", "why_tests_cant": "minimality quantifies over all edit scripts", "anchors": ["release/octaspire-dern-amalgamated.c:octaspire_string_levenshtein_distance"]}
{"id": "C11", "title": "String ordering", "statement": "octaspire_string_compare is a total order consistent with equality for strings that contain no NUL character and orders strings by their code points lexicographically.", "quantifier": "every pair/triple of strings", "why_tests_cant": "order laws are universally quantified", "anchors": ["release/octaspire-dern-amalgamated.c:octaspire_string_compare", "release/octaspire-dern-amalgamated.c:octaspire_string_is_equal"]}
{"id": "C12", "title": "Equal strings hash equally", "statement": "Strings with the same characters have the same hash whatever operations produced them (the hash is a function of the characters), and hashing never leaves 32 bits.", "quantifier": "every pair of strings built by any histories", "why_tests_cant": "depends on the history of the octet cache", "anchors": ["release/octaspire-dern-amalgamated.c:octaspire_string_get_hash", "release/octaspire-dern-amalgamated.c:octaspire_helpers_calculate_hash_for_memory_buffer"]}
{"id": "C13", "title": "Vector refines a list under any history", "statement": "For any sequence of push/pop/insert-before/remove/replace/clear operations, a vector holds exactly the elements of the corresponding abstract list, its length never exceeds its allocated capacity, capacity is never 0, and growth/compaction never loses or reorders elements.", "quantifier": "every operation history and preallocation", "why_tests_cant": "reallocation points depend on history", "anchors": ["release/octaspire-dern-amalgamated.c:octaspire_vector_push_back_element", "release/octaspire-dern-amalgamated.c:octaspire_vector_private_compact", "release/octaspire-dern-amalgamated.c:octaspire_vector_private_grow", "release/octaspire-dern-amalgamated.c:octaspire_vector_insert_element_before_the_element_at_index"]}
{"id": "C14", "title": "Inserting past the end zero-fills the gap", "statement": "octaspire_vector_insert_element_at with an index beyond the end makes the vector index+1 long, with the new element last and every skipped slot zero.", "quantifier": "every vector history and index", "why_tests_cant": "needs a history leaving stale data in spare capacity", "anchors": ["release/octaspire-dern-amalgamated.c:octaspire_vector_insert_element_at"]}
{"id": "C15", "title": "Doubly linked lists stay well formed", "statement": "After any sequence of push/pop front/back, insert and node removal the forward traversal, the reverse of the backward traversal and the element count of octaspire_list agree with the abstract sequence, and the end nodes have no outward links.", "quantifier": "every operation history", "why_tests_cant": "pointer invariants over all histories", "anchors": ["release/octaspire-dern-amalgamated.c:octaspire_list_push_back", "release/octaspire-dern-amalgamated.c:octaspire_list_push_front", "release/octaspire-dern-amalgamated.c:octaspire_list_remove", "release/octaspire-dern-amalgamated.c:octaspire_list_pop_back", "release/octaspire-dern-amalgamated.c:octaspire_list_pop_front"]}
{"id": "C16", "title": "List indexing never crashes", "statement": "octaspire_list_get_at returns the addressed element or NULL for every list and every index.", "quantifier": "every list and signed index", "why_tests_cant": "includes the empty list with every index", "anchors": ["release/octaspire-dern-amalgamated.c:octaspire_list_get_at"]}
{"id": "C17", "title": "Queue is FIFO and respects its maximum length", "statement": "A queue delivers elements in insertion order; with a maximum length m its length never exceeds m after a push and it always holds the last m pushed elements that were not popped; without one nothing is dropped.", "quantifier": "every interleaving of push/pop/limit changes", "why_tests_cant": "unbounded histories", "anchors": ["release/octaspire-dern-amalgamated.c:octaspire_queue_push", "release/octaspire-dern-amalgamated.c:octaspire_queue_pop", "release/octaspire-dern-amalgamated.c:octaspire_queue_set_max_length"]}
{"id": "C18", "title": "Hash map refines a finite multimap under any history", "statement": "After any sequence of put/remove/clear, whatever the hash function and however many rehashes happened: get(k) finds an element iff k was put and not removed since; its values are exactly the values put for k since, in order; the element count equals the number of distinct keys.", "quantifier": "every hash function, key set and operation history", "why_tests_cant": "collisions and rehash points depend on history", "anchors": ["release/octaspire-dern-amalgamated.c:octaspire_map_put", "release/octaspire-dern-amalgamated.c:octaspire_map_get", "release/octaspire-dern-amalgamated.c:octaspire_map_remove", "release/octaspire-dern-amalgamated.c:octaspire_map_private_rehash"]}
{"id": "C19", "title": "Map iteration visits each element exactly once", "statement": "Iterating a map with its element iterator, or with get_at_index for 0..n-1, yields every element exactly once and then stops; get_at_index beyond n-1 yields none.", "quantifier": "every reachable map", "why_tests_cant": "bucket layouts depend on hash and history", "anchors": ["release/octaspire-dern-amalgamated.c:octaspire_map_element_iterator_next", "release/octaspire-dern-amalgamated.c:octaspire_map_get_at_index"]}
{"id": "C20", "title": "Map load assertion never fires", "statement": "Whenever a put triggers growth, the load factor after the rehash is below the limit, so the assertion in put never fires.", "quantifier": "every reachable map", "why_tests_cant": "assertion over all reachable states", "anchors": ["release/octaspire-dern-amalgamated.c:octaspire_map_put", "release/octaspire-dern-amalgamated.c:octaspire_map_private_get_load_factor"]}
{"id": "C21", "title": "Map size stays proportional to its contents", "statement": "The number of buckets of a map is bounded by a function of the largest number of elements it ever held.", "quantifier": "every put/remove history", "why_tests_cant": "needs long put/remove histories", "anchors": ["release/octaspire-dern-amalgamated.c:octaspire_map_remove", "release/octaspire-dern-amalgamated.c:octaspire_map_put"]}
{"id": "C22", "title": "Putting an existing key", "statement": "Storing a value under a key already present in a Dern hash map replaces the value (a later get yields the newest value).", "quantifier": "every hash map and key", "why_tests_cant": "depends on key equality and history", "anchors": ["release/octaspire-dern-amalgamated.c:octaspire_map_put", "release/octaspire-dern-amalgamated.c:octaspire_map_element_get_value", "dev/src/octaspire_dern_value.c:octaspire_dern_value_as_hash_map_put"]}
{"id": "C23", "title": "Base64 round trip", "statement": "octaspire_helpers_base64_decode(octaspire_helpers_base64_encode(x, lineLen)) returns x for every octet sequence x that is not empty, for every line length.", "quantifier": "every octet sequence and line length", "why_tests_cant": "unbounded inputs, 3 phase padding", "anchors": ["release/octaspire-dern-amalgamated.c:octaspire_helpers_base64_encode", "release/octaspire-dern-amalgamated.c:octaspire_helpers_base64_decode"]}
{"id": "C24", "title": "Base64 decoding is safe", "statement": "octaspire_helpers_base64_decode never crashes, whatever text it is given.", "quantifier": "every input text", "why_tests_cant": "adversarial inputs", "anchors": ["release/octaspire-dern-amalgamated.c:octaspire_helpers_base64_decode"]}
{"id": "C25", "title": "Line and column numbers", "statement": "While there is unread input, the reader's line number is 1 + the number of newlines consumed and its column is 1 + the number of characters consumed since the last newline.", "quantifier": "every input text and every position", "why_tests_cant": "all newline placements", "anchors": ["release/octaspire-dern-amalgamated.c:octaspire_input_pop_next_ucs_character"]}
{"id": "C26", "title": "Lexer progress", "statement": "Every successful token read consumes at least one character and never reads past the end of the input; tokenising any finite input terminates.", "quantifier": "every input text", "why_tests_cant": "all inputs", "anchors": ["dev/src/octaspire_dern_lexer.c:octaspire_dern_lexer_pop_next_token"]}
{"id": "C27", "title": "Comments and white space are insignificant", "statement": "White space, line comments ';...' and terminated multi-line comments '#!...!#' before a token do not change which token is read.", "quantifier": "every input with any amount of white space and comments", "why_tests_cant": "all combinations and nestings of comment text", "anchors": ["dev/src/octaspire_dern_lexer.c:octaspire_dern_lexer_pop_next_token"]}
{"id": "C28", "title": "Integers print and read back", "statement": "to-string of an integer n is '{D+n}' / '{D-n}' text that the reader reads back as the same integer.", "quantifier": "all 2^32 integers", "why_tests_cant": "range is too large and INT_MIN is special", "anchors": ["dev/src/octaspire_dern_value.c:octaspire_dern_value_to_string", "dev/src/octaspire_dern_lexer.c:octaspire_dern_lexer_private_pop_integer_or_real_number"]}
{"id": "C29", "title": "Strings print and read back", "statement": "to-string of a string is text that the reader reads back as an equal string.", "quantifier": "every string", "why_tests_cant": "all characters, including escapes", "anchors": ["dev/src/octaspire_dern_value.c:octaspire_dern_value_to_string", "dev/src/octaspire_dern_lexer.c:octaspire_dern_lexer_private_pop_string"]}
{"id": "C30", "title": "Characters and symbols print and read back", "statement": "The printed form of every character value and of every symbol made of symbol characters reads back as the same value.", "quantifier": "every character and every symbol", "why_tests_cant": "unbounded set of names", "anchors": ["dev/src/octaspire_dern_value.c:octaspire_dern_value_to_string", "dev/src/octaspire_dern_lexer.c:octaspire_dern_lexer_private_pop_character", "dev/src/octaspire_dern_lexer.c:octaspire_dern_lexer_private_pop_true_or_false_or_nil_or_symbol"]}
{"id": "C31", "title": "Nested data prints and reads back", "statement": "For every nested vector whose atoms print readably, parsing the printed text yields an equal value and consumes exactly that text, whatever follows it.", "quantifier": "every nested value of any depth and width", "why_tests_cant": "unbounded nesting", "anchors": ["dev/src/octaspire_dern_vm.c:octaspire_dern_vm_parse_token", "dev/src/octaspire_dern_value.c:octaspire_dern_value_to_string"]}
{"id": "C32", "title": "Unbalanced parentheses are errors", "statement": "Reading a form from a text with an unmatched opening parenthesis reports an error value (never a shorter form), and an unexpected ')' reports an error.", "quantifier": "every prefix of every printed form", "why_tests_cant": "all truncation points", "anchors": ["dev/src/octaspire_dern_vm.c:octaspire_dern_vm_parse_token"]}
{"id": "C33", "title": "Truncated literals are rejected", "statement": "Input that ends inside a number, string or character literal is never accepted as a value.", "quantifier": "every literal and truncation point", "why_tests_cant": "all truncation points", "anchors": ["dev/src/octaspire_dern_lexer.c:octaspire_dern_lexer_private_pop_integer_or_real_number", "dev/src/octaspire_dern_lexer.c:octaspire_dern_lexer_private_pop_string"]}
{"id": "C34", "title": "Parser progress and totality", "statement": "Parsing terminates on every finite input with a value, an error value or end-of-input; it never runs forever and consumes at least one token when it returns a value.", "quantifier": "every input", "why_tests_cant": "all inputs", "anchors": ["dev/src/octaspire_dern_vm.c:octaspire_dern_vm_parse"]}
{"id": "C35", "title": "Integer comparison", "statement": "Comparing two integers with <, >, ==, <=, >= agrees with the mathematical order.", "quantifier": "every pair of 32-bit integers", "why_tests_cant": "2^64 pairs; overflow corners", "anchors": ["dev/src/octaspire_dern_value.c:octaspire_dern_value_compare", "dev/src/octaspire_dern_stdlib.c:octaspire_dern_vm_special_less_than"]}
{"id": "C36", "title": "Value comparison is a total preorder; == is structural", "statement": "On values made of nil, booleans, integers, strings, characters, symbols, errors, vectors, lists and queues compare is reflexive, antisymmetric in sign and transitive, and compare = 0 iff the values are structurally equal.", "quantifier": "every pair/triple of nested values", "why_tests_cant": "laws over unbounded nesting", "anchors": ["dev/src/octaspire_dern_value.c:octaspire_dern_value_compare", "dev/src/octaspire_dern_value.c:octaspire_dern_value_is_equal"]}
{"id": "C37", "title": "Equal values hash equally", "statement": "Values equal under == have the same hash, so an equal key finds a stored entry in a hash map.", "quantifier": "every pair of equal values", "why_tests_cant": "all kinds of keys", "anchors": ["dev/src/octaspire_dern_value.c:octaspire_dern_value_get_hash", "dev/src/octaspire_dern_value.c:octaspire_dern_value_is_equal", "dev/src/octaspire_dern_value.c:octaspire_dern_value_as_hash_map_get"]}
{"id": "C38", "title": "Deep copies are equal and independent", "statement": "(copy v) is structurally equal to v, shares no mutable storage with it, and no later mutation of one is visible in the other.", "quantifier": "every value graph", "why_tests_cant": "aliasing over all heaps", "anchors": ["dev/src/octaspire_dern_vm.c:octaspire_dern_vm_create_new_value_copy"]}
{"id": "C39", "title": "Hash map comparison is antisymmetric", "statement": "compare(a,b) and compare(b,a) have opposite signs for hash maps.", "quantifier": "every pair of hash maps", "why_tests_cant": "pairs of maps", "anchors": ["dev/src/octaspire_dern_helpers.c:octaspire_dern_helpers_compare_value_hash_maps"]}
{"id": "C40", "title": "Semantic version precedence", "statement": "octaspire_semver_compare implements the precedence of Semantic Versioning 2.0.0: a total preorder, major/minor/patch numerically, pre-release below release, identifiers numeric < alphanumeric, numeric numerically, alphanumeric by ASCII, longer larger, build metadata ignored.", "quantifier": "every pair/triple of versions", "why_tests_cant": "order laws; 64-bit components", "anchors": ["release/octaspire-dern-amalgamated.c:octaspire_semver_compare"]}
{"id": "C41", "title": "Semantic version addition and subtraction", "statement": "Adding a version with one non-zero component increments that component and zeroes the lower ones; subtracting decrements that component without going below zero; in every other case the call reports failure and leaves the version unchanged.", "quantifier": "every pair of versions", "why_tests_cant": "all component combinations", "anchors": ["release/octaspire-dern-amalgamated.c:octaspire_semver_add_or_subtract"]}
{"id": "C42", "title": "Garbage collection is safe", "statement": "A collection never frees a value reachable from the VM stack or the global environment, and leaves the contents of every reachable value unchanged.", "quantifier": "every heap graph (with cycles and sharing) and every root set", "why_tests_cant": "all heaps", "anchors": ["dev/src/octaspire_dern_vm.c:octaspire_dern_vm_gc", "dev/src/octaspire_dern_vm.c:octaspire_dern_vm_private_sweep", "dev/src/octaspire_dern_value.c:octaspire_dern_value_mark"]}
{"id": "C43", "title": "Garbage collection is complete", "statement": "A collection frees every value not reachable from the roots and leaves no value marked, so repeated collections behave alike and a second collection frees nothing.", "quantifier": "every heap graph", "why_tests_cant": "all heaps", "anchors": ["dev/src/octaspire_dern_vm.c:octaspire_dern_vm_gc", "dev/src/octaspire_dern_vm.c:octaspire_dern_vm_private_sweep"]}
{"id": "C44", "title": "Marking terminates on cyclic data", "statement": "Marking terminates on every heap, including cyclic ones, recursing no deeper than there are values.", "quantifier": "every heap graph", "why_tests_cant": "cycles", "anchors": ["dev/src/octaspire_dern_value.c:octaspire_dern_value_mark"]}
{"id": "C45", "title": "Documentation vectors survive collection", "statement": "A value's documentation (docstring and docvec) stays valid as long as the value is reachable.", "quantifier": "every heap and collection point", "why_tests_cant": "collection point timing", "anchors": ["dev/src/octaspire_dern_value.c:octaspire_dern_value_mark", "dev/src/octaspire_dern_value.c:octaspire_dern_value_set"]}
{"id": "C46", "title": "A pending return value survives collection", "statement": "The value given to (return x) is still valid when the function returns it, wherever a collection happens.", "quantifier": "every collection point between return and use", "why_tests_cant": "collection timing", "anchors": ["dev/src/octaspire_dern_vm.c:octaspire_dern_vm_private_mark_all", "dev/src/octaspire_dern_stdlib.c:octaspire_dern_vm_builtin_return"]}
{"id": "C47", "title": "Values have unique identities", "statement": "No two values ever allocated by one VM have the same unique id, so === distinguishes any two distinct values.", "quantifier": "every allocation history", "why_tests_cant": "unbounded histories", "anchors": ["dev/src/octaspire_dern_vm.c:octaspire_dern_vm_private_create_new_value_struct", "dev/src/octaspire_dern_stdlib.c:octaspire_dern_vm_special_equals_equals_equals"]}
{"id": "C48", "title": "The VM stack stays balanced", "statement": "Every evaluation and every parse leaves the VM stack exactly as it found it, for results, errors and returns alike.", "quantifier": "every program and state", "why_tests_cant": "all exit paths of all programs", "anchors": ["dev/src/octaspire_dern_vm.c:octaspire_dern_vm_private_eval_impl", "dev/src/octaspire_dern_vm.c:octaspire_dern_vm_parse_token"]}
{"id": "C49", "title": "Environment lookup, shadowing and define", "statement": "Lookup finds the innermost binding; define/set affects only the given environment: other names, and outer environments, keep their bindings, and the newest binding wins.", "quantifier": "every chain of environments and every history of bindings", "why_tests_cant": "unbounded chains", "anchors": ["dev/src/octaspire_dern_environment.c:octaspire_dern_environment_get", "dev/src/octaspire_dern_environment.c:octaspire_dern_environment_set"]}
{"id": "C50", "title": "Lexical scope", "statement": "A function body sees its parameters, then the bindings of its definition environment; it never sees the local bindings of its caller.", "quantifier": "every program", "why_tests_cant": "all call graphs", "anchors": ["dev/src/octaspire_dern_vm.c:octaspire_dern_vm_private_eval_impl", "dev/src/octaspire_dern_environment.c:octaspire_dern_environment_extend"]}
{"id": "C51", "title": "Arity and variable arguments", "statement": "Binding formals to actuals succeeds iff the counts agree (or the formals end in 'rest ...' and enough actuals are given); then each normal formal is bound to its actual, in order, and the rest formal to the vector of the remaining ones; otherwise an error is reported.", "quantifier": "every formals list and actuals list", "why_tests_cant": "all lengths", "anchors": ["dev/src/octaspire_dern_environment.c:octaspire_dern_environment_extend"]}
{"id": "C52", "title": "Argument errors prevent the call", "statement": "If evaluating an argument of a builtin or function yields an error, the callee does not run, later arguments are not evaluated, and the error is the result.", "quantifier": "every call and argument position", "why_tests_cant": "all programs", "anchors": ["dev/src/octaspire_dern_vm.c:octaspire_dern_vm_private_eval_impl"]}
{"id": "C53", "title": "Conditionals evaluate only what they choose", "statement": "if/select evaluate exactly the test(s) needed and the chosen branch; other branches have no effect; a non-boolean test is an error; without a matching branch the result is nil.", "quantifier": "every program and state", "why_tests_cant": "all programs", "anchors": ["dev/src/octaspire_dern_stdlib.c:octaspire_dern_vm_special_if", "dev/src/octaspire_dern_stdlib.c:octaspire_dern_vm_special_select"]}
{"id": "C54", "title": "return leaves the function", "statement": "(return x) ends the innermost running function with value x; statements after it in the body do not run, and it does not affect later calls.", "quantifier": "every program", "why_tests_cant": "control flow of all programs", "anchors": ["dev/src/octaspire_dern_stdlib.c:octaspire_dern_vm_builtin_return", "dev/src/octaspire_dern_vm.c:octaspire_dern_vm_private_eval_impl", "dev/src/octaspire_dern_stdlib.c:octaspire_dern_vm_special_do"]}
{"id": "C55", "title": "Counting loops", "statement": "(for i from a to b [step s] ...) runs its body exactly for a, a+s, ... up to b (or down when a > b) and returns the number of iterations.", "quantifier": "every pair of integers and step", "why_tests_cant": "all ranges, overflow corners", "anchors": ["dev/src/octaspire_dern_stdlib.c:octaspire_dern_vm_special_for"]}
{"id": "C56", "title": "while loops", "statement": "while evaluates its body as long as the test is true, returns the number of completed iterations, and stops at the first error.", "quantifier": "every program", "why_tests_cant": "unbounded iteration", "anchors": ["dev/src/octaspire_dern_stdlib.c:octaspire_dern_vm_special_while"]}
{"id": "C57", "title": "Evaluation stops after exit", "statement": "After (exit) no further expression is evaluated: every evaluation step yields nil without side effects.", "quantifier": "every program", "why_tests_cant": "all programs", "anchors": ["dev/src/octaspire_dern_vm.c:octaspire_dern_vm_private_eval_impl", "dev/src/octaspire_dern_stdlib.c:octaspire_dern_vm_builtin_exit"]}
{"id": "C58", "title": "Integer arithmetic", "statement": "+, -, * on integers return the mathematical result when it fits in 32 bits; mod returns the C remainder and mod or / by zero is an error, never a crash.", "quantifier": "every list of integers", "why_tests_cant": "2^64 pairs; overflow and INT_MIN corners", "anchors": ["dev/src/octaspire_dern_stdlib.c:octaspire_dern_vm_builtin_private_plus_numerical", "dev/src/octaspire_dern_stdlib.c:octaspire_dern_vm_builtin_private_minus_numerical", "dev/src/octaspire_dern_stdlib.c:octaspire_dern_vm_builtin_mod"]}
{"id": "C59", "title": "Arithmetic-style operators do not modify their arguments", "statement": "+ and - (unlike += and -=) never modify their operands.", "quantifier": "every operand", "why_tests_cant": "aliasing", "anchors": ["dev/src/octaspire_dern_stdlib.c:octaspire_dern_vm_builtin_private_minus_textual", "dev/src/octaspire_dern_stdlib.c:octaspire_dern_vm_builtin_private_plus_textual_string"]}
{"id": "C60", "title": "define copies atoms and shares collections", "statement": "After (define x as y ...) where y holds an atom, mutating x does not change y; when y holds a collection, both names denote the same collection.", "quantifier": "every store", "why_tests_cant": "aliasing over all stores", "anchors": ["dev/src/octaspire_dern_stdlib.c:octaspire_dern_vm_special_define", "dev/src/octaspire_dern_stdlib.c:octaspire_dern_vm_special_private_define_var_no_env"]}
{"id": "C61", "title": "Literals are constant", "statement": "Evaluating the same literal in the same program text twice yields equal values.", "quantifier": "every program", "why_tests_cant": "needs mutation between evaluations", "anchors": ["dev/src/octaspire_dern_vm.c:octaspire_dern_vm_private_eval_impl", "dev/src/octaspire_dern_stdlib.c:octaspire_dern_vm_builtin_plus_plus"]}
{"id": "C62", "title": "Errors propagate through and/or", "statement": "An error produced by an operand of and/or is the result of the expression.", "quantifier": "every operand list", "why_tests_cant": "all operand positions", "anchors": ["dev/src/octaspire_dern_stdlib.c:octaspire_dern_vm_special_and", "dev/src/octaspire_dern_stdlib.c:octaspire_dern_vm_special_or"]}
{"id": "C63", "title": "Chained comparison", "statement": "(< a b c ...) is true iff the arguments are strictly increasing (likewise >, <=, >=).", "quantifier": "every argument list", "why_tests_cant": "all lengths", "anchors": ["dev/src/octaspire_dern_stdlib.c:octaspire_dern_vm_special_less_than"]}
{"id": "C64", "title": "Evaluation stops at the first error in a text", "statement": "Evaluating a source text evaluates its forms in order and stops at the first form that yields an error, which is the result.", "quantifier": "every text", "why_tests_cant": "all texts", "anchors": ["dev/src/octaspire_dern_vm.c:octaspire_dern_vm_read_from_buffer_and_eval_in_global_environment"]}
{"id": "C65", "title": "Evaluating a text ends", "statement": "If the evaluation of each form of a text ends, then reading and evaluating the whole text ends.", "quantifier": "all texts and machine states", "why_tests_cant": "Termination has to hold for every text and every state; a test can only show one run that ends.", "anchors": ["dev/src/octaspire_dern_vm.c: octaspire_dern_vm_read_from_octaspire_input_and_eval_in_global_environment", "dev/src/octaspire_dern_lexer.c: octaspire_dern_lexer_pop_next_token"]}
{"id": "C66", "title": "No freed value is ever used", "statement": "Whatever texts are evaluated, and whenever the collector runs, evaluation never uses a value that has been freed, and between two texts the VM stack holds only the global environment.", "quantifier": "every sequence of texts, collection schedule, allocator behaviour and bound on depth", "why_tests_cant": "A freed value is used only under particular collection schedules; a test exercises one schedule.", "anchors": ["dev/src/octaspire_dern_vm.c: octaspire_dern_vm_gc", "dev/src/octaspire_dern_vm.c: octaspire_dern_vm_eval", "dev/src/octaspire_dern_vm.c: octaspire_dern_vm_push_value", "dev/src/octaspire_dern_stdlib.c: octaspire_dern_vm_builtin_copy"]}
{"id": "C67", "title": "do evaluates its forms in order", "statement": "(do a b ...) evaluates its forms in order, each once, stops at the first that is an error or that executes a return, and otherwise gives the value of the last.", "quantifier": "every form, environment and machine state", "why_tests_cant": "all forms and all behaviours of the nested evaluations", "anchors": ["dev/src/octaspire_dern_stdlib.c: octaspire_dern_vm_special_do"]}
{"id": "C68", "title": "quote does not evaluate", "statement": "(quote x) gives x itself, without evaluating it and without any effect; another number of arguments is an error.", "quantifier": "every form and machine state", "why_tests_cant": "all forms", "anchors": ["dev/src/octaspire_dern_stdlib.c: octaspire_dern_vm_special_quote"]}
{"id": "C69", "title": "Appended input is read in place", "statement": "Text appended to the input of the reader (octaspire_input_push_back_from_c_string) is read after the text that was there, with the line and column numbers it would have had as part of one text.", "quantifier": "every text, appended text and position", "why_tests_cant": "all newline placements and positions", "anchors": ["release/octaspire-dern-amalgamated.c:octaspire_input_push_back_from_c_string", "release/octaspire-dern-amalgamated.c:octaspire_input_pop_next_ucs_character"]}
{"id": "C70", "title": "Base64 text is the standard encoding, in lines", "statement": "octaspire_helpers_base64_encode gives the encoding of RFC 4648 with newlines inserted; without a line length there are none, and with one no line is longer.", "quantifier": "every octet sequence and line length", "why_tests_cant": "unbounded inputs, every combination of padding and line length", "anchors": ["release/octaspire-dern-amalgamated.c:octaspire_helpers_base64_encode"]}
{"id": "C71", "title": "Defining functions", "statement": "(define f as function doc docvec howto) succeeds only when every parameter of the function is documented in docvec; then the name is bound to that very function, which keeps its parameters, body and environment and carries its name, the documentation and the howto permission.", "quantifier": "every program, store and define form", "why_tests_cant": "all functions, documentation vectors and stores", "anchors": ["dev/src/octaspire_dern_stdlib.c:octaspire_dern_vm_special_private_define_fun_no_env", "dev/src/octaspire_dern_stdlib.c:octaspire_dern_vm_special_private_define_fun_in_env", "dev/src/octaspire_dern_value.c:octaspire_dern_function_are_all_formals_mentioned_in_docvec"]}
{"id": "C72", "title": "Loops over collections", "statement": "(for x in collection [step s] ...) evaluates its body once for every (every s-th) item of a vector, list, queue, string or hash map, in order, with x bound in an environment of its own, and returns the number of rounds; an error or a return in the body ends it.", "quantifier": "every program, store, collection, step and body", "why_tests_cant": "all collections, steps and bodies", "anchors": ["dev/src/octaspire_dern_stdlib.c:octaspire_dern_vm_special_for"]}
{"id": "C73", "title": "Number literals denote the written number", "statement": "A literal {B..}, {O..}, {D..} or {X..} with a sign is read as the integer (or, with a point, the double) that its digits denote in base 2, 8, 10 or 16; a digit that the base does not have makes it an error.", "quantifier": "every base, sign, digit sequence and following text", "why_tests_cant": "all digit sequences in four bases", "anchors": ["dev/src/octaspire_dern_lexer.c:octaspire_dern_lexer_private_pop_integer_or_real_number"]}
{"id": "C74", "title": "Character and string literals denote the written text", "statement": "Between bars a character stands for itself, a name (bar, newline, tab, string-start, string-end) or two to eight hexadecimal digits for the named character; a string literal denotes its characters with such names between bars replaced.", "quantifier": "every character, name, digit sequence and string", "why_tests_cant": "all code points, spellings and mixes of escapes", "anchors": ["dev/src/octaspire_dern_lexer.c:octaspire_dern_lexer_private_pop_character", "dev/src/octaspire_dern_lexer.c:octaspire_dern_lexer_private_pop_string"]}
{"id": "C75", "title": "Abbreviations", "statement": "'x is read as (quote x), `(x ...) as (template x ...) and `x as (template x), for every form x, consuming the same text; if x is an error so is the whole.", "quantifier": "every form and following text", "why_tests_cant": "all nested forms", "anchors": ["dev/src/octaspire_dern_vm.c:octaspire_dern_vm_parse_token"]}
{"id": "C76", "title": "Calls of builtins; not and the type predicates", "statement": "In a call (f x ...) of a builtin the first argument that evaluates to an error is the result; otherwise the builtin gets the values of the arguments. (not b) is the opposite boolean for a boolean and an error otherwise; integer? real? number? nil? boolean? character? string? symbol? vector? hash-map? applied to one value give true exactly for values of that kind; with another number of arguments the result is an error. Nothing the program can reach changes.", "quantifier": "every machine state, argument list and value", "why_tests_cant": "all kinds of values, argument counts and heaps", "anchors": ["dev/src/octaspire_dern_stdlib.c:octaspire_dern_vm_builtin_not", "dev/src/octaspire_dern_stdlib.c:octaspire_dern_vm_builtin_integer_question_mark"]}
{"id": "C77", "title": "len", "statement": "(len x) is the number of elements of a collection, of characters of a string or symbol, of required formals of a function, 0 for nil and 1 for other atoms, whenever that number is a 32-bit integer; (len x y ...) is a vector of the lengths in order; nothing reachable changes.", "quantifier": "every machine state and argument list", "why_tests_cant": "all sizes and nestings", "anchors": ["dev/src/octaspire_dern_stdlib.c:octaspire_dern_vm_builtin_len", "dev/src/octaspire_dern_value.c:octaspire_dern_value_get_length"]}
{"id": "C78", "title": "Making collections", "statement": "(vector x ...), (list x ...), (queue x ...) give a new collection of the arguments in order, with atoms copied and other values shared; (queue-with-max-length n x ...) keeps the last n; (hash-map k v ...) holds exactly the given pairs when no two keys are equal. Nothing reachable changes.", "quantifier": "every machine state and argument list", "why_tests_cant": "any number of arguments, any values, collections during construction", "anchors": ["dev/src/octaspire_dern_stdlib.c:octaspire_dern_vm_builtin_vector", "dev/src/octaspire_dern_stdlib.c:octaspire_dern_vm_builtin_hash_map", "dev/src/octaspire_dern_stdlib.c:octaspire_dern_vm_builtin_queue_with_max_length"]}
{"id": "C79", "title": "Documentation, identity and environments", "statement": "(doc x) is the documentation of x or nil; (uid x) gives the same integer exactly for the same value; (env-new) is a new empty environment, enclosed in its argument if there is one; (env-current) is the environment of the call and (env-global) the global one.", "quantifier": "every machine state and argument list", "why_tests_cant": "all values and histories", "anchors": ["dev/src/octaspire_dern_stdlib.c:octaspire_dern_vm_builtin_doc", "dev/src/octaspire_dern_stdlib.c:octaspire_dern_vm_builtin_uid", "dev/src/octaspire_dern_stdlib.c:octaspire_dern_vm_builtin_env_new"]}
{"id": "C80", "title": "Indexing with ln@", "statement": "(ln@ v i) on a vector is the element itself (not a copy) with index i, counting from the end when i is negative, and an error when there is none.", "quantifier": "every machine state, vector and index", "why_tests_cant": "all indices, including negative and out of range", "anchors": ["dev/src/octaspire_dern_stdlib.c:octaspire_dern_vm_builtin_ln_at_sign"]}
{"id": "C81", "title": "exit", "statement": "(exit) and (exit n) make the machine stop, with exit code n when given, and change nothing else; any other arguments are an error and the machine goes on.", "quantifier": "every machine state and argument list", "why_tests_cant": "all states and arguments", "anchors": ["dev/src/octaspire_dern_stdlib.c:octaspire_dern_vm_builtin_exit"]}
{"id": "C82", "title": "++ and --", "statement": "(++ x ...) adds one to each integer or real, one after another, and gives the last; (-- x ...) subtracts one from numbers, removes the last element of vectors, lists and strings and the first of queues. The first argument that cannot be changed ends the call with an error, those before it stay changed. Nothing else the program can reach changes.", "quantifier": "every machine state and argument list, including repeated arguments", "why_tests_cant": "all values, orders and aliasings", "anchors": ["dev/src/octaspire_dern_stdlib.c:octaspire_dern_vm_builtin_plus_plus", "dev/src/octaspire_dern_stdlib.c:octaspire_dern_vm_builtin_minus_minus"]}
{"id": "C83", "title": "pop-back and pop-front", "statement": "(pop-back x) removes the last element of a vector, list or string (the first of a queue) and (pop-front x) the first; of a version the last or first identifier of its build metadata, or of its pre-release when it has none, is removed; the result is x itself; empty collections stay empty; other values give an error, and nothing else changes.", "quantifier": "every machine state and argument", "why_tests_cant": "all contents and aliasings", "anchors": ["dev/src/octaspire_dern_stdlib.c:octaspire_dern_vm_builtin_pop_back", "dev/src/octaspire_dern_stdlib.c:octaspire_dern_vm_builtin_pop_front"]}
{"id": "C84", "title": "+=", "statement": "(+= x y ...) adds numbers, and strings of digits, to a number (an integer becomes real with the first real), an integer to a character (another character makes it a string), texts to a string, versions to a version, the values themselves to the end of a vector, copies of atoms to lists and queues (a full queue loses its oldest element), and key-value pairs to a hash map; vectors among the arguments of numbers and strings are added element by element; the result is x and nothing else changes.", "quantifier": "every machine state and argument list", "why_tests_cant": "all kinds, nestings, aliasings and lengths", "anchors": ["dev/src/octaspire_dern_stdlib.c:octaspire_dern_vm_builtin_plus_equals"]}
{"id": "C85", "title": "Making functions and macros", "statement": "(fn formals form ...) and (macro formals form ...) evaluate none of their parts: with acceptable formals (symbols, at most one of them `.`, followed by at most one name) they give a new function or macro whose body is those forms and which remembers the environment it was made in; otherwise they give an error; nothing else changes.", "quantifier": "every machine state, form and environment", "why_tests_cant": "all formals and bodies", "anchors": ["dev/src/octaspire_dern_stdlib.c:octaspire_dern_vm_special_fn", "dev/src/octaspire_dern_stdlib.c:octaspire_dern_vm_special_macro"]}
{"id": "C86", "title": "eval", "statement": "(eval x) evaluates x and then its value in the current environment; (eval x e) does both in the environment e; (eval f e x ...) calls the value of f in the environment that is the value of e with the values of the x, a vector standing for its elements; each argument is evaluated once, in order.", "quantifier": "every machine state, argument list and outcome of the evaluations", "why_tests_cant": "all forms, environments and effects", "anchors": ["dev/src/octaspire_dern_stdlib.c:octaspire_dern_vm_special_eval"]}
{"id": "C87", "title": "Calls of macros", "statement": "A call of a macro binds its formals to the unevaluated forms in a new environment inside the one the macro was made in, runs the body there and gives the value of the expansion, evaluated once.", "quantifier": "every machine state, macro and argument forms", "why_tests_cant": "all macros and forms", "anchors": ["dev/src/octaspire_dern_vm.c:octaspire_dern_vm_eval"]}
{"id": "C88", "title": "Assignment", "statement": "(= x y) makes x hold what y holds and returns x: of a vector, list or queue the elements in order (atoms copied, other values shared), of a hash map its keys and values, and a copy of the documentation; (= v i y) replaces element i of a vector, or extends it with nils and y; (= t i c) overwrites a character of a string, negative positions counting from the end; (= m k y) gives the key k the only value y in a hash map; a wrong position gives an error. Nothing that can be reached without going through x changes.", "quantifier": "every machine state, every x, y and key, every way of sharing values", "why_tests_cant": "all states, kinds of values and sharing between them; that nothing else changes", "anchors": ["dev/src/octaspire_dern_stdlib.c:octaspire_dern_vm_builtin_equals", "dev/src/octaspire_dern_value.c:octaspire_dern_value_set"]}
{"id": "C89", "title": "Largest and smallest", "statement": "(max x y ...) gives one of its arguments: the first one that no other argument is greater than, in the order of values; (min x y ...) the first one that none is smaller than. Fewer than two arguments give an error.", "quantifier": "every machine state and argument list of comparable values", "why_tests_cant": "all argument lists and kinds of values", "anchors": ["dev/src/octaspire_dern_stdlib.c:octaspire_dern_vm_builtin_max", "dev/src/octaspire_dern_stdlib.c:octaspire_dern_vm_builtin_min"]}
{"id": "C90", "title": "Printed form of values", "statement": "(to-string x ...) gives a new string with the printed forms of the arguments one after another: with print-readably on (as it is at first) numbers as {D+12}, {D-12} or {D+2.5}, strings in brackets, characters between bars with names for the bar, newline and tab; with print-readably off numbers, strings and characters as they are; versions as major.minor.patch with pre-release and build identifiers, functions by their names, and collections with the printed forms of their elements in order.", "quantifier": "every machine state and argument list", "why_tests_cant": "all nested values", "anchors": ["dev/src/octaspire_dern_stdlib.c:octaspire_dern_vm_builtin_to_string", "dev/src/octaspire_dern_value.c:octaspire_dern_value_to_string"]}
{"id": "C91", "title": "Conversions between numbers, texts and characters", "statement": "(to-integer x) gives the integer itself, a real without its fraction, the code of a character, or the number at the start of a text; (to-real x) the real equal to an integer (or nearest to it), the code of a character, or the double nearest to the longest number (decimal, hexadecimal, inf, nan) at the start of a text, zero if there is none; (character x) the character with the code x. Other arguments give an error.", "quantifier": "every machine state and argument", "why_tests_cant": "all numbers and texts", "anchors": ["dev/src/octaspire_dern_stdlib.c:octaspire_dern_vm_builtin_to_integer", "dev/src/octaspire_dern_stdlib.c:octaspire_dern_vm_builtin_to_real", "dev/src/octaspire_dern_stdlib.c:octaspire_dern_vm_builtin_character"]}
{"id": "C92", "title": "Distances, roots and prefixes", "statement": "(distance x y) gives the absolute difference of numbers, rounded to a real, and the least number of insertions, removals and replacements between texts; (sqrt x) the correctly rounded root of a number that is not negative, and otherwise an error; (starts-with? x y) true exactly when the string y is at the start of the string x.", "quantifier": "every machine state and arguments", "why_tests_cant": "all numbers and texts", "anchors": ["dev/src/octaspire_dern_stdlib.c:octaspire_dern_vm_builtin_distance", "dev/src/octaspire_dern_stdlib.c:octaspire_dern_vm_builtin_sqrt", "dev/src/octaspire_dern_stdlib.c:octaspire_dern_vm_builtin_starts_with"]}
{"id": "C93", "title": "Searching", "statement": "(find x k) gives all the indices where the text k (or the text a number k other than NaN is written as) occurs in a string or symbol x, overlapping ones included, all the indices of elements of a vector equal to k, the value of the key k of a hash map or nil, and the value of the symbol k in an environment or nil; (find x k1 k2 ...) a vector of the results.", "quantifier": "every machine state, collection and keys", "why_tests_cant": "all texts, patterns and collections", "anchors": ["dev/src/octaspire_dern_stdlib.c:octaspire_dern_vm_builtin_find"]}
{"id": "C94", "title": "Splitting strings", "statement": "(split t c) gives a new vector of new strings: the nonempty parts of the string t between occurrences of the character c, in order; other arguments give an error.", "quantifier": "every machine state, text and character", "why_tests_cant": "all texts", "anchors": ["dev/src/octaspire_dern_stdlib.c:octaspire_dern_vm_builtin_split"]}
{"id": "C95", "title": "-= and -==", "statement": "(-= x y ...) subtracts numbers from the number x one after another, subtracts an integer or another character from a character and versions from a version (with an error at the first that cannot be subtracted), takes the elements equal to some y out of the vector x, removes each text y from the string x until it does not occur there, and removes the keys y from the hash map x (a missing key gives an error); (-== x y ...) takes the values y themselves out of the vector x. The result is x; nothing that can be reached without going through x changes.", "quantifier": "every machine state, every x and list of arguments, every way of sharing values", "why_tests_cant": "all collections, keys and sharing; that nothing else changes", "anchors": ["dev/src/octaspire_dern_stdlib.c:octaspire_dern_vm_builtin_minus_equals", "dev/src/octaspire_dern_stdlib.c:octaspire_dern_vm_builtin_minus_equals_equals"]}
{"id": "C96", "title": "Evaluation has one outcome", "statement": "On a given machine, evaluating a text has at most one outcome: one value and one state of the machine afterwards, or one kind of failure. Allowing the evaluator to go deeper or to run longer never changes an outcome that has been reached; the same holds for the evaluation of a single value in an environment.", "quantifier": "every state of the machine, every text, every value and environment, every pair of bounds on the depth and length of the evaluation", "why_tests_cant": "Tests run a few programs with one stack size; the claim compares all bounds for all programs, which needs an induction over the whole evaluator and library.", "anchors": ["dev/src/octaspire_dern_vm.c: octaspire_dern_vm_read_from_octaspire_input_and_eval_in_global_environment, octaspire_dern_vm_eval", "dev/src/octaspire_dern_stdlib.c"]}
{"id": "C97", "title": "The time of garbage collection is not observable", "statement": "Two sessions with the same functions and the same texts in which garbage is collected at different times (any trigger limit, or never) and which both end give the same values, identities, exit request and exit code; values that both machines still have are the same, print the same and compare the same. A session that ends with some limit also ends, in the same way, when garbage is never collected. Without return, =, copy, cp@ and template everything reachable from the global environment or from the last value is there under every limit, with the same contents.", "quantifier": "every library of specials and builtins, every two trigger limits, every sequence of texts, every behaviour of malloc (addresses)", "why_tests_cant": "A test would have to try every schedule of the collector for every program; a collector that frees too much or disturbs identities shows up only for particular interleavings.", "anchors": ["dev/src/octaspire_dern_vm.c: octaspire_dern_vm_gc, octaspire_dern_vm_private_create_new_value_struct, octaspire_dern_vm_set_gc_trigger_limit"]}
{"id": "C98", "title": "Format strings", "statement": "(string-format f x ...) gives the text of the string f in which each {} is replaced by the printed form of the next argument (strings and characters without brackets and bars); a single quote keeps the next { from starting a {} and stays in the text, a quote after such a quote does not; arguments without {} are ignored; too few arguments give an error, (string-format x) is the printed form of x, and nothing the program can reach is changed.", "quantifier": "every machine state, format string and arguments", "why_tests_cant": "all format strings and values", "anchors": ["dev/src/octaspire_dern_stdlib.c:octaspire_dern_vm_builtin_string_format"]}
{"id": "C99", "title": "Standard output", "statement": "(print x) writes the octets of the printed form of x, (print f x ...) those of the format string f filled in as for string-format (a character of f as one octet, arguments readably), println a newline after that; the result is true, or an error if the format string has too few arguments, what comes before then being written; nothing else changes.", "quantifier": "every machine state, format string and arguments", "why_tests_cant": "all format strings and values", "anchors": ["dev/src/octaspire_dern_stdlib.c:octaspire_dern_vm_builtin_print", "dev/src/octaspire_dern_stdlib.c:octaspire_dern_vm_builtin_println"]}
{"id": "C100", "title": "print-readably", "statement": "(print-readably b) makes values printed for the reader (true) or for people (false) from then on and gives b; (print-readably) tells which; anything else is an error without effect.", "quantifier": "every machine state and argument list", "why_tests_cant": "all later printing depends on it", "anchors": ["dev/src/octaspire_dern_stdlib.c:octaspire_dern_vm_builtin_print_readably"]}
{"id": "C101", "title": "What no program can undo", "statement": "Evaluating forms and texts only adds to standard output, never gives the identity of a value to another one, never brings back a freed value, keeps the global environment, a request to exit stands, and the exit code is unchanged as long as exit has not been asked for.", "quantifier": "every machine state, form, environment and sequence of texts", "why_tests_cant": "all programs and histories", "anchors": ["dev/src/octaspire_dern_vm.c:octaspire_dern_vm_eval", "dev/src/octaspire_dern_vm.c:octaspire_dern_vm_read_from_c_string_and_eval_in_global_environment"]}
{"id": "C102", "title": "Texts of reals", "statement": "A real other than NaN is written as its value correctly rounded to six significant digits without trailing zeros, with an exponent of at least two digits if the first digit is worth less than 0.0001 or at least 1000000; there is exactly one such text.", "quantifier": "every binary64 number but NaN", "why_tests_cant": "2^64 numbers", "anchors": ["dev/src/octaspire_dern_value.c:octaspire_dern_private_value_to_string"]}
{"id": "C103", "title": "generate: elements", "statement": "(generate 'vector of n g) and (generate 'string of n g) evaluate the kind, the count and g once, in this order; then, if g is not an operator, the result has n times that very value (or its character), and if it is one, the form (g (quote result) i) is evaluated for i = 0 to n - 1 in order and the value of each call is appended to the result; the result is new; a wrong kind, word or count is an error.  As a claim that the result always has n elements this is false: the call is given the result itself and may change it.", "quantifier": "every form, environment, machine state, kind, count and operator (functions, macros, builtins and specials with any effect)", "why_tests_cant": "all programs as generators, all counts", "anchors": ["dev/src/octaspire_dern_stdlib.c:octaspire_dern_vm_special_generate", "dev/src/octaspire_dern_stdlib.c:octaspire_dern_vm_private_special_generate_helper_generate"]}
{"id": "C104", "title": "generate: mapping", "statement": "(generate 'vector mapping f on v1 ... vk) evaluates the kind, f and the vectors once each in this order, then the form made of f and the i-th elements of the vectors for every i up to the length of the shortest, and the result is a new vector of the values of these calls in order.", "quantifier": "every form, environment, machine state, operator and list of vectors", "why_tests_cant": "all vectors and operators", "anchors": ["dev/src/octaspire_dern_stdlib.c:octaspire_dern_vm_special_generate", "dev/src/octaspire_dern_stdlib.c:octaspire_dern_vm_private_special_generate_helper_map"]}
{"id": "C106", "title": "read-and-eval-string", "statement": "(read-and-eval-string t) reads and evaluates the forms of the string t in the global environment, one after the other, exactly as the same text at the top level, ending at the first error; its value is that of the last form evaluated.  The empty text, another kind of argument and another number of arguments are errors.", "quantifier": "every string, machine state and number of arguments", "why_tests_cant": "all texts, all programs in them", "anchors": ["dev/src/octaspire_dern_stdlib.c:octaspire_dern_vm_builtin_read_and_eval_string", "dev/src/octaspire_dern_vm.c:octaspire_dern_vm_read_from_c_string_and_eval_in_global_environment"]}
{"id": "C107", "title": "Arithmetic on all kinds of arguments", "statement": "If a call of +, -, *, / or mod returns, then: + and * of integers give the integer sum and product (+ of nothing is 0, * of nothing is 1), of numbers among which a real is, the double obtained by combining them from left to right as doubles; - of one number is its negation and of more subtracts the others from the first; / divides as doubles (a single number: its reciprocal) and is an error if a divisor is zero; mod takes exactly two integers and gives the remainder with the sign of the first, an error for zero. The first argument that is no number makes the result an error (an error argument is itself the result). + of strings and characters is a new string of the texts one after another, of symbols a symbol, of versions the version obtained by adding them one after another, of a vector and further values a new vector of copies of the elements followed by copies of the values, of a hash map and further values (taken as keys and values in turn; an odd number is an error) a new hash map of copies of all. All this leaves every value the program can reach unchanged. - with a string first removes every occurrence of the other texts from that very string, one after another, and gives it.", "quantifier": "all calls of + - * / mod: all arguments, machine states and heaps that satisfy the machine's invariant", "why_tests_cant": "the arguments are arbitrary values of arbitrary number, nested to arbitrary depth; a test can only try finitely many", "anchors": ["dev/src/octaspire_dern_stdlib.c:octaspire_dern_vm_builtin_plus", "dev/src/octaspire_dern_stdlib.c:octaspire_dern_vm_builtin_private_plus_numerical", "dev/src/octaspire_dern_stdlib.c:octaspire_dern_vm_builtin_private_plus_textual_string", "dev/src/octaspire_dern_stdlib.c:octaspire_dern_vm_builtin_private_plus_textual_char", "dev/src/octaspire_dern_stdlib.c:octaspire_dern_vm_builtin_private_plus_textual_symbol", "dev/src/octaspire_dern_stdlib.c:octaspire_dern_vm_builtin_private_plus_vector", "dev/src/octaspire_dern_stdlib.c:octaspire_dern_vm_builtin_private_plus_hash_map", "dev/src/octaspire_dern_stdlib.c:octaspire_dern_vm_builtin_minus", "dev/src/octaspire_dern_stdlib.c:octaspire_dern_vm_builtin_times", "dev/src/octaspire_dern_stdlib.c:octaspire_dern_vm_builtin_mod"]}
{"id": "C108", "title": "cp@ gives copies of parts", "statement": "(cp@ x i) and (cp@ x i j), if they return, leave every value the program can reach unchanged and give: for a string or symbol the character at index i (negative indices count from the end; the fraction of a real index is dropped), or, for two different indices, a new vector of the characters from i to j inclusive; for a vector a deep copy of the element, or a new vector of deep copies of the elements from i to j; for a hash map with 'index or 'hash a copy of the value; for a list a copy of the element; for an integer the bit of its two's complement representation; for a version its part. Indices outside the collection and arguments of other kinds give an error.", "quantifier": "every call of cp@: all values, indices, heaps and garbage collections", "why_tests_cant": "values of arbitrary size and depth, and a collection at any allocation: the result vector of a range is not protected from the garbage collector", "anchors": ["dev/src/octaspire_dern_stdlib.c:octaspire_dern_vm_builtin_cp_at_sign", "dev/src/octaspire_dern_vm.c:octaspire_dern_vm_value_as_semver_create_value_for_element_at"]}
{"id": "C109", "title": "Ports: files only grow", "statement": "Whatever builtins on ports are called, in any order and with any arguments, and whatever the system answers, no octet of a file is ever lost or overwritten: the old contents stay as a prefix.  A file that no port has open for output and that no call of the history opens for output stays exactly as it is.", "quantifier": "every history of calls of the port builtins (with copies and collections of ports), every system behaviour", "why_tests_cant": "all histories, all schedules of the buffers of the C library", "anchors": ["dev/src/octaspire_dern_port.c:octaspire_dern_port_write", "dev/src/octaspire_dern_port.c:octaspire_dern_port_new_output_file", "dev/src/octaspire_dern_stdlib.c:octaspire_dern_vm_builtin_output_file_open"]}
{"id": "C110", "title": "Ports: what is written arrives", "statement": "If a port is opened for output on a file that no other port has open for output, then after any history in which every port-write on it answers the number of octets of its argument, the file has its old octets followed by an initial part of the octets of the written values in the order of the calls (integers modulo 256, texts as UTF-8, vectors element by element), and by all of them after a flush, seek or close that answers true.  A text is written completely or the answer is an error; for an integer that is not: an octet that the system refuses is answered by 0.", "quantifier": "every history, system behaviour and value", "why_tests_cant": "all histories and schedules", "anchors": ["dev/src/octaspire_dern_stdlib.c:octaspire_dern_vm_builtin_port_write", "dev/src/octaspire_dern_port.c:octaspire_dern_port_write", "dev/src/octaspire_dern_port.c:octaspire_dern_port_flush"]}
{"id": "C111", "title": "Ports: reading and seeking", "statement": "A port opened for input stands at the beginning of the file.  port-read gives the next octet (as a number between -128 and 127) and moves one on, or is an error at the end; with a count it gives a vector of that many or the remaining octets; over any history without seeks and writes the octets are read each once and in order.  port-seek n goes to octet n, to the end minus (-n-1) for negative n, or relative to the present position with a symbol, answers false and stays when that is before the beginning; port-dist tells the position.  Reading and seeking on an input port change no file.", "quantifier": "every history, file, position and number", "why_tests_cant": "all files and histories", "anchors": ["dev/src/octaspire_dern_stdlib.c:octaspire_dern_vm_builtin_port_read", "dev/src/octaspire_dern_stdlib.c:octaspire_dern_vm_builtin_port_seek", "dev/src/octaspire_dern_stdlib.c:octaspire_dern_vm_builtin_port_dist"]}
{"id": "C112", "title": "Ports: opening and closed ports", "statement": "Opening succeeds exactly if the system allows it and, for input, the file exists; an output or io file is created, a failure changes no file and gives a port that is not open (an error for io-file-open).  On a port that is not open every operation answers false, -1, an error or (port-read with a count) the empty vector and changes nothing; port-close makes a port not open, for ever.", "quantifier": "every history and system behaviour", "why_tests_cant": "all histories", "anchors": ["dev/src/octaspire_dern_port.c:octaspire_dern_port_close", "dev/src/octaspire_dern_port.c:octaspire_dern_port_new_input_file", "dev/src/octaspire_dern_stdlib.c:octaspire_dern_vm_builtin_port_close"]}
{"id": "C113", "title": "Ports: no crash", "statement": "In every state a program can reach, a call of a port builtin returns if: opening gets a string and closing a port, reading does not directly follow writing on the same port nor writing reading, a written value has at most 2^31-1 octets, and for copying and collecting the system opens and flushes.  As a claim about all calls this is false: opening with a non-string and closing a non-port abort, reading directly after writing is undefined behaviour, and so is copying a port whose file cannot be opened again.", "quantifier": "every reachable state and call", "why_tests_cant": "all states and calls", "anchors": ["dev/src/octaspire_dern_stdlib.c:octaspire_dern_vm_builtin_input_file_open", "dev/src/octaspire_dern_port.c:octaspire_dern_port_new_copy", "dev/src/octaspire_dern_port.c:octaspire_dern_port_read"]}
{"id": "C114", "title": "Ports: port-length", "statement": "As long as a port is open, port-length gives the number of octets that the file had when the port was opened (up to 2^31-1).  As a claim about the present length of the file this is false: it does not follow the writes.", "quantifier": "every history after the opening", "why_tests_cant": "all histories", "anchors": ["dev/src/octaspire_dern_port.c:octaspire_dern_port_get_length_in_octets", "dev/src/octaspire_dern_stdlib.c:octaspire_dern_vm_builtin_port_length"]}
{"id": "C115", "title": "Ports: written values can be read back", "statement": "On an io port, after port-write of a value with n octets answered n, port-seek to -(n+1) and port-read of n octets give these octets as numbers from -128 to 127: integers between -128 and 127 come back as they were.  As a claim about all octets 0 to 255 this is false: 200 comes back as -56.", "quantifier": "every state, value and system behaviour", "why_tests_cant": "all values", "anchors": ["dev/src/octaspire_dern_stdlib.c:octaspire_dern_vm_builtin_port_read", "dev/src/octaspire_dern_stdlib.c:octaspire_dern_vm_builtin_port_write"]}
{"id": "C116", "title": "The interactive program answers what is typed", "statement": "Without arguments octaspire-dern-repl greets, prompts, and for every finished line says the text of the value of the line's first form, evaluated in the global environment in the machine the earlier lines left, and prompts again; the rest of the line is dropped; a line whose form cannot be read yet (a lone quote), or whose form has no value, gives the second prompt and is joined with the next line; after a line that asked to exit nothing more is read.  As claims these are false: every form of a line is evaluated; a form left open is continued on the next line (it is answered as an error); a line with only blanks or a comment is harmless (it is undefined behaviour: the jump to noToken leaves str indeterminate and it is released).", "quantifier": "every machine state, list of lines and unfinished last line", "why_tests_cant": "all conversations", "anchors": ["dev/src/octaspire_dern_repl.c:main", "release/octaspire-dern-amalgamated.c:octaspire_stdio_read_line"]}
{"id": "C117", "title": "Exit status of the program", "statement": "The exit status is 1 exactly when the program reported a failure (a string or script whose value is an error or that is incomplete, a script that cannot be read, an unknown option), and otherwise the exit code of the machine, which is 0 unless a program asked to exit; once exit was asked for, nothing read afterwards writes anything or changes the exit code; the first string that fails ends the program whatever follows it.", "quantifier": "every command line, set of files, standard input and machine state", "why_tests_cant": "all inputs", "anchors": ["dev/src/octaspire_dern_repl.c:main", "dev/src/octaspire_dern_stdlib.c:octaspire_dern_vm_builtin_exit"]}
{"id": "C118", "title": "Meaning of the command line", "statement": "Every command line has exactly one meaning: options in any order up to the script, whose arguments are all that follow whatever they look like; version, help or the first unknown option end the program before anything is evaluated; the strings of -e are evaluated in order, then the script, then with -i or without strings and script the interactive loop.  A -e or -I as last argument is ignored; an empty script file counts as unreadable; a script with only blanks aborts (refuted).", "quantifier": "every command line, set of files and standard input", "why_tests_cant": "all command lines", "anchors": ["dev/src/octaspire_dern_repl.c:main", "release/octaspire-dern-amalgamated.c:octaspire_helpers_path_to_buffer"]}
{"id": "C119", "title": "No input breaks the program's machine", "statement": "Whatever octets are given as arguments, script and standard input: the machine stays consistent, its stack is as before, output only grows and the unbalanced-stack abort never happens; with the functions of C66 no freed value is used.", "quantifier": "every octet string as argument, script and standard input", "why_tests_cant": "all inputs", "anchors": ["dev/src/octaspire_dern_repl.c:main", "dev/src/octaspire_dern_vm.c:octaspire_dern_vm_pop_value"]}
{"id": "C120", "title": "A host that follows the stack rule never uses a freed value", "statement": "A program that embeds the machine and follows one rule (what a request uses after it has made a value must be reachable from the machine's stack; values just returned stay usable until the next request that makes a value; pops in the order of a stack) never makes the machine use a freed value or abort for an unbalanced stack, whatever it evaluates in between; the stack is exactly what it pushed, the global environment stays. Without the rule a vector made of fresh values holds freed ones (refuted).", "quantifier": "every sequence of requests of the embedding API that follows the rule, every evaluated text, every collection threshold", "why_tests_cant": "all interleavings of host requests and collections", "anchors": ["dev/src/octaspire_dern_vm.c:octaspire_dern_vm_push_value", "dev/src/octaspire_dern_vm.c:octaspire_dern_vm_pop_value", "dev/src/octaspire_dern_vm.c:octaspire_dern_vm_create_new_value_vector_from_values", "dev/src/octaspire_dern_vm.c:octaspire_dern_vm_gc"]}
{"id": "C121", "title": "A function called from C behaves as one called in a program", "statement": "A call of a function or macro from C, with function and argument vector on the stack, has the same events as the call of it in a program after evaluation of its arguments: a new environment inside the one of the definition, binding of formals to the arguments (an error there is the answer), the forms of the body in order up to the first error or return, the last value as result.", "quantifier": "every function value, argument vector, machine state", "why_tests_cant": "all functions and arguments", "anchors": ["dev/src/octaspire_dern_vm.c:octaspire_dern_vm_call_lambda"]}
{"id": "C122", "title": "Evaluating a file, a buffer and a string agree; no input is an error", "statement": "The same non-empty text means the same to the three functions that evaluate a text in the global environment, and octets after a NUL of a string are ignored; NULL, an empty text, an unreadable or empty file answer an error and leave everything reachable unchanged.", "quantifier": "every text, file and machine state", "why_tests_cant": "all texts and states", "anchors": ["dev/src/octaspire_dern_vm.c:octaspire_dern_vm_read_from_buffer_and_eval_in_global_environment", "dev/src/octaspire_dern_vm.c:octaspire_dern_vm_read_from_path_and_eval_in_global_environment", "dev/src/octaspire_dern_vm.c:octaspire_dern_vm_read_from_octaspire_input_and_eval_in_global_environment"]}
{"id": "C123", "title": "A value bound by the host is what programs see", "statement": "After the host binds a symbol to a value in an environment, a symbol with that text evaluates to exactly that value there and evaluating it changes nothing; other names and environments not enclosed by it denote what they did; no other value changes. octaspire_dern_vm_create_and_define_new_integer never defines anything (refuted).", "quantifier": "every environment, name, value and machine state", "why_tests_cant": "all environments and names", "anchors": ["dev/src/octaspire_dern_environment.c:octaspire_dern_environment_set", "dev/src/octaspire_dern_vm.c:octaspire_dern_vm_create_and_define_new_integer"]}
{"id": "C124", "title": "Stack, collection settings and exit registers of the host", "statement": "While collection is prevented nothing is freed whatever is evaluated, and only the two settings functions change the settings; push then peek gives the value, pop of it restores the machine exactly and pop of any other value aborts; after quit the machine says so, keeps the exit code last set, and every evaluation answers nil.", "quantifier": "every machine state, request and evaluated program", "why_tests_cant": "all programs and states", "anchors": ["dev/src/octaspire_dern_vm.c:octaspire_dern_vm_set_prevent_gc", "dev/src/octaspire_dern_vm.c:octaspire_dern_vm_pop_value", "dev/src/octaspire_dern_vm.c:octaspire_dern_vm_quit"]}
{"id": "C125", "title": "Representation of values stays well formed in every history", "statement": "Whatever programs are evaluated and whatever a host does through the embedding API, no environment ever binds a name twice, a queue with a maximum length never has more elements than it, and a hash map has 128*2^j buckets, every pair in the bucket of its hash, its length equal to its number of pairs and its load below three quarters; storing into such a map never fails an assertion and its pairs are exactly those at the indices below its length, from either end.", "quantifier": "every library of builtins and specials, sequence of evaluated texts, sequence of API requests, garbage collection schedule", "why_tests_cant": "an invariant of every history", "anchors": ["dev/src/octaspire_dern_environment.c:octaspire_dern_environment_set", "dev/src/octaspire_dern_value.c", "octaspire_map_put, octaspire_map_remove, octaspire_map_private_rehash (release/octaspire-dern-amalgamated.c:7165-8249)", "octaspire_queue_push"]}
{"id": "C105", "title": "template evaluates only after commas and builds a new value in order", "statement": "A template of one form is that form (or, after a comma, its value). A template of several forms is a new vector that holds, in order, each form itself, in place of a comma and the form after it the value of that form, in place of ,name the value of the name, in place of ,@ and the form after it the elements of that form's value (or the value, when it is not a vector), and in place of a vector a new vector made from it in the same way. Only the forms after commas are evaluated, once each and from left to right; nothing else that the program can see changes. Every template whose evaluated forms have values has a value.", "quantifier": "every template form, environment and machine, every nesting of vectors", "why_tests_cant": "templates nest to any depth, what is evaluated may change the template while it is read, and tests only show a few templates", "anchors": ["dev/src/octaspire_dern_stdlib.c:4045-4442 octaspire_dern_vm_private_template_helper, octaspire_dern_vm_special_template"]}
{"id": "C126", "title": "A host cannot observe when garbage is collected", "statement": "A program that embeds the machine gets the same answers (values, contents of values it looks at, stack length, exit registers) and leaves the same machine whatever the collector's limit is and whatever it asks of the collector in between (explicit collection, preventing it, its limit), as long as it never uses a freed value; a host that decides what to ask from the answers so far asks the same.", "quantifier": "All libraries, schedules of the collector, choices of addresses and error texts, sequences of requests of any length and hosts as functions of the answers so far.", "why_tests_cant": "Whether a collection falls at a given allocation depends on the whole history; tests see a few schedules.", "anchors": ["/repo/dev/src/octaspire_dern_vm.c: octaspire_dern_vm_gc, octaspire_dern_vm_set_prevent_gc, octaspire_dern_vm_set_gc_trigger_limit, octaspire_dern_vm_private_create_new_value_struct", "/repo/dev/include/octaspire/dern/octaspire_dern_vm.h"]}
{"id": "C127", "title": "read-and-eval-path evaluates the text of a file", "statement": "(read-and-eval-path p) with one string p reads the file at the path p (up to its first NUL character, in UTF-8) as it is at that time and evaluates its text, up to the first octets that are not UTF-8, in the global environment form by form and in order; its value is that of the last form or the first error. No such file, an empty file, one that does not begin with a character, another type and another number of arguments are errors that change nothing. A UTF-8 file has the same outcome as read-and-eval-string has on a string with its text.", "quantifier": "every machine, environment, number and type of arguments, path and contents of files, every file system as a function of time and path", "why_tests_cant": "the file holds any program, which runs in any state; tests evaluate a couple of literal files", "anchors": ["dev/src/octaspire_dern_stdlib.c:6095-6137 octaspire_dern_vm_builtin_read_and_eval_path", "dev/src/octaspire_dern_vm.c:4422-4442 octaspire_dern_vm_read_from_path_and_eval_in_global_environment"]}
{"id": "C128", "title": "Programs see the arguments and environment variables of their host, and cannot change them", "statement": "(host-get-command-line-arguments) and (host-get-environment-variables) give a new vector with a new string for each text the host has added, in the order added, equal to it up to its first NUL character; with arguments they give an error. They change nothing the program can reach, and no evaluation changes what a later call will give.", "quantifier": "every machine, every list of added texts of any length, every evaluation in between", "why_tests_cant": "what a later call gives depends on every evaluation in between; the tests of the project call each once", "anchors": ["dev/src/octaspire_dern_stdlib.c:12480-12580 octaspire_dern_vm_builtin_host_get_command_line_arguments, octaspire_dern_vm_builtin_host_get_environment_variables", "dev/src/octaspire_dern_vm.c:5283-5335 octaspire_dern_vm_add_command_line_argument, octaspire_dern_vm_add_environment_variable"]}
{"id": "C129", "title": "C data of plug-ins keeps its names and payload, is checked by kind and is ordered", "statement": "C data made by a plug-in has the names and the payload it was given; a copy (made exactly if copying is allowed, otherwise an error) has the same names and shares the payload; a function that asks for a plug-in name and a payload type accepts exactly the data with these two names. Comparison is a total preorder: by plug-in, then by payload type, then by the comparison function of the plug-in or, without one, by identity. A copy is equal to its original.", "quantifier": "every piece of C data with textual names, every set of loaded plug-ins, every comparison function that is itself a total preorder", "why_tests_cant": "plug-ins and their functions are arbitrary; order laws are about all pairs and triples", "anchors": ["dev/src/octaspire_dern_c_data.c:49-342", "dev/src/octaspire_dern_vm.c:2096-2125", "dev/src/octaspire_dern_stdlib.c:12381-12425"]}
{"id": "C130", "title": "The permutation iterator visits every arrangement once", "statement": "Starting from a vector of n different elements, repeated calls of octaspire_vector_permutation_iterator_next answer true exactly n!-1 times and false ever after; the vector always holds a permutation of its elements, each call that answers true swaps two different positions, a call that answers false leaves the vector alone, and together with the initial arrangement every arrangement of the elements is met exactly once.", "quantifier": "every vector built by any operations of the public interface (fewer than 2^31 elements), every number of calls", "why_tests_cant": "the number of calls and of arrangements grows like n!, for every n; the tests try vectors of up to four elements", "anchors": ["release/octaspire-dern-amalgamated.c: octaspire_vector_permutation_iterator_new, octaspire_vector_permutation_iterator_next"]}
