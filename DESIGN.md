# Formal model of octaspire/dern in Rocq (Coq 8.16.1)

## Approach
The model is written as small total Gallina functions in `rocq/theories`, one file per
C module of octaspire/dern, each definition citing the file and lines it models. `A:` in
citations stands for `release/octaspire-dern-amalgamated.c` (the only place where the core
library source is present); `lexer:`, `value:`, `vm:`, `stdlib:`, `env:`, `helpers:` stand
for `dev/src/octaspire_dern_<name>.c`. Aborting (`abort()`, failed `verify_*`/`assert`) and
undefined behaviour (NULL dereference, signed overflow, out-of-bounds access) are explicit
outcomes, never turned into normal-looking values. Loops without a structural measure take
fuel and return an explicit out-of-fuel outcome, which theorems exclude.

Each property is stated in a `Props*.v` file that contains only the theorem, closed by
`exact`, its `Print Assumptions`, and an example showing that a concrete non-trivial case
meets the hypotheses. Where the code violates the property the negation is proved with a
witness (`_refuted`) and the strongest true part as `_partial`.

## Plan per property
- **C01 UTF-8 encode/decode round trip** — Utf8.v models encode/decode with the C masks and shifts on N; arithmetic characterisation, then round trip by case analysis on the four ranges.
- **C02 UTF-8 decoding is canonical and in bounds** — Same model; decode success implies encode of the result gives back the octets (in the range the encoder accepts), and bounds; injectivity.
- **C03 UTF-8 decoding yields only Unicode scalar values** — Expected false (decoder accepts surrogates and > 0x10FFFF): refutation with witness plus the exact set of decodable numbers.
- **C04 String construction keeps the longest valid prefix** — OString.v: decoding loop; inductive spec of 'well-formed prefix'.
- **C05 Strings behave as sequences of characters under any history** — OString.v: state = ucs vector + octet vector + error status; operation datatype, run over histories, refinement to list N.
- **C06 Negative indices count from the end** — Vec.v/OString.v index functions over Z with the 64-bit conversions.
- **C07 Substring returns the requested characters** — Expected false at start+len = length; partial for start+len < length, refutation.
- **C08 Removing all substrings** — Substring search and removal loop with fuel; termination by length for non-empty pattern; divergence lemma for the empty one.
- **C09 Splitting a string** — Tokeniser model; spec by list functions.
- **C10 Edit distance** — DP matrix model against an inductive edit-script relation and minimality.
- **C11 String ordering** — strcmp model on encoded octets against lexicographic order of code points.
- **C12 Equal strings hash equally** — Hash model (32-bit wrap); function of the octets.
- **C13 Vector refines a list under any history** — Vec.v: record with capacity, growth, compaction; refinement for histories.
- **C14 Inserting past the end zero-fills the gap** — Raw storage with stale slots; expected false: refutation, and partial for fresh slots.
- **C15 Doubly linked lists stay well formed** — DList.v: heap of nodes with prev/next pointers; separation-style well-formedness invariant preserved by each operation.
- **C16 List indexing never crashes** — Expected false on the empty list: refutation, and totality for non-empty ones.
- **C17 Queue is FIFO and respects its maximum length** — Queue.v on top of the list model; histories.
- **C18 Hash map refines a finite multimap under any history** — HMap.v: buckets, stored hashes, rehash; generic in key type, equality and hash; refinement to an association list.
- **C19 Map iteration visits each element exactly once** — Iterator and index model; permutation/NoDup statements.
- **C20 Map load assertion never fires** — Load factor as a rational comparison; invariant on buckets in use.
- **C21 Map size stays proportional to its contents** — Expected false (numBucketsInUse never decremented): refutation by an inductively growing history.
- **C22 Putting an existing key** — Expected false (values accumulate): refutation.
- **C23 Base64 round trip** — Base64.v: encoder with line breaks, decoder; induction on 3-byte groups.
- **C24 Base64 decoding is safe** — Expected false: refutation with the witness input.
- **C25 Line and column numbers** — Input.v: reader state; invariant over pops.
- **C26 Lexer progress** — Lexer.v: executable lexer; progress lemma per token kind.
- **C27 Comments and white space are insignificant** — Lexer.v: prefix-skipping lemmas.
- **C28 Integers print and read back** — Printer + lexer; digit induction; INT_MIN corner.
- **C29 Strings print and read back** — Printer + lexer; partial for strings without ']' and '|'; refutation in general.
- **C30 Characters and symbols print and read back** — Printer + lexer.
- **C31 Nested data prints and reads back** — Parser.v: recursive parser with fuel; structural induction on values.
- **C32 Unbalanced parentheses are errors** — Parser.v: truncation lemma.
- **C33 Truncated literals are rejected** — Expected false for numbers: refutation; partial for strings.
- **C34 Parser progress and totality** — Parser.v: fuel bound by input length.
- **C35 Integer comparison** — int32 subtraction with overflow = undefined; partial in range and refutation.
- **C36 Value comparison is a total preorder; == is structural** — Value.v: value trees and compare; induction.
- **C37 Equal values hash equally** — Expected false for collections and 1 == 1.0: refutation; partial for atoms of one kind.
- **C38 Deep copies are equal and independent** — SpecCopy.v says what a deep copy is (a mutual relation between two heaps); CopyProofs.v proves it of `copy` by induction on the fuel in the calculus of SafeBase.v; disjointness by freshness of identities. Partial: the builtin refuses most kinds of values (refuted).
- **C39 Hash map comparison is antisymmetric** — Expected false: refutation; size and equal-key cases proved.
- **C40 Semantic version precedence** — Semver.v: compare with int truncation; partial below 2^31, refuted above.
- **C41 Semantic version addition and subtraction** — Semver.v.
- **C42 Garbage collection is safe** — Gc.v: heap graph, mark with explicit worklist/recursion, sweep; reachability as inductive relation.
- **C43 Garbage collection is complete** — Gc.v.
- **C44 Marking terminates on cyclic data** — Gc.v: measure = unmarked cells.
- **C45 Documentation vectors survive collection** — Expected false for docvec: refutation.
- **C46 A pending return value survives collection** — Expected false: refutation with functionReturn outside the roots. Positive part: SpecKept.v, KeptProofs.v (an instance of Relate.v: without a collection nothing is freed), PropsKept.v.
- **C47 Values have unique identities** — Allocation counter model.
- **C48 The VM stack stays balanced** — Eval.v: evaluator over a heap with explicit stack; induction on fuel.
- **C49 Environment lookup, shadowing and define** — Env.v: environment chain over the heap; lookup/set laws.
- **C50 Lexical scope** — Eval.v.
- **C51 Arity and variable arguments** — Env.v: extend.
- **C52 Argument errors prevent the call** — Eval.v.
- **C53 Conditionals evaluate only what they choose** — Eval.v.
- **C54 return leaves the function** — Eval.v; expected partly false (stale and double return).
- **C55 Counting loops** — SpecFor.v: what `for` does as a relation (rounds, each binding the iterator and running the body); PropsFor.v derives the sequence of values and the count.
- **C56 while loops** — Eval.v.
- **C57 Evaluation stops after exit** — Eval.v.
- **C58 Integer arithmetic** — Arith.v: int32 arithmetic with overflow = undefined.
- **C59 Arithmetic-style operators do not modify their arguments** — Expected false for - on strings.
- **C60 define copies atoms and shares collections** — SpecDefine.v: relation for every form of define, as C53; corollary about the binding.
- **C61 Literals are constant** — Expected false: refutation through ++ on a literal. Positive part in PropsKept.v.
- **C62 Errors propagate through and/or** — Expected false: refutation.
- **C63 Chained comparison** — Expected false: exact meaning proved, refutation of the chained reading.
- **C64 Evaluation stops at the first error in a text** — Eval.v read-eval loop.

- **C65 Evaluating a text ends** — Read.v; false after exit: refutation by induction on the fuel. Positive part (SpecEnds.v, EndsProofs.v): the evaluations a text asks for are listed by an inductive relation; if each ends and none after exit is of an unreadable piece, the reading loop ends, because every round consumes input.
- **C66 No freed value is ever used** — SafeBase.v ... SafeRun.v: a weakest-precondition calculus over the machine with an invariant (every reference reachable from a live value, the stack or the global environment is live; private argument vectors), rules for every operation, and a proof for every builtin, special and the evaluator by induction on the fuel. Partial: without return, =, copy, cp@ and template, with which it is false.
- **C67 do**, **C68 quote** — relations in SpecSpecial.v, as C53.
- **C69 Appended input is read in place** — Input.v: pushing commutes with popping while something is unread; refuted at the end of the text.
- **C70 Base64 text is the standard encoding, in lines** — SpecBase64.v is RFC 4648 by division; the encoder's loop, removal of digits and padding (Base64.v) produce it. Line lengths: invariant of the loop; refuted with padding.
- **C71 Defining functions** — corollary of the relation of SpecDefine.v.
- **C72 Loops over collections** — corollary of the relation of SpecFor.v.
- **C73-C75 Literals** — SpecLiteral.v: digits, names of characters and string texts; LiteralProofs.v: induction over the
  digits/pieces; PropsLiteral.v.
- **C76-C81 Builtins that only read** — SpecBuiltin.v: for each builtin a relation between the values of the arguments and
  the result; BuiltinProofs.v: rules for procedures that change nothing reachable, and one loop for all collections;
  BuiltinCases.v: concrete calls; PropsBuiltin.v.
- **C82-C84 Builtins that change their arguments** — SpecWrite.v: relations between the arguments, the changes (`Put` events of a
  trace) in their order and the result; WriteProofs.v: induction over the arguments; WriteFacts.v: what a trace of changes leaves in
  the machine, giving the closed forms in PropsWrite.v (e.g. after `(+= v x y)` the vector v is its old contents, then x and y).

- **C85 fn and macro**, **C86 eval**, **C87 Calls of macros** — relations in SpecMake.v and SpecApply.v, as C53; MakeProofs.v,
  ApplyProofs.v, MacroProofs.v. C87: a call whose expansion's value is a nonempty vector evaluates the first element again (refuted as stated); what then
  happens is the relation of SpecAgain.v, proved in AgainProofs.v with the monotonicity in the fuel of SchedProofs.v.
- **C88 Assignment** — SpecSet.v: the changes (`Renew`, `Put`, `Docs` events) that (= x y) and (= x k y) consist of; SetProofs.v
  shows that the builtin is a writer of them; SpecFrame.v says what may change (`changes_only x`: nothing reachable without going
  through x); SetFacts.v and PropsSet.v give the resulting machine for atoms, vectors, lists, queues, elements, characters and
  string keys. Also there: C82-C84 change nothing else. Partial: a symbol as the first argument is not modelled.

- **C89-C94 Searching, comparing, converting** — SpecSearch.v (and SpecPrint.v for printed forms) say what the result is in terms of the
  arguments; CompareMono.v: the outcome of a comparison does not depend on the bound of its depth; SearchProofs.v, FindProofs.v: each builtin is a
  `reader` of its specification; PropsSearch.v. Partial: environments, builtins, specials and NaN have no printed form in the model (C90).
- **C91 to-real of texts** — Strtod.v models strtod of the C library on exact integers; SpecStrtod.v: the longest beginning that spells a number (C11 7.22.1.3) and the
  double next to it; StrtodRound.v, StrtodProofs.v (equivalence), TextReal.v (the C string of a text reads like the text).

- **C95 -= and -==** — SpecMinus.v: the changes of the first argument, one event each; MinusProofs.v: the builtins are writers of them; MinusFacts.v,
  PropsMinus.v: the resulting vector (`unlike`: the elements whose trees are none of those of the arguments), string, integer and hash map.
- **C96 One outcome, C97 Collection times** — Relate.v: an abstract relation between runs that every operation of the reader, evaluator and library
  respects as soon as the primitive steps do; SchedProofs.v: the two instances ("more fuel" and "like a machine that has collected nothing");
  SpecSched.v: sessions and what can be seen of them; PropsSched.v: the theorems.
- **C98 string-format, C99 print and println, C100 print-readably** — the machine has a standard output (the octets written so far) and the flag
  printReadably; SpecOutput.v: format strings as a relation (`formatted`), what is written and what is given; OutputProofs.v, PropsOutput.v.
- **C101 What no program can undo** — SpecHistory.v (`later`); HistoryProofs.v: an instance of Relate.v; PropsOutput.v.
- **C102 Texts of reals** — RealText.v models printf's "%g" on binary64 numbers with exact integer arithmetic; SpecReal.v says what six significant
  digits are; RealProofs.v: the text is one of those, RealUnique.v: there is only one.

- **C103 generate, C104 generate with vectors, C106 read-and-eval-string** — SpecGenerate.v: the evaluations of the generator, one per element, with the
  forms it is called with, and the value built from the results; PrivateProofs.v: values no one else refers to while they are built;
  GenerateProofs.v, PropsGenerate.v, PropsReadString.v. C104 and C106 refuted as stated in the documentation, with the true parts.
- **C105 template** — SpecTemplate.v: mutually inductive relations `piece` (what stands at one place of a template, read in the machine at that
  moment, and the values it contributes) and `fill` (the places in order, each value added to the new vector). Proved of the model by induction on
  the depth with the owned-value calculus of PrivateProofs.v (TemplateProofs.v, PropsTemplate.v). For that the condition `stable` on relations of
  SpecialEval.v compares everything the forms can reach. Refuted: a template with an empty vector in it (NULL element).
- **C107 arithmetic** — SpecPlus.v states the result of + - * / mod for every list of arguments: numbers (folds over Z or doubles, with the first
  non-number as the error), texts, versions (version_changed of SpecSemver.v), vectors and maps (copied_all / copied_pairs of SpecCopy.v).
  PlusProofs.v: loop invariants over the remaining arguments; the container cases reuse copy_spec (CopyProofs.v). `-` on a string is a writer (events).
- **C108 cp@** — SpecCpAt.v states the copied character, element, bit, version part, map value or range. The range loop builds its result in a vector
  that is no root while copies are allocated; RootProofs.v proves (as an instance of Relate.v) that an operation during which an unrooted value survives
  goes exactly as if it had been a root, and CpAtProofs.v reduces the loop to copy_seq of CopyProofs.v with it.
- **C109-C115 file ports** — Port.v is a stand-alone model of octaspire_dern_port.c and of the port builtins (stdlib:4871-5645) above a model
  of stdio: streams with octets that wait, an oracle (`system`) that decides about opening, short writes, draining and flushing. SpecPort.v
  speaks about histories of calls and answers, files and positions. Invariant `wf` over histories (PortProofs.v, PortFacts.v: every call leaves the
  host alone, acts on one port or adds one), then induction over histories. Refuted: see the notes (octets from 128 on are read as negative, ...).
- **C116-C119 the stand-alone program** — Repl.v models main of octaspire_dern_repl.c above the machine of Read.v: command line, strings, script, lines of
  standard input, exit status. SpecRepl.v says what command lines mean (`meaning`), what a conversation is (`talk`) and what loading texts is (`loads`);
  ReplProofs.v: equivalence of the loops with these relations, and instances of Relate.v/SafeEval for the invariants; PropsRepl.v.
  Findings: a line that is blank or a comment jumps past the declaration of `str` and releases an indeterminate pointer; only the first form of a line is
  evaluated; an open form is an error, not continued; a form without a value is evaluated again with the next line; a last line without newline is dropped; an
  empty script file is "unreadable", a blank one aborts; after `-e (exit)` with -i one more line is prompted for and answered nil.

How C53, C56, C62, C63, C67, C68 (and C52, C54, C55, C60) are stated: `SpecTrace.v` defines a *trace*: the
sequence of visible events (evaluations of sub-forms, bindings, documentation changes, calls of builtins) between
which nothing the program can reach changes. `SpecSpecial.v` gives for each special form an inductive relation between the argument
forms, the events in their order and the result; `SpecForm.v` says what it means that evaluating a form follows such a
relation; `SpecCall.v` does the same for calls of builtins and functions (C52, C54, C59). The theorems hold for every evaluator outcome of the sub-forms, every heap, every collection schedule.

## Files
| files | C code |
|---|---|
| Utf8, OString, Vec, Leven | core library: utf8, string, vector, edit distance (A:2738-6858) |
| DList, HMap | doubly linked list, queue, hash map (A:4237-5112, A:7165-8249) |
| Base64 | base64 encoder and decoder of the core helpers / dern helpers |
| Input, Lexer, Parser, Printer | input (A:8252-8484), lexer, reader and printing of values |
| Semver | semantic versions (A:8624-9895) |
| Heap | values, allocation, the value stack, mark and sweep (vm, value mark functions) |
| ValueOps | comparison and hashing of values (value) |
| Env, Copy | environments, binding of arguments, deep copies, octaspire_dern_value_set |
| Builtins, Specials | the builtins and specials of stdlib named in Heap.v |
| ToText, RealText, SafeText | octaspire_dern_value_to_string, printf's %g |
| Eval | octaspire_dern_vm_eval, calls of builtins, functions, macros, indexing forms |
| Read, Boot | reading values into the heap, the read-eval loop, octaspire_dern_vm_new |
| Port | file ports and the port builtins, above a model of stdio |
| Repl | the stand-alone program octaspire-dern-repl |
| Spec*.v | the notions theorems are stated with; no proofs |
| *Proofs.v, Safe*.v, Special*.v, CallForms | proofs |
| Props*.v | the theorems, their assumptions and concrete cases |

## Outcomes
`Ret` (normal), `Abort` (abort(), failed verify or assert), `Undef` (undefined behaviour: NULL dereference,
signed overflow, out of bounds, use of replaced contents), `Dangling` (a freed value is used), `Unbalanced`
(octaspire_dern_vm_pop_value finds another value on top and aborts), `NoFuel` (the bound given is too small, or
the function is not modelled: `unmodelled`). A theorem about results says nothing when the
outcome is `NoFuel`; the theorems that exclude an outcome (C48, C66) hold for every fuel.

## Parameters instead of assumptions
The machine carries two arbitrary functions: `addrs` (which address the allocator returns; used where the
code hashes or compares addresses) and `msgs` (the texts of error messages). Every theorem holds for all of them.
The collection limit is a field of the machine as well.

## Trusted base
- Coq's kernel, including `vm_compute` used in closed computations.
- `Print Assumptions` of every theorem in Props*.v: "Closed under the global context" - no axioms, not even of the
  standard library. (coqchk additionally lists the `Under_rel` constants of Coq.ssr.ssrunder, opaque
  module fields of the standard library loaded with ssreflect-based tactics; no theorem depends on them.)
- The faithfulness of the hand translation from C, as documented by the citations.
- Doubles are those of Coq.Floats.SpecFloat (no primitive floats).

## Simplifications
Each is repeated in the comment of the definition it concerns.
- Allocation never fails and never reuses a node's address (lists); release callbacks of containers are not run.
- Vectors inside strings, maps and values are lists; the vector itself is modelled and refined separately (Vec.v).
- Load factors and growth factors are compared exactly, which agrees with single precision below 2^24.
- isspace/isdigit are those of the C locale, false above 127; pow(base, i) is exact where representable.
- Error messages are texts chosen by `msgs`; lines of errors are modelled.
- An environment is an association list from symbol texts; a symbol used as a key is taken not to be mutated.
- The documentation strings of the library functions are empty.
- Copies of nil/true/false made by octaspire_dern_vm_get_value_* do not read the constants, which their
  global bindings keep alive (rebinding `true` is possible only through the C API or a symbol with an embedded NUL).
- Ports (Port.v, not connected with the machine of Eval.v: its calls there are `unmodelled`): reading is not buffered, reads do not fail, files are not
  removed or written by others, a path is a text (no directories, links or `.`), undefined behaviour of stdio as in ISO C 7.21.5.3.
- Recursion depth of C is not bounded (`no_stack`): stack overflow of the C program is not modelled.

## Not modelled
Dynamic libraries and `require`, ports within the machine (see Port.v), colours and wording of the REPL's messages and its memory exhaustion, the SDL/ncurses plug-ins, C data within the machine (see CData.v),
trigonometric functions and powers,
howto, memory exhaustion, the text of NaN, the printed form of environments, builtins and specials,
`for` over environments, and changing a symbol with `=`, `+=` or `pop-*`. A call of one of these is the outcome `NoFuel`
(`unmodelled`), about which the theorems claim nothing.

## Programs that embed the machine (C120-C124)
`Embed.v` models the functions of octaspire_dern_vm.h a host program uses as *requests*, one constructor per function with its
lines: making values, filling vectors, lists and queues, binding, push/pop/peek, explicit collection and its settings,
evaluation of a value, a string, a buffer, a file, call of a function from C (`call_lambda`), exit registers.
Not modelled: ports, C data, host functions (create_and_register_new_builtin/_special), libraries, user data and printf formats.
`SpecEmbed.v` states the rule a host has to follow (`obeys`) and the histories of hosts that follow it; C120 is the invariant
of these histories (by induction, over the same safety lemmas as C66: `EmbedProofs.v`). C121 relates a call from C to the
call relation of programs (`SpecCall.v`, `SpecCalled.v`). C122, C123 are computed from the model's definitions for all texts and
states; C124 uses the relational framework of `Relate.v` with the relation "settings equal, and nothing freed if prevented".
Found: octaspire_dern_vm_create_and_define_new_integer evaluates a text without `as` and with a number that is not an integer of the
language, so it never defines anything; octaspire_dern_vm_create_new_value_vector_from_values allocates its vector
while the given values may be anchored nowhere; the explicit collection ignores preventGc.

## The time of collection, for hosts (C126)
`SpecHost.v` defines the sessions of a host (a list of requests, or a function from the answers so far to the next one). The
relation `like` of `SchedProofs.v` ("the other machine has collected nothing") is kept by every request (`HostProofs.v`, again through
`Relate.v`), and by a request about the collector made to one machine only, so both sessions follow the same one that never collects.

## What programs see of the outside (C127, C128)
The machine has a field `outside`: the files programs read and evaluate (a function of time and path), the arguments and the
environment variables its host added. It may change between requests of a host (`h_outside` in `SpecEmbed.history`, the parameter
`out` of the sessions); during an evaluation it does not (C128_unchanged, an instance of `Relate.v`). `SpecOutside.v` states what the
three builtins give. A host's own request to evaluate a file (`EvaluateFile`, C121) has its file in the request, not in `outside`.

## C data (C129)
`CData.v` models the values plug-ins make, apart from the machine (whose values have no C data). `SpecCData.v` says what an order is
and when the comparison functions of plug-ins are fair. Found: octaspire_dern_c_data_is_equal has its two name tests inverted
(it is not called by the library); comparison without a function compares the addresses of the structures, so that a copy is never equal to its
original; the clean-up function of C data is stored and never called; a comparison function that is missing from its library
makes the text of an error message be read as the result (outcome `Undef`).

## Well formed representations (C125)
`SpecWell.v` says what a well formed environment, queue and hash map is. The invariant is proved for every evaluation, session and
host request by an instance of `Relate.v` (which takes a predicate on contents, `closed`: kept by every operation of the model on
them) with the relation "stays well formed". C49_in_sessions and C123_in_histories discharge the hypothesis
`names_unique` of C49 and C123 for machines that programs or hosts can reach. Not claimed: that the stored hash of a key
is still the hash of the key when the key's value is changed after (by `=` on a value used as a key).

## Cross-validation
`tools/xval.py` (not part of the proofs) extracts the model, replays all texts evaluated by the project's own test
suite dev/test/test_dern_vm.c and compares the asserted types, values and printed texts with those of the model. The
disagreements that remain are about things listed above as not modelled, or assertions of the test suite that are
not about the value given (looked at one by one).

## The permutation iterator (C130)
`Permute.v` models octaspire_vector_permutation_iterator_new/next on top of `Vec.v`. The counts are a mixed-radix number
(`rank`, `PermuteProofs.v`): the loop invariant `rank + i! = r + 1` gives the number of calls that answer true.
