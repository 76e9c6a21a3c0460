(** The machine octaspire_dern_vm_new makes (vm:90-1700). *)
From Coq Require Import NArith ZArith Bool Lia String List.
From Verif Require Import Base HMap Heap ValueOps Env Copy Builtins Specials.
Import ListNotations.
Local Open Scope N_scope.

(** The names registered in vm:325-1700, in that order, and the functions behind
    them. *)
Definition library : list (string * data) :=
  ([
  ("host-get-command-line-arguments", DBuiltin BiHostArguments);
  ("host-get-environment-variables", DBuiltin BiHostVariables); ("ln@", DBuiltin BiLnAt);
  ("cp@", DBuiltin BiCpAt); ("require", DBuiltin BiOther); ("input-file-open", DBuiltin BiOther);
  ("output-file-open", DBuiltin BiOther); ("io-file-open", DBuiltin BiOther);
  ("port-supports-output?", DBuiltin BiOther); ("port-supports-input?", DBuiltin BiOther);
  ("port-close", DBuiltin BiOther); ("port-read", DBuiltin BiOther); ("port-write", DBuiltin BiOther);
  ("port-seek", DBuiltin BiOther); ("port-dist", DBuiltin BiOther); ("port-length", DBuiltin BiOther);
  ("port-flush", DBuiltin BiOther); ("not", DBuiltin BiNot); ("abort", DBuiltin BiAbort);
  ("return", DBuiltin BiReturn); ("vector", DBuiltin BiVector); ("and", DSpecial SpAnd);
  ("or", DSpecial SpOr); ("do", DSpecial SpDo); ("starts-with?", DBuiltin BiStartsWith); ("=", DBuiltin BiSet);
  ("string-format", DBuiltin BiStringFormat); ("to-string", DBuiltin BiToString); ("to-integer", DBuiltin BiToInteger);
  ("to-real", DBuiltin BiToReal); ("print-readably", DBuiltin BiPrintReadably); ("print", DBuiltin BiPrint);
  ("println", DBuiltin BiPrintln); ("env-new", DBuiltin BiEnvNew); ("env-current", DBuiltin BiEnvCurrent);
  ("env-global", DBuiltin BiEnvGlobal); ("-=", DBuiltin BiMinusEq); ("-==", DBuiltin BiMinusEqEq);
  ("pop-back", DBuiltin BiPopBack); ("pop-front", DBuiltin BiPopFront); ("distance", DBuiltin BiDistance);
  ("max", DBuiltin BiMax); ("min", DBuiltin BiMin); ("cos", DBuiltin BiOther);
  ("sin", DBuiltin BiOther); ("tan", DBuiltin BiOther); ("asin", DBuiltin BiOther);
  ("acos", DBuiltin BiOther); ("atan", DBuiltin BiOther); ("pow", DBuiltin BiOther);
  ("sqrt", DBuiltin BiSqrt); ("+=", DBuiltin BiPlusEq); ("++", DBuiltin BiIncr); ("--", DBuiltin BiDecr);
  ("mod", DBuiltin BiMod); ("/", DBuiltin BiDiv); ("*", DBuiltin BiTimes); ("+", DBuiltin BiPlus);
  ("-", DBuiltin BiMinus); ("find", DBuiltin BiFind); ("split", DBuiltin BiSplit);
  ("hash-map", DBuiltin BiHashMap); ("queue", DBuiltin BiQueue);
  ("queue-with-max-length", DBuiltin BiQueueMax); ("list", DBuiltin BiList); ("exit", DBuiltin BiExit);
  ("doc", DBuiltin BiDoc); ("len", DBuiltin BiLen); ("read-and-eval-path", DBuiltin BiReadEvalPath);
  ("read-and-eval-string", DBuiltin BiReadEvalString); ("copy", DBuiltin BiCopy); ("define", DSpecial SpDefine);
  ("eval", DSpecial SpEval); ("generate", DSpecial SpGenerate); ("quote", DSpecial SpQuote);
  ("select", DSpecial SpSelect); ("if", DSpecial SpIf); ("while", DSpecial SpWhile);
  ("for", DSpecial SpFor); ("==", DSpecial SpEqual); ("===", DSpecial SpIdentical);
  ("!=", DSpecial SpNotEqual); ("<", DSpecial SpLess); (">", DSpecial SpGreater);
  ("<=", DSpecial SpLessEq); (">=", DSpecial SpGreaterEq); ("template", DSpecial SpTemplate);
  ("fn", DSpecial SpFn); ("macro", DSpecial SpMacro); ("uid", DBuiltin BiUid);
  ("integer?", DBuiltin (BiIs [3])); ("real?", DBuiltin (BiIs [4])); ("number?", DBuiltin (BiIs [3; 4]));
  ("nil?", DBuiltin (BiIs [1])); ("boolean?", DBuiltin (BiIs [2])); ("character", DBuiltin BiCharacter);
  ("character?", DBuiltin (BiIs [6])); ("string?", DBuiltin (BiIs [5])); ("symbol?", DBuiltin (BiIs [7]));
  ("vector?", DBuiltin (BiIs [9])); ("hash-map?", DBuiltin (BiIs [10])); ("howto", DSpecial SpOther)
  ])%string%Z.

(** octaspire_dern_vm_create_and_register_new_builtin and _special,
    vm:4498-4604, vm:2702-2740.  Simplification: the documentation strings are
    taken to be empty. *)
Definition register (env : ref) (name : string) (d : data) : M unit :=
  k <- alloc (DSym (asc name)) ;; push k ;;;
  v <- alloc d ;; push v ;;; y <- alloc (DStr []) ;; set_docs v (Some y) None ;;; pop v ;;;
  push v ;;; env_set env k v ;;; pop v ;;; pop k.
(** The constants nil, true and false, vm:214-317. *)
Definition boot_const (env : ref) (name : string) (d : data) (doc : string) : M unit :=
  v <- alloc d ;; push v ;;;
  y <- alloc (DStr (asc doc)) ;; set_docs v (Some y) None ;;; push y ;;;
  k <- alloc (DSym (asc name)) ;; env_set env k v ;;;
  pop y ;;; pop v.
(** The fields before anything has been allocated, vm:118-135, and the global
    environment, vm:180-210; [gcLimit] is 1024 by default and set by
    octaspire_dern_vm_set_gc_trigger_limit. *)
Definition empty_vm (limit : N) (addr : N -> N) (msg : N -> text) : vm :=
  mkVm [] 0 0 [] 0 0 limit false None false 0 true [] addr msg nothing_outside.
Definition boot (lib : list (string * data)) : M unit :=
  g <- alloc (DEnv [] None) ;;
  (fun s => Ret (tt, mkVm (all s) (nextId s) (nextAddr s) [g] g (numAlloc s) (gcLimit s) (preventGc s)
                          (fret s) (quit s) (exitCode s) (readably s) (output s) (addrs s) (msgs s) (outside s))) ;;;
  boot_const g "nil" DNil "Represents missing value." ;;;
  boot_const g "true" (DBool true) "Boolean true value. Opposite of false." ;;;
  boot_const g "false" (DBool false) "Boolean false value. Opposite of true." ;;;
  iterM (fun nd => register g (fst nd) (snd nd)) lib.
