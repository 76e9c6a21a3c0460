(** Model of the stand-alone program octaspire-dern-repl
    (/repo/dev/src/octaspire_dern_repl.c): the command line, the strings given with
    -e, the script, the interactive loop and the exit status.  The octets of
    command line, script and standard input are lists; messages are kept as what
    they say and not as the octets written (colours, banner, "At line ..."); what
    the programs themselves write is in [output] of the machine.  Allocation never
    fails.  What programs see of the outside ([outside] of the machine: environment
    variables and arguments, vm:5283-5335, and the files they read) is given with
    the machine the program starts from, to which the environment variables have
    been added (repl:443-458); the arguments of the script are added before it is
    read (repl:513-519).
    Not modelled: the include directories, the debug mode
    (prints to stderr) and --no-dlclose. *)
From Coq Require Import NArith ZArith Bool Lia String List.
From Verif Require Import Base OString Input Lexer HMap Heap ValueOps Env ToText Eval Read.
Import ListNotations.
Local Open Scope N_scope.

Definition octets := list N.
(** What is written for the user; each stands for one message of the program. *)
Inductive message :=
| Prompt                         (* "> ", repl:617-621 *)
| MorePrompt                     (* "| ", repl:650-654 and 668-672 *)
| Answer (failed : bool) (t : text) (* repl:684-690; [failed]: in the style of an error *)
| Complaint (t : text)           (* the error value of a string or script, repl:496-507 and 583-594 *)
| Incomplete                     (* "Incomplete input", repl:477-488 *)
| Unreadable (path : octets)     (* "Path '%s' cannot be read", repl:547-558 *)
| Greeting                       (* banner and version, repl:605-613 *)
| VersionText | UsageText        (* repl:139-202 *)
| UnknownArgument (a : octets).  (* repl:417 *)

(** ** The command line, repl:326-430 *)
Record options := mkOptions {
  colors : bool; interactive : bool; debug : bool; keepLibraries : bool;
  strings : list octets; includes : list octets;
  script : option (octets * list octets) }.
Definition no_options : options := mkOptions false false false false [] [] None.
Definition with_colors (o : options) := mkOptions true (interactive o) (debug o) (keepLibraries o) (strings o) (includes o) (script o).
Definition with_interactive (o : options) := mkOptions (colors o) true (debug o) (keepLibraries o) (strings o) (includes o) (script o).
Definition with_debug (o : options) := mkOptions (colors o) (interactive o) true (keepLibraries o) (strings o) (includes o) (script o).
Definition with_libraries (o : options) := mkOptions (colors o) (interactive o) (debug o) true (strings o) (includes o) (script o).
Definition with_string (o : options) (a : octets) := mkOptions (colors o) (interactive o) (debug o) (keepLibraries o) (strings o ++ [a]) (includes o) (script o).
Definition with_include (o : options) (a : octets) := mkOptions (colors o) (interactive o) (debug o) (keepLibraries o) (strings o) (includes o ++ [a]) (script o).
Definition with_script (o : options) (a : octets) (l : list octets) := mkOptions (colors o) (interactive o) (debug o) (keepLibraries o) (strings o) (includes o) (Some (a, l)).
(** strcmp(argv[i], ...) == 0 with the short or the long name. *)
Definition is_arg (a : octets) (short long : string) : bool := text_eqb a (asc short) || text_eqb a (asc long).
Inductive command := Start (o : options) | ShowVersion | ShowUsage | Refuse (a : octets).
(** The loop over argv, repl:328-430; [ev], [inc] are the variables evaluate and
    include.  After the first argument that is no option the loop ends, and the
    arguments after it are those of the script (repl:532-537). *)
Fixpoint parse_args (ev inc : bool) (o : options) (args : list octets) : command :=
  match args with
  | [] => Start o
  | a :: l =>
      if ev then parse_args false inc (with_string o a) l
      else if inc then parse_args ev false (with_include o a) l
      else if is_arg a "-c" "--color-diagnostics" then parse_args ev inc (with_colors o) l
      else if is_arg a "-i" "--interactive" then parse_args ev inc (with_interactive o) l
      else if is_arg a "-I" "--include" then parse_args ev true o l
      else if is_arg a "-e" "--evaluate" then parse_args true inc o l
      else if is_arg a "-v" "--version" then ShowVersion
      else if is_arg a "-h" "--help" then ShowUsage
      else if is_arg a "-g" "--debug" then parse_args ev inc (with_debug o) l
      else if is_arg a "-d" "--no-dlclose" then parse_args ev inc (with_libraries o) l
      else match a with
           | 45 :: _ => Refuse a
           | _ => Start (with_script o a l)
           end
  end.

(** ** Strings and script *)
(** The text of a value, octaspire_dern_value_to_string. *)
Definition value_text (fuel : nat) (x : ref) : M text :=
  rd <- read readably ;; heap_op (fun h => to_text rd false fuel h x).
(** The strings given with -e, repl:463-511; [Some] message: exit(EXIT_FAILURE). *)
Fixpoint run_strings (fuel : nat) (l : list octets) : M (option message) :=
  match l with
  | [] => ret None
  | b :: l' =>
      t <- lift (octets_text b) ;; t' <- lift (c_string_copy t) ;;
      o <- read_eval fuel (input_new t') ;;
      match o with
      | None => ret (Some Incomplete)
      | Some x =>
          e <- is_error x ;;
          if (e : bool) then w <- value_text fuel x ;; ret (Some (Complaint w)) else run_strings fuel l'
      end
  end.
(** octaspire_dern_vm_add_command_line_argument (vm:5283-5308, octaspire_string_new)
    for each argument of the script in turn, repl:513-519. *)
Definition argument_text (a : octets) : text := match str_from_buffer a with Some o => ucs o | None => [] end.
Definition add_arguments (l : list octets) (s : vm) : vm :=
  with_outside s (mkOuter (o_files (outside s)) (o_arguments (outside s) ++ map argument_text l) (o_variables (outside s))).
(** The script, repl:532-596.  [files] is what octaspire_helpers_path_to_buffer
    (A:2170-2229) finds: the octets of a file that can be opened and read; it
    refuses an empty file like one that does not exist (A:2202).  A NULL value ends
    in octaspire_helpers_verify_not_null (repl:578). *)
Definition run_script (fuel : nat) (files : octets -> option octets) (path : octets) : M (option message) :=
  match files path with
  | None | Some [] => ret (Some (Unreadable path))
  | Some b =>
      t <- lift (octets_text b) ;; o <- read_eval fuel (input_new t) ;;
      match o with
      | None => abort
      | Some x =>
          e <- is_error x ;;
          if (e : bool) then w <- value_text fuel x ;; ret (Some (Complaint w)) else ret None
      end
  end.

(** ** The interactive loop *)
(** The lines octaspire_stdio_read_line gives (A:8582-8617), with their newlines; a
    last line without newline is dropped. *)
Fixpoint lines_from (acc : octets) (b : octets) : list octets :=
  match b with
  | [] => []
  | c :: t => if c =? 10 then (acc ++ [c]) :: lines_from [] t else lines_from (acc ++ [c]) t
  end.
Definition lines (b : octets) : list octets := lines_from [] b.
(** One turn with the text [p] waiting in the input, repl:636-690: one token is
    popped, one value parsed and evaluated.  [None]: more input is asked for.
    Without a token (repl:641-644) the jump to noToken passes the declaration of
    str, whose indeterminate value is then released (repl:697): undefined
    behaviour. *)
Definition enter (fuel : nat) (p : text) : M (option (bool * text)) :=
  q <- lift (lex p) ;;
  match fst q with
  | None => undef
  | Some _ =>
      r <- read_token (2 * List.length p + 2) (fst q) (snd q) ;;
      match fst r with
      | None => ret None
      | Some v =>
          push v ;;; g <- read genv ;; o <- eval fuel v g ;;
          match o with
          | None => pop v ;;; ret None
          | Some x => t <- value_text fuel x ;; e <- is_error v ;; pop v ;;; ret (Some (e, t))
          end
      end
  end.
(** repl:615-705, from the reading of a line on; [p] is the text in the input.  A
    line that decodes to nothing is passed over (repl:632).  The condition of the
    loop is only tested after an answer or such a line. *)
Fixpoint session (fuel : nat) (ls : list octets) (p : text) : M (list message) :=
  match ls with
  | [] => ret []
  | b :: ls' =>
      l <- lift (octets_text b) ;;
      match l with
      | [] =>
          q <- read quit ;;
          if (q : bool) then ret [] else m <- session fuel ls' p ;; ret (Prompt :: m)
      | _ =>
          t <- lift (c_string_copy l) ;;
          a <- enter fuel (p ++ t) ;;
          match a with
          | None => m <- session fuel ls' (p ++ t) ;; ret (MorePrompt :: m)
          | Some (e, w) =>
              q <- read quit ;;
              if (q : bool) then ret [Answer e w]
              else m <- session fuel ls' [] ;; ret (Answer e w :: Prompt :: m)
          end
      end
  end.

(** ** main, repl:251-718, with the machine [s0] made by octaspire_dern_vm_new; the
    result has the messages, the exit status (EXIT_SUCCESS is 0, EXIT_FAILURE 1)
    and the machine at the end. *)
Definition program (fuel : nat) (files : octets -> option octets) (args : list octets) (stdin : octets) (s0 : vm) : outcome (list message * Z * vm) :=
  match parse_args false false no_options args with
  | ShowVersion => Ret ([VersionText], 0%Z, s0)
  | ShowUsage => Ret ([UsageText], 0%Z, s0)
  | Refuse a => Ret ([UnknownArgument a; UsageText], 1%Z, s0)
  | Start o =>
      obind (run_strings fuel (strings o) s0) (fun '(c, s1) =>
      match c with
      | Some m => Ret ([m], 1%Z, s1)
      | None =>
          obind (match script o with Some (path, rest) => run_script fuel files path (add_arguments rest s1) | None => Ret (None, s1) end) (fun '(c, s2) =>
          match c with
          | Some m => Ret ([m], 1%Z, s2)
          | None =>
              let worked := match strings o, script o with [], None => false | _, _ => true end in
              if worked && negb (interactive o) then Ret ([], exitCode s2, s2)
              else obind (session fuel (lines stdin) [] s2) (fun '(m, s3) => Ret (Greeting :: Prompt :: m, exitCode s3, s3))
          end)
      end)
  end.
