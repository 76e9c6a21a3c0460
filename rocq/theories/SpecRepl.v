(** The stand-alone program, as a user sees it. *)
From Coq Require Import NArith ZArith Bool String List.
From Verif Require Import Base SpecText Lexer HMap Heap ValueOps Env ToText Eval Read Repl.
Import ListNotations.
Local Open Scope N_scope.

(** ** The command line *)
(** What a user can ask for before the script. *)
Inductive item := Coloured | Interactive | Debugging | KeepLibraries | Evaluate (s : octets) | Include (dir : octets).
Definition either (a : octets) (short long : string) : Prop := a = asc short \/ a = asc long.
(** How it is written. *)
Inductive named : item -> list octets -> Prop :=
| n_colors a : either a "-c" "--color-diagnostics" -> named Coloured [a]
| n_interactive a : either a "-i" "--interactive" -> named Interactive [a]
| n_debug a : either a "-g" "--debug" -> named Debugging [a]
| n_libraries a : either a "-d" "--no-dlclose" -> named KeepLibraries [a]
| n_evaluate a s : either a "-e" "--evaluate" -> named (Evaluate s) [a; s]
| n_include a d : either a "-I" "--include" -> named (Include d) [a; d].
Inductive written : list item -> list octets -> Prop :=
| w_nil : written [] []
| w_cons i w is l : named i w -> written is l -> written (i :: is) (w ++ l).
(** What it amounts to. *)
Definition among (i : item) (l : list item) : bool :=
  existsb (fun j => match i, j with
                    | Coloured, Coloured | Interactive, Interactive | Debugging, Debugging | KeepLibraries, KeepLibraries => true
                    | _, _ => false end) l.
Definition asked (l : list item) (sc : option (octets * list octets)) : options :=
  mkOptions (among Coloured l) (among Interactive l) (among Debugging l) (among KeepLibraries l)
            (flat_map (fun i => match i with Evaluate s => [s] | _ => [] end) l)
            (flat_map (fun i => match i with Include d => [d] | _ => [] end) l) sc.
Definition dashed (a : octets) : Prop := exists t, a = 45 :: t.
Definition known (a : octets) : Prop :=
  either a "-c" "--color-diagnostics" \/ either a "-i" "--interactive" \/ either a "-g" "--debug" \/ either a "-d" "--no-dlclose" \/
  either a "-e" "--evaluate" \/ either a "-I" "--include" \/ either a "-v" "--version" \/ either a "-h" "--help".
(** The meaning of every command line: the options up to the first argument that
    ends them, which is the script (with all arguments after it, whatever they look
    like), a request for the version or the help, or something unknown.  A -e or -I
    at the very end is passed over. *)
Inductive meaning : list octets -> command -> Prop :=
| m_options is l : written is l -> meaning l (Start (asked is None))
| m_dangling is l a : written is l -> either a "-e" "--evaluate" \/ either a "-I" "--include" -> meaning (l ++ [a]) (Start (asked is None))
| m_script is l p rest : written is l -> ~ dashed p -> meaning (l ++ p :: rest) (Start (asked is (Some (p, rest))))
| m_version is l a rest : written is l -> either a "-v" "--version" -> meaning (l ++ a :: rest) ShowVersion
| m_help is l a rest : written is l -> either a "-h" "--help" -> meaning (l ++ a :: rest) ShowUsage
| m_unknown is l a rest : written is l -> dashed a -> ~ known a -> meaning (l ++ a :: rest) (Refuse a).

(** ** A conversation *)
(** A line as it is typed: it ends with a newline and has no other. *)
Definition typed (l : text) : Prop := exists a, l = a ++ [10] /\ ~ In 10 a /\ Forall scalar a /\ ~ In 0 a.
(** The text [p] is answered with [t]: its first form is read, it is evaluated in
    the global environment (and kept alive meanwhile), and [t] is the text of its
    value; the stack of the machine is as before.  [e]: the form was itself an error. *)
Definition answered (fuel : nat) (s : vm) (p : text) (e : bool) (t : text) (s' : vm) : Prop :=
  exists v r s1 x s2 c,
    read_value p s = Ret ((Some v, r), s1) /\
    eval fuel v (genv s1) (with_stack s1 (v :: stack s1)) = Ret (Some x, s2) /\
    to_text (readably s2) false fuel (all s2) x = Ret t /\
    lookup (all s2) v = Some c /\ e = is_error_data (cdata c) /\ s' = with_stack s2 (stack s).
(** The text [p] is not complete: no form can be read from it yet, or its form has
    no value at all (the NULL value of a function without a body). *)
Definition unanswered (fuel : nat) (s : vm) (p : text) (s' : vm) : Prop :=
  (exists t l r, lex p = Ret (Some t, l) /\ read_value p s = Ret ((None, r), s')) \/
  (exists v r s1 s2, read_value p s = Ret ((Some v, r), s1) /\
    eval fuel v (genv s1) (with_stack s1 (v :: stack s1)) = Ret (None, s2) /\ s' = with_stack s2 (stack s)).
(** [talk s p ls m s']: with the text [p] waiting, the lines [ls] make the program
    say [m], until the input ends or the machine has been asked to exit. *)
Inductive talk (fuel : nat) : vm -> text -> list text -> list message -> vm -> Prop :=
| t_end s p : talk fuel s p [] [] s
| t_answer s p l ls e t s1 m s' : answered fuel s (p ++ l) e t s1 -> quit s1 = false -> talk fuel s1 [] ls m s' ->
    talk fuel s p (l :: ls) (Answer e t :: Prompt :: m) s'
| t_exit s p l ls e t s1 : answered fuel s (p ++ l) e t s1 -> quit s1 = true -> talk fuel s p (l :: ls) [Answer e t] s1
| t_more s p l ls s1 m s' : unanswered fuel s (p ++ l) s1 -> talk fuel s1 (p ++ l) ls m s' ->
    talk fuel s p (l :: ls) (MorePrompt :: m) s'.
(** Messages that report a failure. *)
Definition failing (m : message) : Prop :=
  match m with Complaint _ | Incomplete | Unreadable _ | UnknownArgument _ => True | _ => False end.
(** Texts evaluated one after the other: the value of each must be one and no error;
    the first that fails ends it, with what is said about it. *)
Definition error_in (s : vm) (x : ref) : Prop := exists c m n, lookup (all s) x = Some c /\ cdata c = DErr m n.
Inductive loads (fuel : nat) : vm -> list text -> option message -> vm -> Prop :=
| l_end s : loads fuel s [] None s
| l_next s t ts x s1 r s' : read_eval fuel (Input.input_new t) s = Ret (Some x, s1) -> lookup (all s1) x <> None -> ~ error_in s1 x -> loads fuel s1 ts r s' -> loads fuel s (t :: ts) r s'
| l_error s t ts x s1 w : read_eval fuel (Input.input_new t) s = Ret (Some x, s1) -> error_in s1 x -> to_text (readably s1) false fuel (all s1) x = Ret w ->
    loads fuel s (t :: ts) (Some (Complaint w)) s1
| l_incomplete s t ts s1 : read_eval fuel (Input.input_new t) s = Ret (None, s1) -> loads fuel s (t :: ts) (Some Incomplete) s1.
