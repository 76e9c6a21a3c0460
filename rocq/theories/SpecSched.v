(** Sessions and what can be seen of them, for the claims that the outcome of a
    session depends neither on the bound given to the evaluator nor on when
    garbage is collected. *)
From Coq Require Import NArith ZArith Bool Lia String List.
From Verif Require Import Base Input HMap Heap ValueOps Env Builtins Specials Eval Read Boot.
Import ListNotations.
Local Open Scope N_scope.

(** Evaluating texts one after the other; the values they give, in order. *)
Fixpoint run_texts (fuel : nat) (l : list (list N)) (s : vm) : outcome (list (option ref) * vm) :=
  match l with
  | [] => Ret ([], s)
  | t :: r => obind (read_eval fuel (input_new t) s) (fun q =>
              obind (run_texts fuel r (snd q)) (fun p => Ret (fst q :: fst p, snd p)))
  end.
(** A machine that never collects garbage. *)
Definition never_collecting (s : vm) : vm :=
  mkVm (all s) (nextId s) (nextAddr s) (stack s) (genv s) (numAlloc s) (gcLimit s) true (fret s) (quit s) (exitCode s) (readably s) (output s) (addrs s) (msgs s) (outside s).
(** A session on a new machine with the functions [lib], which collects garbage
    at every [limit]-th allocation ([None]: never); [out]: files, arguments and
    environment variables. *)
Definition new_machine (limit : option N) (addresses : N -> N) (messages : N -> text) : vm :=
  match limit with
  | Some n => empty_vm n addresses messages
  | None => never_collecting (empty_vm 0 addresses messages)
  end.
Definition run_session (lib : list (string * data)) (limit : option N) (addresses : N -> N) (messages : N -> text) (out : outer)
    (fuel : nat) (l : list (list N)) : outcome (list (option ref) * vm) :=
  obind (boot lib (new_machine limit addresses messages)) (fun q => run_texts fuel l (with_outside (snd q) out)).

(** Two machines with the same identities, stack, global environment, pending
    return, exit request and exit code, which have written the same, in which the values both still have are
    the same. *)
Record agree (s s' : vm) : Prop := mkAgree {
  g_values : forall r c c', lookup (all s) r = Some c -> lookup (all s') r = Some c' -> c = c';
  g_next : nextId s = nextId s'; g_stack : stack s = stack s'; g_genv : genv s = genv s';
  g_fret : fret s = fret s'; g_quit : quit s = quit s'; g_exit : exitCode s = exitCode s';
  g_readably : readably s = readably s'; g_output : output s = output s' }.

(** A text has an outcome on a machine: some bound is large enough for it. *)
Definition has_outcome (s : vm) (t : list N) (o : outcome (option ref * vm)) : Prop :=
  o <> NoFuel /\ exists n, read_eval n (input_new t) s = o.
(** A value has an outcome in an environment. *)
Definition evaluates (s : vm) (v env : ref) (o : outcome (option ref * vm)) : Prop :=
  o <> NoFuel /\ exists n, eval n v env s = o.
