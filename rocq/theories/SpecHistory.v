(** What no program can undo. *)
From Coq Require Import NArith ZArith Bool String List.
From Verif Require Import Base HMap Heap.
Import ListNotations.
Local Open Scope N_scope.

(** Later on the same machine: standard output has only been added to, the
    identities given to values have not been given again, the global environment
    is the same, a request to exit stands, the exit code is as it was unless there
    is such a request, and a value that is gone stays gone. *)
Definition later (s s' : vm) : Prop :=
  (exists o, output s' = output s ++ o) /\
  nextId s <= nextId s' /\ (forall r, r < nextId s -> lookup (all s) r = None -> lookup (all s') r = None) /\
  genv s' = genv s /\ (quit s = true -> quit s' = true) /\ (quit s' = false -> exitCode s' = exitCode s).
