(** Runs without a collection (C46). *)
From Coq Require Import NArith.
From Verif Require Import Base Heap.
Local Open Scope N_scope.

(** How many values were made. *)
Definition made (s s' : vm) : N := nextId s' - nextId s.
(** The machine counts the values made since the last collection; so if the count
    grew by the number of values made, there was no collection. *)
Definition uncollected (s s' : vm) : Prop := numAlloc s' = numAlloc s + made s s'.
(** The value [r] exists. *)
Definition exists_in (s : vm) (r : ref) : Prop := lookup (all s) r <> None.
