(** What a call of a function from C does. *)
From Coq Require Import List NArith ZArith.
From Verif Require Import Base HMap Heap SpecHeap Env Builtins Eval SpecTrace SpecSpecial SpecForm SpecCall.
Import ListNotations.
Local Open Scope N_scope.

(** A call from the host: what a call in a program does after the evaluation of
    its arguments ([function_run], SpecCall.v).  [args]: the vector of the values
    of the arguments; [o]: the result, none after an empty body. *)
Inductive called (f args : ref) (s : vm) : list event -> option (ref * option data) -> Prop :=
| ca_refused g ext s1 r s2 : holds_fun s1 f g -> nextId s <= ext -> data_at s1 ext = Some (DEnv [] (Some (fenv g))) -> data_at s1 args = data_at s args ->
    called f args s [Extend ext (fformals g) args s1 (Some r) s2] (Some (r, data_at s2 r))
| ca_run g ext s1 s2 evs o : holds_fun s1 f g -> nextId s <= ext -> data_at s1 ext = Some (DEnv [] (Some (fenv g))) -> data_at s1 args = data_at s args ->
    fbody_run f ext s2 0 None evs o ->
    called f args s (Extend ext (fformals g) args s1 None s2 :: evs) o.
