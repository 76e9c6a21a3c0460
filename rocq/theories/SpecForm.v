(** The evaluation of a form whose operator is a special. *)
From Coq Require Import List NArith ZArith Bool.
From Verif Require Import Base HMap Heap Env Eval SpecTrace SpecSpecial.
Import ListNotations.

(** The state in which the parts of the form [v] are evaluated. *)
Definition inside (v env : ref) (s : vm) : vm := with_stack s (env :: v :: stack s).
(** In [s], the form [v] is evaluated in [env]; the value of its first element
    [x] is the special [p], and the evaluation ends in [s'] with the result [o].
    [s2]: the machine after the evaluation of the first element. *)
Record calls_special (fuel : nat) (p : special) (env v : ref) (s : vm) (x f : ref) (s2 : vm) (o : option ref) (s' : vm) : Prop := {
  sc_sane : sane s;
  sc_form : (v < nextId s)%N;
  sc_env : (env < nextId s)%N;
  sc_runs : quit s = false;
  sc_first : exists xs, data_at s v = Some (DVec (x :: xs));
  sc_operator : eval fuel x env (inside v env s) = Ret (Some f, s2);
  sc_special : data_at s2 f = Some (DSpecial p);
  sc_result : eval (S fuel) v env s = Ret (o, s')
}.
(** Whatever the forms are, evaluating a form whose operator is the special [p]
    consists of evaluating the operator and then of the events [R] allows for the
    other forms [tl l]; nothing else that the stack or the form can reach
    changes; the result is what [R] says. *)
Definition special_form (p : special) (R : nat -> ref -> vm -> list ref -> list event -> ref -> option data -> Prop) : Prop :=
  forall fuel env v s x f s2 o s', calls_special fuel p env v s x f s2 o s' ->
  exists r l evs od, o = Some r /\ data_at s2 v = Some (DVec l) /\
    trace (eval fuel) (env :: v :: stack s) s (SpecTrace.Eval x env (inside v env s) (Some f) s2 :: evs) s' /\
    form_run (R fuel env s2) s2 (tl l) evs r od /\ result_is s' r od.
