(** C48: the stack of the virtual machine stays balanced.  [Unbalanced] is the
    abort() of octaspire_dern_vm_pop_value when it is asked to pop another value
    than the top one. *)
From Coq Require Import NArith ZArith Bool Lia String List.
From Verif Require Import Base Input Lexer HMap Heap ValueOps Env Copy Builtins Specials Eval Read Boot Run StackProofs.
Import ListNotations.
Local Open Scope N_scope.

(** The operation never finds the stack unbalanced, and whenever it returns the
    stack is the one it started with. *)
Definition keeps_stack {X} (m : M X) : Prop :=
  forall s, m s <> Unbalanced /\ (forall x s', m s = Ret (x, s') -> stack s' = stack s).
Lemma balanced_keeps {X} (m : M X) : balanced m -> keeps_stack m.
Proof.
  intros B s. specialize (B (stack s) s eq_refl). destruct (m s) as [[x s']| | | | |] eqn:E;
    (split; [try discriminate; try contradiction|intros y s'' E'; congruence || (injection E' as <- <-; exact B)]).
Qed.

Theorem C48_evaluation : forall fuel value environment, keeps_stack (eval fuel value environment).
Proof. intros. apply balanced_keeps. apply bal_eval. Qed.
Print Assumptions C48_evaluation.
Theorem C48_reading : forall characters, keeps_stack (read_value characters).
Proof. intros. apply balanced_keeps. apply bal_read_value. Qed.
Print Assumptions C48_reading.
Theorem C48_texts : forall fuel source, keeps_stack (read_eval fuel (input_new source)).
Proof. intros. apply balanced_keeps. apply bal_read_eval. Qed.
Print Assumptions C48_texts.
(** Every library function, given its arguments by an evaluator that keeps the
    stack, keeps it. *)
Theorem C48_library : forall fuel ev, (forall v env, keeps_stack (ev v env)) ->
  (forall p a env, keeps_stack (special_call fuel ev p a env)) /\
  (forall p a env, keeps_stack (builtin_call fuel ev p a env)).
Proof.
  intros fuel ev H.
  assert (B : balanced_ev ev).
  { intros v env st s <-. destruct (H v env s) as [H1 H2]. destruct (ev v env s) as [[x s']| | | | |]; auto. exact (H2 _ _ eq_refl). }
  split; intros; apply balanced_keeps; [apply bal_special_call|apply bal_builtin_call]; exact B.
Qed.
Print Assumptions C48_library.

(** A program with an error inside nested calls, one with a pending return, and
    one that defines and calls a recursive function: all return with the stack
    they started with (the global environment alone). *)
Definition stack_after (t : string) : option (list ref) :=
  match run_text machine t with Ret (_, s) => Some (stack s) | _ => None end.
Example C48_witness :
  stack_after "(define f as (fn (x) (if (< x {D+2}) {D+1} (* x (f (- x {D+1}))))) [fact] '(x [n]) howto-ok) (f {D+6})" = Some [0] /\
  stack_after "(define f as (fn (x) (while true (return x))) [ret] '(x [n]) howto-ok) (f {D+6})" = Some [0] /\
  stack_after "(vector {D+1} (+ {D+1} (* {D+2} nope)))" = Some [0].
Proof. vm_compute. repeat split. Qed.
