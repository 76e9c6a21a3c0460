(** Evaluating a whole text with the evaluator of Eval.v (vm:4315-4375). *)
From Coq Require Import NArith ZArith Bool Lia String List.
From Verif Require Import Base Input Heap Eval.
From Verif Require Export Reader.
Import ListNotations.

Definition eval_read (fuel : nat) : option ref -> M (option ref) := eval_read_by (eval fuel).
Definition read_eval_loop (k fuel : nat) : input -> option ref -> option ref -> M (option ref) := read_eval_loop_by k (eval fuel).
Definition read_eval (fuel : nat) : input -> M (option ref) := read_eval_by (eval fuel).
