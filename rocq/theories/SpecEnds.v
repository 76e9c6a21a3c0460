(** The evaluations that reading and evaluating a text asks for (C65). *)
From Coq Require Import List NArith Bool.
From Verif Require Import Base Input Heap Env Reader Eval Read.
Import ListNotations.

(** What stays on the stack between two forms: the value of the last one. *)
Definition next_form (last : option ref) (x : ref) (s : vm) : vm :=
  with_stack s (x :: match last with Some _ => tl (stack s) | None => stack s end).
(** Reading and evaluating [i] from state [s] comes to evaluate [v] in [g] in state [s1]. *)
Inductive asks (fuel : nat) : input -> option ref -> vm -> ref -> ref -> vm -> Prop :=
| asks_now i last s v l s1 : input_good i = true -> read_value (rest i) s = Ret ((Some v, l), s1) -> asks fuel i last s v (genv s1) s1
| asks_later i last s v l s1 x s2 v' g' s' : input_good i = true -> read_value (rest i) s = Ret ((Some v, l), s1) ->
    eval fuel v (genv s1) s1 = Ret (Some x, s2) ->
    asks fuel (input_pops (List.length (rest i) - List.length l) i) (Some x) (next_form last x s2) v' g' s' -> asks fuel i last s v' g' s'
| asks_after_nothing i last s l s1 x s2 v' g' s' : input_good i = true -> read_value (rest i) s = Ret ((None, l), s1) ->
    quit s1 = true -> alloc DNil s1 = Ret (x, s2) ->
    asks fuel (input_pops (List.length (rest i) - List.length l) i) (Some x) (next_form last x s2) v' g' s' -> asks fuel i last s v' g' s'.
(** [v] is the error that an unreadable text gives. *)
Definition is_error_at (s : vm) (v : ref) : Prop := exists c m n, lookup (all s) v = Some c /\ cdata c = DErr m n.
