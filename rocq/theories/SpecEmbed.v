(** The rule a host program has to follow with the values it holds, and what its
    requests do to the stack. *)
From Coq Require Import NArith ZArith Bool List.
From Verif Require Import Base HMap Heap SpecHeap Repl Embed.
Import ListNotations.
Local Open Scope N_scope.

(** A value is anchored when it can be reached from the stack.  [l]: values the
    host has been given since the last request that may collect garbage; it may
    also use what they contain. *)
Definition anchored (s : vm) (x : ref) : Prop := reachable (all s) (stack s) x.
Definition held (s : vm) (l : list ref) (x : ref) : Prop := reachable (all s) (stack s ++ l) x.

(** The requests that may collect garbage: those that make values. *)
Definition may_collect (q : request) : bool :=
  match q with
  | VectorPush _ _ | Bind _ _ _ | Look _ | Push _ | Pop _ | Peek | PreventCollection _ | CollectEvery _
  | Quit | SetExitCode _ | SetReadably _ | IsQuit | ExitCode | StackLength | Global => false
  | _ => true
  end.

(** The rule; [p]: the values the host has pushed and not popped, the last one
    first.  Pops are in order; what a request uses after it has made a value must
    be anchored; the environment of an evaluation, and the function and the
    arguments of a call, must themselves be on the stack. *)
Definition obeys (p l : list ref) (s : vm) (q : request) : Prop :=
  match q with
  | VectorOf xs => forall x, In x xs -> anchored s x
  | NewEnvironment x | Copy x => anchored s x
  | SequencePush c x => anchored s c /\ anchored s x
  | VectorPush v x => held s l v /\ held s l x
  | Bind e k v => held s l e /\ held s l k /\ held s l v
  | Look x | Push x | EvaluateGlobally x => held s l x
  | Pop x => exists p', p = x :: p'
  | Evaluate x e => held s l x /\ In e (stack s)
  | Call f args => In f (stack s) /\ In args (stack s)
  | _ => True
  end.

Definition pushed_after (q : request) (p : list ref) : list ref :=
  match q with Push x => x :: p | Pop _ => tl p | _ => p end.
Definition loose_after (q : request) (a : answer) (l : list ref) : list ref :=
  match a with Value (Some r) => [r] | _ => [] end ++
  match q with Pop x => [x] | _ => [] end ++
  (if may_collect q then [] else l).

(** The histories of a host that follows the rule, from the machine [s0] on; the
    files, and what programs see of the host, may change between requests. *)
Inductive history (s0 : vm) : list ref -> list ref -> vm -> Prop :=
| h_start : history s0 [] [] s0
| h_step p l s fuel files q a s' : history s0 p l s -> obeys p l s q -> perform fuel files q s = Ret (a, s') ->
    history s0 (pushed_after q p) (loose_after q a l) s'
| h_outside p l s out : history s0 p l s -> history s0 p l (with_outside s out).
