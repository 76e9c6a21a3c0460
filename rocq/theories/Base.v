(** Shared vocabulary of the model.

    Citations: [A:n-m] = /repo/release/octaspire-dern-amalgamated.c lines n-m,
    [lexer:], [value:], [vm:], [stdlib:], [env:], [helpers:] =
    /repo/dev/src/octaspire_dern_<name>.c. *)
From Coq Require Import List NArith ZArith Bool Lia.
From Coq Require Import ZifyBool ZifyNat ZifyN.
Import ListNotations.
Local Open Scope N_scope.

(** Result of running a piece of C code that may leave the domain of
    defined, normal behaviour.  [Abort]: abort(), a failed assert or a failed
    octaspire_helpers_verify_* (A:2145-2735).  [Undef]: undefined behaviour of
    C (NULL dereference, signed overflow, ...).  [Dangling]: undefined
    behaviour of one particular kind, the use of a value of the virtual machine
    that the garbage collector has freed.  [Unbalanced]: the abort() of
    octaspire_dern_vm_pop_value (vm:1725-1750) when the value popped is not the
    one on top of the stack.  [NoFuel]: the fuel given to the
    model's loop ran out (the C program is still running). *)
Inductive outcome (X : Type) : Type :=
| Ret (x : X)
| Abort
| Undef
| Dangling
| Unbalanced
| NoFuel.
Arguments Ret {X} x.
Arguments Abort {X}.
Arguments Undef {X}.
Arguments Dangling {X}.
Arguments Unbalanced {X}.
Arguments NoFuel {X}.

Definition obind {X Y} (m : outcome X) (f : X -> outcome Y) : outcome Y :=
  match m with
  | Ret x => f x
  | Abort => Abort
  | Undef => Undef
  | Dangling => Dangling
  | Unbalanced => Unbalanced
  | NoFuel => NoFuel
  end.

(** Machine limits of the LP64 platforms dern is built for. *)
Definition INT32_MIN : Z := (- 2 ^ 31)%Z.
Definition INT32_MAX : Z := (2 ^ 31 - 1)%Z.
Definition in_int32 (z : Z) : bool := ((INT32_MIN <=? z) && (z <=? INT32_MAX))%Z.
Definition two32 : N := 4294967296.
Definition two64 : N := 18446744073709551616.

(** Conversion of an integer to int32_t as done by every supported compiler
    (reduction modulo 2^32). *)
Definition wrap32 (z : Z) : Z := ((z + 2 ^ 31) mod 2 ^ 32 - 2 ^ 31)%Z.

(** Signed 32-bit arithmetic: overflow is undefined behaviour. *)
Definition int32_op (z : Z) : outcome Z := if in_int32 z then Ret z else Undef.

Lemma wrap32_id z : in_int32 z = true -> wrap32 z = z.
Proof.
  unfold in_int32, wrap32, INT32_MIN, INT32_MAX; intro H.
  apply andb_prop in H; destruct H as [H1 H2].
  apply Z.leb_le in H1, H2.
  rewrite Z.mod_small; lia.
Qed.

(** Finite sweeps: [Nforall n f] checks f 0 .. f (n-1). *)
Fixpoint natforall (n : nat) (f : N -> bool) : bool :=
  match n with
  | O => true
  | S k => f (N.of_nat k) && natforall k f
  end.

Lemma natforall_spec n f :
  natforall n f = true -> forall x, x < N.of_nat n -> f x = true.
Proof.
  induction n as [|n IH]; intros H x Hx; [lia|].
  cbn [natforall] in H; apply andb_prop in H as [H1 H2].
  destruct (N.eq_dec x (N.of_nat n)) as [->|Hne]; [exact H1|].
  apply IH; [exact H2 | lia].
Qed.

Definition octet (b : N) : Prop := b < 256.
Definition octets (l : list N) : Prop := Forall octet l.
