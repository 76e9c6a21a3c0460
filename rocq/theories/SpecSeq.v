(** Abstract sequences: what a user expects of vectors, lists and strings. *)
From Coq Require Import List ZArith Bool Lia.
Import ListNotations.

(** Position addressed by a signed index in a sequence of n elements:
    i >= 0 counts from the start, i < 0 from the end. *)
Definition position (n : nat) (i : Z) : option nat :=
  if ((0 <=? i) && (i <? Z.of_nat n))%Z then Some (Z.to_nat i)
  else if ((- Z.of_nat n <=? i) && (i <? 0))%Z then Some (Z.to_nat (Z.of_nat n + i))
  else None.

Section Seq.
Context {X : Type}.

Definition insert_at (k : nat) (x : X) (l : list X) : list X := firstn k l ++ x :: skipn k l.
Definition delete_at (k : nat) (l : list X) : list X := firstn k l ++ skipn (S k) l.
Definition replace_at (k : nat) (x : X) (l : list X) : list X := firstn k l ++ x :: skipn (S k) l.
Definition swap_at (a b : nat) (l : list X) : list X :=
  match nth_error l a, nth_error l b with
  | Some xa, Some xb => replace_at b xa (replace_at a xb l)
  | _, _ => l
  end.

End Seq.
