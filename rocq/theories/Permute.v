(** Model of the permutation iterator of octaspire_vector.c (A:4077-4211).
    Simplifications: allocation never fails; the vector of counts (ints that
    only this code touches) is a list of natural numbers, so vectors are taken
    to be shorter than 2^31 elements ([(int)self->i] is [i]); [stepsLeft] is
    left out: it is counted down but nothing depends on it. *)
From Coq Require Import List ZArith Bool Arith.
From Verif Require Import Base Vec.
Import ListNotations.

Section Permute.
Context {X : Type}.

(** struct octaspire_vector_permutation_iterator_t, A:4077-4084. *)
Record perm := mkPerm { pvec : vec X; counts : list nat; at_i : nat }.

(** octaspire_vector_permutation_iterator_new, A:4086-4128. *)
Definition perm_new (v : vec X) : perm := mkPerm v (repeat 0 (num v)) 1.

(** The loop of octaspire_vector_permutation_iterator_next, A:4154-4208.  The
    NULL that get_element_at gives for an index that is not there would be
    dereferenced ([Undef]); the results of swap and replace are verified. *)
Fixpoint perm_loop (fuel : nat) (v : vec X) (c : list nat) (i : nat) : outcome (perm * bool) :=
  if i <? num v then
    match fuel with
    | O => NoFuel
    | S f =>
        match nth_error c i with
        | None => Undef
        | Some ci =>
            if ci <? i then
              let (v', ok) := vec_swap v (if i mod 2 =? 0 then 0%Z else Z.of_nat ci) (Z.of_nat i) in
              if ok then Ret (mkPerm v' (set_slot i (S ci) c) 1, true) else Abort
            else perm_loop f v (set_slot i 0 c) (S i)
        end
    end
  else Ret (mkPerm v c i, false).

(** octaspire_vector_permutation_iterator_next, A:4144-4211. *)
Definition perm_next (p : perm) : outcome (perm * bool) :=
  if length (counts p) =? num (pvec p)
  then perm_loop (num (pvec p)) (pvec p) (counts p) (at_i p)
  else Abort.

(** A number of calls of octaspire_vector_permutation_iterator_next one after
    the other, with their results: a user of A:4144-4211. *)
Fixpoint perm_calls (k : nat) (p : perm) : outcome (perm * list bool) :=
  match k with
  | O => Ret (p, [])
  | S k' => obind (perm_next p) (fun r => obind (perm_calls k' (fst r)) (fun r' => Ret (fst r', snd r :: snd r')))
  end.

End Permute.
Arguments perm X : clear implicits.
