(** C130: the permutation iterator of vectors. *)
From Coq Require Import List ZArith Bool Arith Lia Permutation Factorial.
From Verif Require Import Base Vec SpecSeq SpecVec VecProofs Permute PermuteProofs.
Import ListNotations.

Section P.
Context {X : Type} (zero : X) (pre : nat) (ops : list (vec_op X)) (v : vec X) (bs : list bool).
(** [v] is a vector that any operations of the public interface made. *)
Context (indices : Forall ptrdiff_ok (flat_map op_indices ops)) (short : (Z.of_nat (length ops) < 2 ^ 62)%Z)
  (made : vec_run zero (vec_new zero pre) ops = Ret (v, bs)) (small : (Z.of_nat (num v) < 2 ^ 31)%Z).

Lemma made_wf : vec_wf v.
Proof.
  destruct (vec_new_wf zero pre) as (W & _).
  destruct (vec_run_refines zero ops (vec_new zero pre) W) as (v' & E & W' & _); [cbn [num vec_new]; lia|exact indices|]. congruence.
Qed.

(** Whatever the number of calls: exactly the first n!-1 answer true, all later
    ones false, and the vector always holds a permutation of its elements. *)
Theorem C130_calls_partial : forall k, exists p,
  perm_calls k (perm_new v) = Ret (p, map (fun j => j <? fact (num v)) (seq 1 k))
  /\ Permutation (contents v) (contents (pvec p)).
Proof.
  intros k. destruct (calls_ok zero (num v) small k 0 _ (new_between v made_wf)) as (q & E & _ & _ & T).
  exists q. rewrite E. split; [|now apply trail_perm in T].
  rewrite <- seq_shift, map_map. reflexivity.
Qed.

(** A call that answers true swaps two different positions; one that answers
    false changes nothing. *)
Theorem C130_step : forall k p rs q b, perm_calls k (perm_new v) = Ret (p, rs) -> perm_next p = Ret (q, b) ->
  if b then exists i j, i < j < num v /\ contents (pvec q) = swap_at i j (contents (pvec p)) else pvec q = pvec p.
Proof.
  intros k p rs q b E N.
  destruct (next_after zero (num v) 0 _ small (new_between v made_wf) k p rs E) as [(r & B)|(A & L & I)].
  - destruct (next_ok zero (num v) r p small B) as [(_ & z & i & j & E1 & _ & AB & C)|(_ & z & E1 & P & _)]; rewrite E1 in N; injection N as <- <-; [eauto|exact P].
  - rewrite (ended_ok (num v)) in N by assumption. injection N as <- <-. reflexivity.
Qed.
End P.
Print Assumptions C130_calls_partial.
Print Assumptions C130_step.

(** The hypotheses hold for the vector 1 2 3 4 made by pushing. *)
Example C130_meets :
  let ops := [VPushBack 1; VPushBack 2; VPushBack 3; VPushBack 4] in
  Forall ptrdiff_ok (flat_map op_indices ops) /\ (Z.of_nat (length ops) < 2 ^ 62)%Z /\
  exists v bs, vec_run 0 (vec_new 0 1) ops = Ret (v, bs) /\ (Z.of_nat (num v) < 2 ^ 31)%Z /\ contents v = [1; 2; 3; 4] /\
  exists p, perm_calls 23 (perm_new v) = Ret (p, repeat true 23) /\ contents (pvec p) = [2; 3; 4; 1].
Proof.
  split; [constructor|]. split; [vm_compute; reflexivity|].
  eexists _, _. split; [vm_compute; reflexivity|]. split; [vm_compute; reflexivity|]. split; [vm_compute; reflexivity|].
  eexists. split; vm_compute; reflexivity.
Qed.
