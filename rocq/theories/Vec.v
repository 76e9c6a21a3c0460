(** Model of octaspire_vector.c (A:3197-4215): a growable array with spare
    capacity.  Simplifications: elements are values of a type [X] instead of
    octets (element size is constant for one vector); allocation never fails;
    element release callbacks are not run (they concern the elements, not the
    array); the growth factor ceilf(index/numAllocated) is computed exactly
    instead of in single precision (the loop re-tests the capacity anyway). *)
From Coq Require Import List NArith ZArith Bool Lia.
From Verif Require Import Base.
Import ListNotations.

(** (size_t)i of a ptrdiff_t. *)
Definition size_of_ptrdiff (i : Z) : Z := (i mod 2 ^ 64)%Z.

(** octaspire_vector_private_is_index_valid, A:3491-3518. *)
Definition norm_index (len : nat) (i : Z) : option nat :=
  let asSize := size_of_ptrdiff i in
  let direct := if (asSize <? Z.of_nat len)%Z then Some (Z.to_nat asSize) else None in
  if (i <? 0)%Z then
    let tmp := (Z.of_nat len + i)%Z in
    if ((0 <=? tmp) && (tmp <? Z.of_nat len))%Z then Some (Z.to_nat tmp) else direct
  else direct.

Section Vec.
Context {X : Type} (zero : X).

(** struct octaspire_vector_t, A:3217-3228.  [slots] is the whole allocated
    storage (length = numAllocated), of which the first [num] are in use. *)
Record vec := mkVec { slots : list X; num : nat; limit : nat }.

Definition allocated (v : vec) : nat := length (slots v).
Definition contents (v : vec) : list X := firstn (num v) (slots v).

(** octaspire_vector_new_with_preallocated_elements, A:3347-3385
    (octaspire_allocator_malloc zero-fills). *)
Definition vec_new (prealloc : nat) : vec :=
  let n := match prealloc with O => 1 | _ => prealloc end in
  mkVec (repeat zero n) 0 n.

(** octaspire_vector_private_grow, A:3248-3279: realloc to
    numAllocated * max(2, factor), then zero everything from numElements on. *)
Definition vec_grow (v : vec) (factor : nat) : vec :=
  let n := allocated v * Nat.max 2 factor in
  mkVec (firstn (num v) (slots v) ++ repeat zero (n - num v)) (num v) (limit v).

(** octaspire_vector_private_compact, A:3281-3321. *)
Definition vec_compact (v : vec) : vec :=
  if allocated v <=? 1 then v
  else if allocated v <=? num v * 3 then v
  else if allocated v <=? limit v then v
  else
    let n := match num v with O => 1 | S _ => num v end in
    let n := if n <? limit v then limit v else n in
    mkVec (firstn n (slots v)) (num v) (limit v).

(** memcpy of one element to slot i. *)
Definition set_slot (i : nat) (x : X) (s : list X) : list X :=
  firstn i s ++ x :: skipn (S i) s.

(** The growth loop of octaspire_vector_insert_element_at, A:3725-3734. *)
Fixpoint grow_until (fuel : nat) (index : nat) (v : vec) : outcome vec :=
  if index <? allocated v then Ret v
  else match fuel with
       | O => NoFuel
       | S f => grow_until f index
                  (vec_grow v ((index + allocated v - 1) / allocated v))
       end.

(** octaspire_vector_insert_element_at, A:3718-3757: overwrite slot [index],
    extending the vector up to it if necessary. *)
Definition vec_insert_at (v : vec) (x : X) (index : nat) : outcome vec :=
  obind (grow_until (S index) index v) (fun v' =>
    let numAfterGap := Nat.max (num v') index in
    let numAfter := if numAfterGap <=? index then S numAfterGap else numAfterGap in
    Ret (mkVec (set_slot index x (slots v')) numAfter (limit v'))).

(** octaspire_vector_push_back_element, A:3811-3819. *)
Definition vec_push_back (v : vec) (x : X) : outcome vec := vec_insert_at v x (num v).

(** octaspire_vector_insert_element_before_the_element_at_index, A:3652-3700. *)
Definition vec_insert_before (v : vec) (x : X) (i : Z) : outcome (vec * bool) :=
  match norm_index (num v) i with
  | None => Ret (v, false)
  | Some k =>
      let v' := if allocated v <=? num v then vec_grow v 2 else v in
      let s := slots v' in
      Ret (mkVec (firstn k s ++ x :: firstn (num v' - k) (skipn k s) ++ skipn (S (num v')) s)
                 (S (num v')) (limit v'), true)
  end.

(** octaspire_vector_push_front_element, A:3796-3809. *)
Definition vec_push_front (v : vec) (x : X) : outcome (vec * bool) :=
  match num v with
  | O => obind (vec_push_back v x) (fun v' => Ret (v', true))
  | _ => vec_insert_before v x 0
  end.

(** octaspire_vector_replace_element_at_index_or_push_back, A:3702-3716. *)
Definition vec_replace_or_push (v : vec) (x : X) (i : Z) : outcome vec :=
  match norm_index (num v) i with
  | None => vec_push_back v x
  | Some k => vec_insert_at v x k
  end.

(** octaspire_vector_replace_element_at, A:3759-3794. *)
Definition vec_replace (v : vec) (i : Z) (x : X) : outcome (vec * bool) :=
  match norm_index (num v) i with
  | None => Ret (v, false)
  | Some k => obind (vec_insert_at v x k) (fun v' => Ret (v', true))
  end.

(** octaspire_vector_remove_element_at, A:3520-3567 (memmove down; the last
    slot keeps its stale content). *)
Definition vec_remove_at (v : vec) (i : Z) : vec * bool :=
  match norm_index (num v) i with
  | None => (v, false)
  | Some k =>
      let s := slots v in
      (mkVec (firstn k s ++ firstn (num v - k - 1) (skipn (S k) s) ++ skipn (num v - 1) s)
             (num v - 1) (limit v), true)
  end.

(** octaspire_vector_pop_back_element, A:3864-3878. *)
Definition vec_pop_back (v : vec) : vec * bool :=
  match num v with
  | O => (v, false)
  | _ => let (v', ok) := vec_remove_at v (-1) in
         if ok then (vec_compact v', true) else (v', false)
  end.

(** octaspire_vector_pop_front_element, A:3906-3920. *)
Definition vec_pop_front (v : vec) : vec * bool :=
  match num v with
  | O => (v, false)
  | _ => let (v', ok) := vec_remove_at v 0 in
         if ok then (vec_compact v', true) else (v', false)
  end.

(** octaspire_vector_clear, A:3950-3967: remove the last element until the
    vector is empty, then compact.  [n] is the number of elements. *)
Fixpoint remove_last (n : nat) (v : vec) : vec :=
  match n with
  | O => v
  | S k => remove_last k (fst (vec_remove_at v (-1)))
  end.
Definition vec_clear (v : vec) : vec :=
  match num v with
  | O => v
  | n => vec_compact (remove_last n v)
  end.

(** octaspire_vector_get_element_at, A:3569-3615; None is the NULL result. *)
Definition vec_get (v : vec) (i : Z) : option X :=
  match norm_index (num v) i with
  | None => None
  | Some k => nth_error (slots v) k
  end.

(** octaspire_vector_swap, A:3990-4038. *)
Definition vec_swap (v : vec) (i j : Z) : vec * bool :=
  match norm_index (num v) i, norm_index (num v) j with
  | Some a, Some b =>
      match nth_error (slots v) a, nth_error (slots v) b with
      | Some xa, Some xb =>
          (mkVec (set_slot b xa (set_slot a xb (slots v))) (num v) (limit v), true)
      | _, _ => (v, false)
      end
  | _, _ => (v, false)
  end.

(** Operations of the public interface. *)
Inductive vec_op :=
| VPushBack (x : X) | VPushFront (x : X) | VInsertBefore (x : X) (i : Z)
| VReplace (i : Z) (x : X) | VReplaceOrPush (x : X) (i : Z) | VRemove (i : Z)
| VPopBack | VPopFront | VClear | VSwap (i j : Z) | VSetLimit (n : nat).

Definition vec_step (v : vec) (o : vec_op) : outcome (vec * bool) :=
  match o with
  | VPushBack x => obind (vec_push_back v x) (fun v' => Ret (v', true))
  | VPushFront x => vec_push_front v x
  | VInsertBefore x i => vec_insert_before v x i
  | VReplace i x => vec_replace v i x
  | VReplaceOrPush x i => obind (vec_replace_or_push v x i) (fun v' => Ret (v', true))
  | VRemove i => Ret (vec_remove_at v i)
  | VPopBack => Ret (vec_pop_back v)
  | VPopFront => Ret (vec_pop_front v)
  | VClear => Ret (vec_clear v, true)
  | VSwap i j => Ret (vec_swap v i j)
  | VSetLimit n => Ret (mkVec (slots v) (num v) n, true)
  end.

Fixpoint vec_run (v : vec) (ops : list vec_op) : outcome (vec * list bool) :=
  match ops with
  | [] => Ret (v, [])
  | o :: rest =>
      obind (vec_step v o) (fun r =>
        obind (vec_run (fst r) rest) (fun r' => Ret (fst r', snd r :: snd r')))
  end.

End Vec.
Arguments vec X : clear implicits.
Arguments vec_op X : clear implicits.
