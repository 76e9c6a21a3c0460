(** Well formed contents: what the representation of values promises. *)
From Coq Require Import List NArith ZArith Arith.
From Verif Require Import Base HMap Heap.
Import ListNotations.

(** A hash map: the buckets number 128 times a power of two, every element is in
    the bucket its hash selects, the number of elements is the one kept, and at
    most the buckets counted as in use, less than three quarters of all, have
    elements. *)
Record map_formed (m : hmap ref ref) : Prop := {
  f_size : exists j, length (buckets m) = 128 * 2 ^ j;
  f_place : forall i b e, nth_error (buckets m) i = Some b -> In e b -> N.to_nat (ehash e mod N.of_nat (length (buckets m))) = i;
  f_count : numElements m = length (concat (buckets m));
  f_used : length (filter (fun b => match b with [] => false | _ => true end) (buckets m)) <= inUse m;
  f_load : 4 * inUse m < 3 * length (buckets m) }.
(** An environment binds no name twice; a queue with a maximum length is not
    longer. *)
Definition data_formed (d : data) : Prop :=
  match d with
  | DEnv b _ => NoDup (map fst b)
  | DQueue l (Some n) => length l <= N.to_nat n
  | DMap m => map_formed m
  | _ => True
  end.
Definition well_formed (h : heap) : Prop := forall r c, In (r, c) h -> data_formed (cdata c).
