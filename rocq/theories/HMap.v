(** Model of octaspire_map.c (A:7165-8249): a chained hash table whose elements
    carry a vector of values.  Simplifications: buckets and value vectors are
    lists; allocation never fails; release callbacks are not run; the load
    factor is compared exactly (4 * inUse >= 3 * buckets) instead of in single
    precision, which agrees while there are fewer than 2^24 buckets. *)
From Coq Require Import List NArith ZArith Bool Lia Arith.
From Verif Require Import Base Vec.
Import ListNotations.

Section HMap.
Context {K V : Type} (keq : K -> K -> bool).

(** struct octaspire_map_element_t, A:7186-7197. *)
Record element := mkElem { ehash : N; ekey : K; evals : list V }.

(** struct octaspire_map_t, A:7323-7338. *)
Record hmap := mkMap { buckets : list (list element); inUse : nat; numElements : nat }.

(** OCTASPIRE_MAP_SMALLEST_SIZE, A:7340, and octaspire_map_new, A:7546-7592. *)
Definition map_new : hmap := mkMap (repeat [] 128) 0 0.

(** hash % octaspire_vector_get_length(self->buckets). *)
Definition bucket_index (h : N) (nb : nat) : nat := N.to_nat (h mod N.of_nat nb).

(** The key search inside one bucket, A:7880-7913 and A:7933-7966 (a bucket of
    one element is treated separately there, with the same result). *)
Fixpoint find_elem (k : K) (b : list element) : option element :=
  match b with
  | [] => None
  | e :: t => if keq k (ekey e) then Some e else find_elem k t
  end.

(** octaspire_map_get / octaspire_map_get_const, A:7863-7967. *)
Definition map_get (m : hmap) (h : N) (k : K) : option element :=
  find_elem k (nth (bucket_index h (length (buckets m))) (buckets m) []).

(** octaspire_map_element_get_value, A:7300-7307: asserts that there are fewer
    than two values. *)
Definition elem_value (e : element) : outcome (option V) :=
  if Nat.ltb (length (evals e)) 2 then Ret (nth_error (evals e) 0) else Abort.

(** Replace bucket i. *)
Definition set_bucket (i : nat) (b : list element) (bs : list (list element)) : list (list element) :=
  firstn i bs ++ b :: skipn (S i) bs.

(** octaspire_vector_push_back_element(element->values, value) on the element
    found by the search. *)
Fixpoint push_value (k : K) (v : V) (b : list element) : list element :=
  match b with
  | [] => []
  | e :: t => if keq k (ekey e) then mkElem (ehash e) (ekey e) (evals e ++ [v]) :: t
              else e :: push_value k v t
  end.

(** One element of the loop of octaspire_map_private_rehash, A:7391-7424. *)
Definition rehash_insert (m : hmap) (e : element) : hmap :=
  let i := bucket_index (ehash e) (length (buckets m)) in
  let b := nth i (buckets m) [] in
  mkMap (set_bucket i (b ++ [e]) (buckets m))
        (match b with [] => S (inUse m) | _ => inUse m end)
        (S (numElements m)).

(** octaspire_map_private_rehash, A:7363-7434, ending with its assertion. *)
Definition map_rehash (m : hmap) : outcome hmap :=
  let m' := fold_left rehash_insert (concat (buckets m))
                      (mkMap (repeat [] (2 * length (buckets m))) 0 0) in
  if Nat.ltb (4 * inUse m') (3 * length (buckets m')) then Ret m' else Abort.

(** octaspire_map_put, A:7799-7861. *)
Definition map_put (m : hmap) (h : N) (k : K) (v : V) : outcome hmap :=
  let i := bucket_index h (length (buckets m)) in
  let b := nth i (buckets m) [] in
  match map_get m h k with
  | Some _ => Ret (mkMap (set_bucket i (push_value k v b) (buckets m)) (inUse m) (numElements m))
  | None =>
      let m' := mkMap (set_bucket i (b ++ [mkElem h k [v]]) (buckets m))
                      (match b with [] => S (inUse m) | _ => inUse m end)
                      (S (numElements m)) in
      if Nat.leb (3 * length (buckets m')) (4 * inUse m') then map_rehash m' else Ret m'
  end.

(** The search-and-remove loop of octaspire_map_remove, A:7685-7733. *)
Fixpoint remove_elem (k : K) (b : list element) : option (list element) :=
  match b with
  | [] => None
  | e :: t => if keq k (ekey e) then Some t
              else match remove_elem k t with Some t' => Some (e :: t') | None => None end
  end.

(** octaspire_map_remove, A:7666-7736 (numBucketsInUse is left as it is). *)
Definition map_remove (m : hmap) (h : N) (k : K) : hmap * bool :=
  let i := bucket_index h (length (buckets m)) in
  match remove_elem k (nth i (buckets m) []) with
  | Some b => (mkMap (set_bucket i b (buckets m)) (inUse m) (numElements m - 1), true)
  | None => (m, false)
  end.

(** octaspire_map_clear, A:7738-7765. *)
Definition map_clear (m : hmap) : hmap := map_new.

(** octaspire_map_get_at_index, A:7978-8045. *)
Fixpoint at_index_loop (bs : list (list element)) (index counter : nat) : option element :=
  match bs with
  | [] => None
  | b :: t =>
      match b with
      | [] => at_index_loop t index counter
      | _ => if Nat.leb index (counter + length b - 1) then nth_error b (index - counter)
             else at_index_loop t index (counter + length b)
      end
  end.
(** Backwards: buckets from the last to the first, and inside a bucket the
    vector index -(index - counter). *)
Fixpoint at_index_loop_back (bs : list (list element)) (index counter : nat) : option element :=
  match bs with
  | [] => None
  | b :: t =>
      match b with
      | [] => at_index_loop_back t index counter
      | _ => if Nat.leb index (counter + length b - 1)
             then match norm_index (length b) (- Z.of_nat (index - counter)) with
                  | Some p => nth_error b p
                  | None => None
                  end
             else at_index_loop_back t index (counter + length b)
      end
  end.
Definition map_get_at_index (m : hmap) (i : Z) : option element :=
  if (i <? 0)%Z then at_index_loop_back (rev (buckets m)) (Z.to_nat (- (i + 1))) 0
  else at_index_loop (buckets m) (Z.to_nat i) 0.

(** octaspire_map_element_iterator_t. *)
Record miter := mkIter { bucketIndex : nat; insideIndex : nat; current : option element }.

(** The search loop shared by octaspire_map_element_iterator_init (A:8047-8096)
    and _next (A:8098-8146); [fuel] bounds the number of buckets visited. *)
Fixpoint iter_seek (fuel : nat) (m : hmap) (bi ii : nat) : outcome miter :=
  match nth_error (buckets m) bi with
  | None => Ret (mkIter bi ii None)
  | Some b =>
      match nth_error b ii with
      | Some e => Ret (mkIter bi ii (Some e))
      | None => match fuel with
                | O => NoFuel
                | S f => iter_seek f m (S bi) 0
                end
      end
  end.
Definition iter_init (m : hmap) : outcome miter := iter_seek (S (length (buckets m))) m 0 0.
Definition iter_next (m : hmap) (it : miter) : outcome miter :=
  iter_seek (S (length (buckets m))) m (bucketIndex it) (S (insideIndex it)).

(** Iterating until the iterator has no element. *)
Fixpoint iter_all (fuel : nat) (m : hmap) (it : miter) : outcome (list element) :=
  match current it with
  | None => Ret []
  | Some e => match fuel with
              | O => NoFuel
              | S f => obind (iter_next m it) (fun it' =>
                         obind (iter_all f m it') (fun l => Ret (e :: l)))
              end
  end.
Definition map_iterate (m : hmap) : outcome (list element) :=
  obind (iter_init m) (iter_all (numElements m) m).

(** octaspire_map_add_hash_map, A:7767-7797, for two different maps: put every
    value of every element of the other map, in iteration order. *)
Fixpoint put_values (m : hmap) (e : element) (vs : list V) : outcome hmap :=
  match vs with
  | [] => Ret m
  | v :: t => obind (map_put m (ehash e) (ekey e) v) (fun m' => put_values m' e t)
  end.
Fixpoint add_elements (m : hmap) (es : list element) : outcome hmap :=
  match es with
  | [] => Ret m
  | e :: t => obind (put_values m e (evals e)) (fun m' => add_elements m' t)
  end.
Definition map_add_map (m other : hmap) : outcome hmap := add_elements m (concat (buckets other)).

(** Histories, for a hash function given by the caller. *)
Context (H : K -> N).
Inductive map_op := MPut (k : K) (v : V) | MRemove (k : K) | MClear.
Definition map_step (m : hmap) (o : map_op) : outcome hmap :=
  match o with
  | MPut k v => map_put m (H k) k v
  | MRemove k => Ret (fst (map_remove m (H k) k))
  | MClear => Ret (map_clear m)
  end.
Fixpoint map_run (m : hmap) (ops : list map_op) : outcome hmap :=
  match ops with
  | [] => Ret m
  | o :: r => obind (map_step m o) (fun m' => map_run m' r)
  end.

End HMap.
Arguments element K V : clear implicits.
Arguments hmap K V : clear implicits.
Arguments map_op K V : clear implicits.
Arguments miter K V : clear implicits.
