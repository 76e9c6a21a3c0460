(** Copying and assigning values: octaspire_dern_vm_create_new_value_copy,
    octaspire_dern_value_set and octaspire_dern_value_set_collection. *)
From Coq Require Import NArith ZArith Bool Lia String List.
From Verif Require Import Base OString HMap Heap ValueOps Env.
Import ListNotations.
Local Open Scope N_scope.

(** octaspire_dern_value_is_atom, value:5148-5180. *)
Definition is_atom_data (d : data) : bool :=
  match d with
  | DNil | DBool _ | DInt _ | DReal _ | DStr _ | DChar _ | DSym _ | DErr _ _ => true
  | _ => false
  end.

(** octaspire_map_put and _remove on maps keyed by values, with the hash of the
    key: the comparison of keys reads the heap. *)
Definition vmap_find (fuel : nat) (m : hmap ref ref) (hk : N) (k : ref) : M (option (element ref ref)) :=
  heap_op (fun h => find_o (vcompare fuel h) k (nth (bucket_index hk (List.length (buckets m))) (buckets m) [])).
Definition vmap_put (fuel : nat) (m : hmap ref ref) (hk : N) (k v : ref) : M (hmap ref ref) :=
  o <- vmap_find fuel m hk k ;;
  lift (map_put (match o with Some e => fun _ k' => k' =? ekey e | None => fun _ _ => false end) m hk k v).
Definition vmap_remove (fuel : nat) (m : hmap ref ref) (hk : N) (k : ref) : M (hmap ref ref) :=
  o <- vmap_find fuel m hk k ;;
  ret (fst (map_remove (match o with Some e => fun _ k' => k' =? ekey e | None => fun _ _ => false end) m hk k)).
Definition hash_of (r : ref) : M N := heap_op (fun h => vhash h r).

(** octaspire_queue_push on the contents of a queue (C17): with a maximum
    length the oldest elements are dropped. *)
Definition queue_push (l : list ref) (max : option N) (x : ref) : list ref :=
  let l' := l ++ [x] in
  match max with None => l' | Some n => skipn (List.length l' - N.to_nat n) l' end.

(** Appending to the vector, queue or list [r] holds. *)
Definition seq_push (r x : ref) : M unit :=
  d <- get r ;;
  match d with
  | DVec l => put r (DVec (l ++ [x]))
  | DList l => put r (DList (l ++ [x]))
  | DQueue l max => put r (DQueue (queue_push l max x) max)
  | _ => abort
  end.
Definition map_of (r : ref) : M (hmap ref ref) :=
  d <- get r ;; match d with DMap m => ret m | _ => abort end.

(** octaspire_dern_vm_create_new_value_copy, vm:1806-2143.  The collection being
    copied is not changed by the copying, so its elements are read once.  Copying
    an environment, function or macro dereferences NULL (the enclosing
    environment of the global one); [fuel] bounds the depth of the recursion. *)
Definition empty_like (d : data) : data :=
  match d with
  | DVec _ => DVec [] | DQueue _ _ => DQueue [] None | DList _ => DList [] | DMap _ => DMap map_new
  | _ => d
  end.
Fixpoint copy (fuel : nat) (r : ref) : M ref :=
  match fuel with
  | O => nofuel
  | S f =>
      d <- get r ;;
      match d with
      | DEnv _ _ | DFun _ | DMac _ => undef
      | _ =>
          x <- alloc (empty_like d) ;; push x ;;;
          d <- get r ;;
          match d with
          | DVec l | DQueue l _ | DList l => iterM (fun y => y' <- copy f y ;; seq_push x y') l
          | DMap m =>
              iterM (fun e : element ref ref =>
                       v <- lift (single e) ;;
                       k' <- copy f (ekey e) ;; push k' ;;;
                       v' <- copy f v ;; push v' ;;;
                       hk <- hash_of k' ;; m' <- map_of x ;; m2 <- vmap_put f m' hk k' v' ;;
                       put x (DMap m2) ;;; pop v' ;;; pop k')
                    (List.concat (buckets m))
          | _ => ret tt
          end ;;;
          c <- get_cell r ;;
          match cdoc c with
          | Some d => d' <- copy f d ;; c <- get_cell x ;; set_docs x (Some d') (cdocvec c)
          | None => ret tt
          end ;;;
          c <- get_cell r ;;
          match cdocvec c with
          | Some d => d' <- copy f d ;; c <- get_cell x ;; set_docs x (cdoc c) (Some d')
          | None => ret tt
          end ;;;
          pop x ;;; ret x
      end
  end.
Definition copy_atom (fuel : nat) (r : ref) : M ref :=
  d <- get r ;; if is_atom_data d then copy fuel r else ret r.

(** octaspire_dern_vm_get_value_nil, _true, _false, vm:4445-4463: a copy of the
    constant made at vm:214-317.  Simplification: the constants are taken to be
    always available (they are kept alive by their bindings in the global
    environment). *)
Definition new_const (d : data) (doc : text) : M ref :=
  x <- alloc d ;; push x ;;;
  y <- alloc (DStr doc) ;; push y ;;; pop y ;;;
  set_docs x (Some y) None ;;; pop x ;;; ret x.
Definition value_nil : M ref := new_const DNil (asc "Represents missing value.").
Definition value_true : M ref := new_const (DBool true) (asc "Boolean true value. Opposite of false.").
Definition value_false : M ref := new_const (DBool false) (asc "Boolean false value. Opposite of true.").
Definition value_bool (b : bool) : M ref := if b then value_true else value_false.

(** octaspire_dern_value_set, value:737-1031; it fails only for C data. *)
Definition set_seq (fuel : nat) (self : ref) (l : list ref) : M unit :=
  iterM (fun y => y <- copy_atom fuel y ;; push y ;;; seq_push self y ;;; pop y) l.
Fixpoint nat_seq (n : nat) : list nat := match n with O => [] | S k => nat_seq k ++ [k] end.
Definition set_map (fuel : nat) (self value : ref) (n : nat) : M unit :=
  iterM (fun i =>
           m <- map_of value ;;
           match map_get_at_index m (Z.of_nat i) with
           | None => undef
           | Some e =>
               v <- lift (single e) ;;
               k <- copy_atom fuel (ekey e) ;; push k ;;;
               v <- copy_atom fuel v ;; push v ;;;
               m1 <- map_of self ;; m2 <- vmap_remove fuel m1 (ehash e) k ;;
               m3 <- vmap_put fuel m2 (ehash e) k v ;; put self (DMap m3) ;;;
               pop v ;;; pop k
           end) (nat_seq n).
Definition value_set (fuel : nat) (self value : ref) : M unit :=
  if self =? value then ret tt
  else
    d <- get value ;;
    match d with
    | DEnv _ _ | DFun _ | DMac _ | DSpecial _ | DBuiltin _ => abort
    | _ =>
        put_fresh self (empty_like d) ;;;
        match d with
        | DVec l | DQueue l _ | DList l => set_seq fuel self l
        | DMap m => set_map fuel self value (numElements m)
        | _ => ret tt
        end ;;;
        c <- get_cell value ;;
        match cdoc c with
        | Some d => d' <- copy fuel d ;; c <- get_cell self ;; set_docs self (Some d') (cdocvec c)
        | None => ret tt
        end ;;;
        c <- get_cell value ;;
        match cdocvec c with
        | Some d => d' <- copy fuel d ;; c <- get_cell self ;; set_docs self (cdoc c) (Some d')
        | None => ret tt
        end
    end.

(** octaspire_dern_value_set_collection, value:1034-1153. *)
Fixpoint pad_nils (n : nat) (r : ref) : M unit :=
  match n with
  | O => ret tt
  | S k => x <- value_nil ;; vec_push r x ;;; pad_nils k r
  end.
Definition set_collection (fuel : nat) (self key value : ref) : M bool :=
  d <- get self ;; kd <- get key ;; vd <- get value ;;
  match d with
  | DStr s =>
      match vd, kd with
      | DChar c, DInt i =>
          let (s', ok) := str_overwrite (text_str s) c i in put self (DStr (ucs s')) ;;; ret ok
      | _, _ => ret false
      end
  | DVec l =>
      match kd with
      | DInt i =>
          if (i <? 0)%Z then ret false
          else if (Z.of_nat (List.length l) <=? i)%Z then
            pad_nils (Z.to_nat i - List.length l) self ;;;
            v <- copy_atom fuel value ;; vec_push self v ;;; ret true
          else
            v <- copy_atom fuel value ;; l <- vec_of self ;;
            put self (DVec (firstn (Z.to_nat i) l ++ v :: skipn (S (Z.to_nat i)) l)) ;;; ret true
      | _ => ret false
      end
  | DMap _ =>
      v <- copy_atom fuel value ;;
      hk <- hash_of key ;; m <- map_of self ;; m1 <- vmap_remove fuel m hk key ;;
      m2 <- vmap_put fuel m1 hk key v ;; put self (DMap m2) ;;; ret true
  | DQueue _ _ | DList _ => abort
  | DEnv _ _ => env_set self key value ;;; ret true
  | _ => ret false
  end.
