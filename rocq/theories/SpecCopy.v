(** What a deep copy is. *)
From Coq Require Import List NArith ZArith Bool Permutation.
From Verif Require Import Base HMap Heap SpecHeap ValueOps.
Import ListNotations.

(** Values without parts. *)
Definition partless (d : data) : Prop :=
  match d with DVec _ | DMap _ | DQueue _ _ | DList _ | DEnv _ _ | DFun _ | DMac _ => False | _ => True end.

(** The value [w] of [h'] is a copy of the value [r] of [h]: they hold the same,
    part by part, and so do their documentation strings.  The maximum length of a
    queue is not copied; the elements of a hash map may come in another order. *)
Inductive copied (h h' : heap) : ref -> ref -> Prop :=
| copied_value r c w c' : lookup h r = Some c -> lookup h' w = Some c' ->
    copied_data h h' (cdata c) (cdata c') -> copied_doc h h' (cdoc c) (cdoc c') -> copied h h' r w
with copied_data (h h' : heap) : data -> data -> Prop :=
| cd_partless d : partless d -> copied_data h h' d d
| cd_vec l l' : copied_all h h' l l' -> copied_data h h' (DVec l) (DVec l')
| cd_queue l max l' : copied_all h h' l l' -> copied_data h h' (DQueue l max) (DQueue l' None)
| cd_list l l' : copied_all h h' l l' -> copied_data h h' (DList l) (DList l')
| cd_map m m' es : copied_pairs h h' (concat (buckets m)) es -> Permutation es (concat (buckets m')) -> copied_data h h' (DMap m) (DMap m')
with copied_doc (h h' : heap) : option ref -> option ref -> Prop :=
| cdo_none : copied_doc h h' None None
| cdo_some d d' : copied h h' d d' -> copied_doc h h' (Some d) (Some d')
with copied_all (h h' : heap) : list ref -> list ref -> Prop :=
| ca_nil : copied_all h h' [] []
| ca_cons r l w l' : copied h h' r w -> copied_all h h' l l' -> copied_all h h' (r :: l) (w :: l')
with copied_pairs (h h' : heap) : list (element ref ref) -> list (element ref ref) -> Prop :=
| cp_nil : copied_pairs h h' [] []
| cp_cons e v l e' v' l' : evals e = [v] -> evals e' = [v'] -> copied h h' (ekey e) (ekey e') -> copied h h' v v' ->
    copied_pairs h h' l l' -> copied_pairs h h' (e :: l) (e' :: l').

(** The keys are atoms, and no two of them are equal. *)
Definition is_atom (h : heap) (k : ref) : Prop :=
  exists c, lookup h k = Some c /\
    match cdata c with DNil | DBool _ | DInt _ | DReal _ | DStr _ | DChar _ | DSym _ | DErr _ _ => True | _ => False end.
Definition plain_keys (h : heap) (m : hmap ref ref) : Prop :=
  (forall e, In e (concat (buckets m)) -> is_atom h (ekey e)) /\
  ForallOrdPairs (fun e1 e2 => forall n, vcompare n h (ekey e2) (ekey e1) <> Ret 0%Z) (concat (buckets m)).
(** So it is in every hash map [r] contains. *)
Definition plain_maps (h : heap) (r : ref) : Prop :=
  forall x c m, reachable h [r] x -> lookup h x = Some c -> cdata c = DMap m -> plain_keys h m.
