(** Reachability between values, stated from the meaning of each kind of value
    (independently of the collector). *)
From Coq Require Import List NArith ZArith Bool.
From Verif Require Import Base HMap Heap.
Import ListNotations.

(** A value refers to: its documentation string, its elements, keys and values,
    the names and values bound in an environment and the enclosing one, the
    formals, body and definition environment of a function or macro. *)
Inductive refers (c : cell) : ref -> Prop :=
| r_doc d : cdoc c = Some d -> refers c d
| r_vec l x : cdata c = DVec l -> In x l -> refers c x
| r_queue l m x : cdata c = DQueue l m -> In x l -> refers c x
| r_list l x : cdata c = DList l -> In x l -> refers c x
| r_key m b e : cdata c = DMap m -> In b (buckets m) -> In e b -> refers c (ekey e)
| r_val m b e v : cdata c = DMap m -> In b (buckets m) -> In e b -> In v (evals e) -> refers c v
| r_name bs enc t k v : cdata c = DEnv bs enc -> In (t, (k, v)) bs -> refers c k
| r_bound bs enc t k v : cdata c = DEnv bs enc -> In (t, (k, v)) bs -> refers c v
| r_enc bs e : cdata c = DEnv bs (Some e) -> refers c e
| r_formals f : cdata c = DFun f \/ cdata c = DMac f -> refers c (fformals f)
| r_body f : cdata c = DFun f \/ cdata c = DMac f -> refers c (fbody f)
| r_denv f : cdata c = DFun f \/ cdata c = DMac f -> refers c (fenv f).

Inductive reachable (h : heap) (roots : list ref) : ref -> Prop :=
| re_root r : In r roots -> reachable h roots r
| re_step r c x : reachable h roots r -> lookup h r = Some c -> refers c x -> reachable h roots x.

(** Every key of a hash map has exactly one value. *)
Definition single_valued (c : cell) : Prop :=
  forall m b e, cdata c = DMap m -> In b (buckets m) -> In e b -> exists v, evals e = [v].

(** The state between two operations: identities are unique, nothing is
    marked. *)
Definition tidy (h : heap) : Prop :=
  NoDup (map fst h) /\ (forall r c, In (r, c) h -> cmark c = false).

(** No reachable pointer dangles, and reachable maps are single-valued. *)
Definition sound_roots (h : heap) (roots : list ref) : Prop :=
  forall r, reachable h roots r -> exists c, lookup h r = Some c /\ single_valued c.
