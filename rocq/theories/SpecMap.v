(** What a user expects of a hash map: a multimap. *)
From Coq Require Import List NArith Bool.
From Verif Require Import HMap.
Import ListNotations.

Section SpecMap.
Context {K V : Type} (keq : K -> K -> bool).

(** The values stored under each key, oldest first; [] = key absent. *)
Definition multimap := K -> list V.
Definition mm_empty : multimap := fun _ => [].
Definition mm_step (f : multimap) (o : map_op K V) : multimap :=
  match o with
  | MPut k v => fun k' => if keq k k' then f k' ++ [v] else f k'
  | MRemove k => fun k' => if keq k k' then [] else f k'
  | MClear => mm_empty
  end.
Definition mm_run (f : multimap) (ops : list (map_op K V)) : multimap := fold_left mm_step ops f.

(** [keys] lists the keys present, each once (up to key equality). *)
Definition lists_keys (f : multimap) (keys : list K) : Prop :=
  ForallOrdPairs (fun a b => keq a b = false) keys /\
  (forall k, In k keys -> f k <> []) /\
  (forall k, f k <> [] -> exists k', In k' keys /\ keq k k' = true).

(** Key equality is an equivalence and the hash function respects it. *)
Definition key_equality (H : K -> N) : Prop :=
  (forall a, keq a a = true) /\ (forall a b, keq a b = keq b a) /\
  (forall a b c, keq a b = true -> keq b c = true -> keq a c = true) /\
  (forall a b, keq a b = true -> H a = H b).
End SpecMap.
