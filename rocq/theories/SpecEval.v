(** Small notions used to state what evaluation does, independently of how. *)
From Coq Require Import List NArith ZArith Bool.
From Verif Require Import Base HMap Heap SpecEnv.
Import ListNotations.
Local Open Scope Z_scope.

(** A 32-bit integer. *)
Definition fits (z : Z) : Prop := - 2 ^ 31 <= z <= 2 ^ 31 - 1.
(** [r] holds the integer [z]; [a] holds a vector of the integers [zs]. *)
Definition int_at (h : heap) (r : ref) (z : Z) : Prop := exists c, lookup h r = Some c /\ cdata c = DInt z.
Definition ints_at (h : heap) (a : ref) (zs : list Z) : Prop := exists l, vector_at h a l /\ Forall2 (int_at h) l zs.
Definition sum (zs : list Z) : Z := fold_right Z.add 0 zs.
Definition product (zs : list Z) : Z := fold_right Z.mul 1 zs.

(** [r] holds the data [d]. *)
Definition holds (h : heap) (r : ref) (d : data) : Prop := exists c, lookup h r = Some c /\ cdata c = d.
Definition is_error_at (h : heap) (r : ref) : Prop := exists m n, holds h r (DErr m n).
