(** Edit distance as a user understands it. *)
From Coq Require Import List NArith.
Import ListNotations.

(** One single-character edit: insert, delete or substitute. *)
Inductive edit1 : list N -> list N -> Prop :=
| ed_ins p c q : edit1 (p ++ q) (p ++ c :: q)
| ed_del p c q : edit1 (p ++ c :: q) (p ++ q)
| ed_sub p c d q : edit1 (p ++ c :: q) (p ++ d :: q).

(** [edits n a b]: [n] single-character edits turn [a] into [b]. *)
Inductive edits : nat -> list N -> list N -> Prop :=
| eds_0 a : edits 0 a a
| eds_S n a b c : edit1 a b -> edits n b c -> edits (S n) a c.

(** [d] is the least number of edits turning [a] into [b]. *)
Definition edit_distance (a b : list N) (d : nat) : Prop :=
  edits d a b /\ forall n, edits n a b -> d <= n.
