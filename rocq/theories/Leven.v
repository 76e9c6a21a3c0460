(** Model of octaspire_string_levenshtein_distance (A:6057-6197).
    Simplification: the vector of rows of int is a function from the two
    indices (all indices used lie inside it: 0..selfLen, 0..otherLen), and the
    int slots do not overflow (strings shorter than 2^31 characters). *)
From Coq Require Import List NArith Bool Arith Lia.
From Verif Require Import Base.
Import ListNotations.

Definition matrix := nat -> nat -> nat.

(** octaspire_string_levenshtein_distance_helper_set_slot, A:6082-6098. *)
Definition set_cell (m : matrix) (i j v : nat) : matrix :=
  fun i' j' => if Nat.eqb i' i && Nat.eqb j' j then v else m i' j'.

(** The initial rows, A:6117-6143. *)
Definition lev_init : matrix := fun i j => match i with O => j | S _ => match j with O => i | S _ => O end end.

(** The body of the inner loop, A:6149-6183 (i, j >= 1). *)
Definition lev_cell (a b : list N) (j : nat) (m : matrix) (i : nat) : matrix :=
  if N.eqb (nth (i - 1) a 0%N) (nth (j - 1) b 0%N) then set_cell m i j (m (i - 1) (j - 1))
  else set_cell m i j
         (Nat.min (m (i - 1) j + 1) (Nat.min (m i (j - 1) + 1) (m (i - 1) (j - 1) + 1))).

(** The inner loop over i and the outer loop over j, A:6147-6186. *)
Definition lev_column (a b : list N) (m : matrix) (j : nat) : matrix :=
  fold_left (lev_cell a b j) (seq 1 (length a)) m.
Definition lev_fill (a b : list N) : matrix :=
  fold_left (lev_column a b) (seq 1 (length b)) lev_init.

(** octaspire_string_levenshtein_distance, A:6101-6197. *)
Definition levenshtein (a b : list N) : nat := lev_fill a b (length a) (length b).
