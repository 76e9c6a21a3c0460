(** How numbers are written: decimal integers, and reals with six significant
    digits (printf's "%g"). *)
From Coq Require Import String List NArith ZArith Bool.
From Coq Require Import Floats.SpecFloat.
From Verif Require Import Base Heap Env SpecText.
Import ListNotations.
Local Open Scope list_scope.
Local Open Scope Z_scope.

(** [u] is the number [n] in decimal digits, without needless zeros. *)
Definition digit (c : N) : Prop := (48 <= c <= 57)%N.
Definition digits_worth (u : text) : N := fold_left (fun v c => 10 * v + (c - 48))%N u 0%N.
Definition numeral (n : N) (u : text) : Prop :=
  u <> [] /\ Forall digit u /\ digits_worth u = n /\ (forall v, u = 48%N :: v -> v = []).
(** An integer, with a sign if it is negative. *)
Inductive signed_text (z : Z) : text -> Prop :=
| signed_plus u : 0 <= z -> numeral (Z.to_N z) u -> signed_text z u
| signed_minus u : z < 0 -> numeral (Z.to_N (- z)) u -> signed_text z (asc "-" ++ u).

(** Fractions are pairs of a numerator and a positive denominator. *)
Definition at_most (p q : Z * Z) : Prop := fst p * snd q <= fst q * snd p.
Definition less (p q : Z * Z) : Prop := fst p * snd q < fst q * snd p.
Definition over (p q : Z * Z) : Z * Z := (fst p * snd q, snd p * fst q).
Definition power (b x : Z) : Z * Z := (b ^ Z.max x 0, b ^ Z.max (- x) 0).
(** The number with mantissa [m] and exponent [e]. *)
Definition magnitude (m : positive) (e : Z) : Z * Z := (Zpos m * fst (power 2 e), snd (power 2 e)).
(** [n] is the integer next to [p]; of two equally near, the even one. *)
Definition next_to (p : Z * Z) (n : Z) : Prop :=
  2 * Z.abs (fst p - n * snd p) <= snd p /\ (2 * Z.abs (fst p - n * snd p) = snd p -> Z.even n = true).
(** Six significant digits: the integer [n] of six digits, the first of which
    stands for [10 ^ x]. *)
Definition six_significant (v : Z * Z) (n x : Z) : Prop :=
  exists n0 x0, at_most (power 10 x0) v /\ less v (power 10 (x0 + 1)) /\ next_to (over v (power 10 (x0 - 5))) n0 /\
    (n0 < 1000000 /\ n = n0 /\ x = x0 \/ n0 = 1000000 /\ n = 100000 /\ x = x0 + 1).

(** [t'] is [t] without its last zeros. *)
Definition without_zeros (t t' : text) : Prop :=
  exists k, t = t' ++ repeat 48%N k /\ forall l, t' <> l ++ [48%N].
(** What comes after the point; without digits there is no point. *)
Definition after_point (t : text) : text := match t with [] => [] | _ => asc "." ++ t end.
(** The exponent has at least two digits. *)
Inductive exponent_text (x : Z) : text -> Prop :=
| exponent_one u : Z.abs x < 10 -> numeral (Z.to_N (Z.abs x)) u -> exponent_text x ((if x <? 0 then asc "-0" else asc "+0") ++ u)
| exponent_more u : 10 <= Z.abs x -> numeral (Z.to_N (Z.abs x)) u -> exponent_text x ((if x <? 0 then asc "-" else asc "+") ++ u).
Inductive digits_text (n x : Z) : text -> Prop :=
| text_fixed a b b' : 0 <= x < 6 -> numeral (Z.to_N n) (a ++ b) -> Z.of_nat (List.length a) = x + 1 -> without_zeros b b' ->
    digits_text n x (a ++ after_point b')
| text_small b b' : -4 <= x < 0 -> numeral (Z.to_N n) b -> without_zeros b b' ->
    digits_text n x (asc "0." ++ repeat 48%N (Z.to_nat (- x - 1)) ++ b')
| text_exponent c b b' u : x < -4 \/ 6 <= x -> numeral (Z.to_N n) (c :: b) -> without_zeros b b' -> exponent_text x u ->
    digits_text n x (c :: after_point b' ++ asc "e" ++ u).
Definition minus (negative : bool) : text := if negative then asc "-" else [].
Inductive real_text : spec_float -> text -> Prop :=
| text_zero s : real_text (S754_zero s) (minus s ++ asc "0")
| text_infinity s : real_text (S754_infinity s) (minus s ++ asc "inf")
| text_finite s m e n x u : six_significant (magnitude m e) n x -> digits_text n x u -> real_text (S754_finite s m e) (minus s ++ u).
