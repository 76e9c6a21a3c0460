(** The real number at the beginning of a text (C11 7.22.1.3). *)
From Coq Require Import String List NArith ZArith Bool.
From Coq Require Import Floats.SpecFloat.
From Verif Require Import Base Heap Env SpecText SpecReal SpecWrite.
Import ListNotations.
Local Open Scope list_scope.
Local Open Scope Z_scope.

(** A letter in either case; a word in either case. *)
Definition cased (l c : N) : Prop := c = l \/ (c + 32 = l)%N.
Definition cased_word (w : string) (u : text) : Prop := Forall2 cased (asc w) u.
Inductive plus_minus : bool -> text -> Prop :=
| pm_none : plus_minus false [] | pm_plus : plus_minus false (asc "+") | pm_minus : plus_minus true (asc "-").
Definition hex_digit (c : N) : Prop := digit c \/ (65 <= c <= 70)%N \/ (97 <= c <= 102)%N.
Definition hex_digit_worth (c : N) : N := (if c <? 58 then c - 48 else if c <? 97 then c - 65 + 10 else c - 97 + 10)%N.
Definition hex_digits_worth (u : text) : N := fold_left (fun v c => 16 * v + hex_digit_worth c)%N u 0%N.
(** Digits [a] before and [b] after a point, which need not be there if [b] is empty. *)
Definition pointed (a b u : text) : Prop := u = a ++ asc "." ++ b \/ (b = [] /\ u = a).
(** An exponent, or none. *)
Inductive power_part (mark : N) : Z -> text -> Prop :=
| pp_none : power_part mark 0 []
| pp_some c neg s d : cased mark c -> plus_minus neg s -> Forall digit d -> d <> [] ->
    power_part mark (if neg then - Z.of_N (digits_worth d) else Z.of_N (digits_worth d)) (c :: s ++ d).
Inductive quantity := Finite (v : Z * Z) | Unbounded | Undefined.
(** How quantities are spelled; the optional "(...)" after nan makes no difference. *)
Inductive spelled : text -> quantity -> Prop :=
| spelled_decimal a b u x p : Forall digit (a ++ b) -> a ++ b <> [] -> pointed a b u -> power_part 101 x p ->
    spelled (u ++ p) (Finite (let q := power 10 (x - Z.of_nat (List.length b)) in (Z.of_N (digits_worth (a ++ b)) * fst q, snd q)))
| spelled_hex z a b u x p : cased_word "x" [z] -> Forall hex_digit (a ++ b) -> a ++ b <> [] -> pointed a b u -> power_part 112 x p ->
    spelled (asc "0" ++ [z] ++ u ++ p) (Finite (let q := power 2 (x - 4 * Z.of_nat (List.length b)) in (Z.of_N (hex_digits_worth (a ++ b)) * fst q, snd q)))
| spelled_infinity u : cased_word "inf" u \/ cased_word "infinity" u -> spelled u Unbounded
| spelled_nan u : cased_word "nan" u -> spelled u Undefined.

(** The double next to a fraction that is not negative: the multiple of [2 ^ e] next
    to it, where [2 ^ e] is the distance of the doubles in its neighbourhood; of two
    equally near the even one; infinity from 2^1024 on. *)
Definition spacing (v : Z * Z) (e : Z) : Prop :=
  less v (power 2 (e + 53)) /\ (e = -1074 \/ (-1074 < e /\ at_most (power 2 (e + 52)) v)).
Inductive rounded (neg : bool) (v : Z * Z) : spec_float -> Prop :=
| rounded_zero e : spacing v e -> next_to (over v (power 2 e)) 0 -> rounded neg v (S754_zero neg)
| rounded_finite e m : spacing v e -> next_to (over v (power 2 e)) (Zpos m) -> Zpos m < 2 ^ 53 -> e <= 971 -> rounded neg v (S754_finite neg m e)
| rounded_carry e : spacing v e -> next_to (over v (power 2 e)) (2 ^ 53) -> e + 1 <= 971 -> rounded neg v (S754_finite neg (2 ^ 52)%positive (e + 1))
| rounded_infinity e n : spacing v e -> next_to (over v (power 2 e)) n -> at_most (power 2 1024) (n * fst (power 2 e), snd (power 2 e)) -> rounded neg v (S754_infinity neg).
Inductive double_of (neg : bool) : quantity -> spec_float -> Prop :=
| double_finite v f : rounded neg v f -> double_of neg (Finite v) f
| double_infinite : double_of neg Unbounded (S754_infinity neg)
| double_nan : double_of neg Undefined S754_nan.

(** The longest beginning of a text that spells a quantity. *)
Definition longest (t u : text) (q : quantity) : Prop :=
  spelled u q /\ exists r, t = u ++ r /\ forall u' r' q', t = u' ++ r' -> spelled u' q' -> (List.length u' <= List.length u)%nat.
(** Blanks, a sign, and the longest number; without a number it is zero. *)
Inductive leading_real : text -> spec_float -> Prop :=
| real_number w s neg t u q f : Forall white w -> plus_minus neg s -> longest t u q -> double_of neg q f -> leading_real (w ++ s ++ t) f
| real_none t : (forall w s neg u q r, Forall white w -> plus_minus neg s -> spelled u q -> t <> w ++ s ++ u ++ r) -> leading_real t (S754_zero false).

(** A finite double: [m * 2 ^ e] with at most 53 bits, zero included; how far a fraction is from it. *)
Definition a_double (m e : Z) : Prop := 0 <= m < 2 ^ 53 /\ -1074 <= e <= 971.
Definition distance_from (v : Z * Z) (m e : Z) : Z * Z :=
  (Z.abs (fst v * snd (power 2 e) - m * fst (power 2 e) * snd v), snd v * snd (power 2 e)).
