(** printf's "%g" (C11 7.21.6.1): at most six significant digits, the value
    rounded to the nearest such number, halves to even (glibc, IEEE 754), used by
    octaspire_string_new_format for "%g" (value:1337-1352).
    The text of a NaN is not modelled. *)
From Coq Require Import NArith ZArith Bool List.
From Coq Require Import Floats.SpecFloat.
From Verif Require Import Base Heap.
From Verif Require Printer.
Import ListNotations.
Local Open Scope Z_scope.

(** Is [10 ^ x <= num / den]? *)
Definition ge_ten (num den x : Z) : bool :=
  if 0 <=? x then 10 ^ x * den <=? num else den <=? num * 10 ^ (- x).
(** The largest such exponent not above [x]. *)
Fixpoint descend (fuel : nat) (num den x : Z) : option Z :=
  if ge_ten num den x then Some x
  else match fuel with O => None | S f => descend f num den (x - 1) end.
Definition leading (num den : Z) : option Z :=
  let b := Z.log2 num - Z.log2 den + 1 in
  descend (Z.abs_nat b + 3) num den (if 0 <=? b then b / 3 else b / 4).
(** The nearest integer, halves to even. *)
Definition nearest (num den : Z) : Z :=
  let q := num / den in
  match 2 * (num mod den) ?= den with
  | Lt => q
  | Gt => q + 1
  | Eq => if Z.even q then q else q + 1
  end.
(** Six significant digits (an integer below 10^6) and the exponent of the first. *)
Definition six_digits (m : positive) (e : Z) : option (Z * Z) :=
  let num := Zpos m * 2 ^ Z.max e 0 in
  let den := 2 ^ Z.max (- e) 0 in
  match leading num den with
  | None => None
  | Some x =>
      let n := if 5 <=? x then nearest num (den * 10 ^ (x - 5)) else nearest (num * 10 ^ (5 - x)) den in
      Some (if n =? 1000000 then (100000, x + 1) else (n, x))
  end.
(** The text without its last zeros. *)
Fixpoint trim_zeros (l : text) : text :=
  match l with
  | [] => []
  | c :: t => match trim_zeros t with
              | [] => if (c =? 48)%N then [] else [c]
              | t' => c :: t'
              end
  end.
Definition fraction (l : text) : text := match trim_zeros l with [] => [] | t => 46%N :: t end.
Definition exponent (x : Z) : text :=
  (101%N :: (if x <? 0 then 45%N else 43%N) :: (if Z.abs x <? 10 then [48%N] else [])) ++ Printer.decimal (Z.to_N (Z.abs x)).
(** Exponents from -4 to 5 are written without "e". *)
Definition layout (n x : Z) : text :=
  let ds := Printer.decimal (Z.to_N n) in
  if (-4 <=? x) && (x <? 6) then
    if 0 <=? x then firstn (Z.to_nat (x + 1)) ds ++ fraction (skipn (Z.to_nat (x + 1)) ds)
    else 48%N :: fraction (repeat 48%N (Z.to_nat (- x - 1)) ++ ds)
  else firstn 1 ds ++ fraction (skipn 1 ds) ++ exponent x.
Definition g_text (f : spec_float) : outcome text :=
  match f with
  | S754_zero s => Ret (if s then [45%N; 48%N] else [48%N])
  | S754_infinity s => Ret ((if s then [45%N] else []) ++ [105%N; 110%N; 102%N])
  | S754_nan => NoFuel
  | S754_finite s m e =>
      match six_digits m e with
      | Some (n, x) => Ret ((if s then [45%N] else []) ++ layout n x)
      | None => NoFuel
      end
  end.
