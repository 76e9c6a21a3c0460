(** strtod of the C library (C11 7.22.1.3) in the C locale, as glibc computes it:
    the number at the beginning of a C string, rounded to the nearest double,
    halves to even.  Used by octaspire_dern_vm_builtin_to_real (stdlib:6430-6440),
    which does not ask where the number ends; the value of errno is not used either. *)
From Coq Require Import NArith ZArith Bool List.
From Coq Require Import Floats.SpecFloat.
From Verif Require Import Base Heap RealText.
Import ListNotations.
Local Open Scope N_scope.

(** The longest beginning with characters of a kind, and the rest. *)
Fixpoint run_of (p : N -> bool) (t : text) : text * text :=
  match t with
  | c :: r => if p c then let (a, b) := run_of p r in (c :: a, b) else ([], t)
  | [] => ([], [])
  end.
(** isspace, isdigit and isxdigit. *)
Definition white_char (c : N) : bool := ((9 <=? c) && (c <=? 13)) || (c =? 32).
Definition digit_char (c : N) : bool := (48 <=? c) && (c <=? 57).
Definition hex_char (c : N) : bool := digit_char c || ((65 <=? c) && (c <=? 70)) || ((97 <=? c) && (c <=? 102)).
(** The letter [c] is [l] (a small one), in either case. *)
Definition letter (l c : N) : bool := (c =? l) || (c + 32 =? l).
Fixpoint strip_word (w t : text) : option text :=
  match w, t with
  | [], _ => Some t
  | l :: w', c :: t' => if letter l c then strip_word w' t' else None
  | _, [] => None
  end.
Definition take_sign (t : text) : bool * text :=
  match t with c :: r => if c =? 43 then (false, r) else if c =? 45 then (true, r) else (false, t) | [] => (false, t) end.
Definition hex_value (c : N) : N := if c <=? 57 then c - 48 else if c <=? 70 then c - 55 else c - 87.
Definition dec_worth (u : text) : Z := Z.of_N (fold_left (fun v c => 10 * v + (c - 48)) u 0).
Definition hex_worth (u : text) : Z := Z.of_N (fold_left (fun v c => 16 * v + hex_value c) u 0).
(** Digits before and after an optional point; none at all if both are empty. *)
Definition mantissa (p : N -> bool) (t : text) : text * text * text :=
  let (a, r) := run_of p t in
  match r with
  | c :: r' =>
      if c =? 46 then let (b, r'') := run_of p r' in match a ++ b with [] => ([], [], t) | _ => (a, b, r'') end
      else (a, [], r)
  | [] => (a, [], r)
  end.
(** An optional exponent. *)
Definition exponent_at (mark : N) (t : text) : Z * text :=
  match t with
  | c :: r =>
      if letter mark c then
        let (neg, r1) := take_sign r in
        let (d, r2) := run_of digit_char r1 in
        match d with [] => (0%Z, t) | _ => (if neg then (- dec_worth d)%Z else dec_worth d, r2) end
      else (0%Z, t)
  | [] => (0%Z, t)
  end.
(** [Num n b x] is n * b ^ x. *)
Inductive amount := Num (n b x : Z) | Infinite | NotANumber.
Definition decimal_at (t : text) : option (amount * text) :=
  match mantissa digit_char t with
  | (a, b, r) =>
      match a ++ b with
      | [] => None
      | _ => let (x, r') := exponent_at 101 r in Some (Num (dec_worth (a ++ b)) 10 (x - Z.of_nat (List.length b)), r')
      end
  end.
Definition hex_at (t : text) : option (amount * text) :=
  match t with
  | z :: c :: r0 =>
      if (z =? 48) && letter 120 c then
        match mantissa hex_char r0 with
        | (a, b, r) =>
            match a ++ b with
            | [] => None
            | _ => let (x, r') := exponent_at 112 r in Some (Num (hex_worth (a ++ b)) 2 (x - 4 * Z.of_nat (List.length b)), r')
            end
        end
      else None
  | _ => None
  end.
(** The number after blanks and sign, and what follows it. *)
Definition amount_at (t : text) : option (amount * text) :=
  match strip_word [105; 110; 102; 105; 110; 105; 116; 121] t with
  | Some r => Some (Infinite, r)
  | None =>
      match strip_word [105; 110; 102] t with
      | Some r => Some (Infinite, r)
      | None =>
          match strip_word [110; 97; 110] t with
          | Some r => Some (NotANumber, r)
          | None => match hex_at t with Some x => Some x | None => decimal_at t end
          end
      end
  end.
(** The double nearest to num / den (not negative), with a sign: [e] is the exponent
    of the last of its 53 bits, at least -1074. *)
Definition nearest_double (neg : bool) (num den : Z) : spec_float :=
  if (num =? 0)%Z then S754_zero neg
  else
    let b := (Z.log2 num - Z.log2 den)%Z in
    let b' := (if 2 ^ Z.max b 0 * den <=? num * 2 ^ Z.max (- b) 0 then b else b - 1)%Z in
    let e := Z.max (-1074) (b' - 52) in
    let n := nearest (num * 2 ^ Z.max (- e) 0) (den * 2 ^ Z.max e 0) in
    let '(n', e') := if (n =? 2 ^ 53)%Z then ((2 ^ 52)%Z, (e + 1)%Z) else (n, e) in
    match n' with
    | Zpos m => if (971 <? e')%Z then S754_infinity neg else S754_finite neg m e'
    | _ => S754_zero neg
    end.
Definition amount_double (neg : bool) (q : amount) : spec_float :=
  match q with
  | Num n b x => nearest_double neg (n * b ^ Z.max x 0) (b ^ Z.max (- x) 0)
  | Infinite => S754_infinity neg
  | NotANumber => S754_nan
  end.
Definition strtod (t : text) : spec_float :=
  let (neg, r) := take_sign (snd (run_of white_char t)) in
  match amount_at r with Some (q, _) => amount_double neg q | None => S754_zero false end.
