(** Model of octaspire_dern_value_to_string (value:1290-1695) for the values
    the parser can build, reals and errors excepted.  printf's "%d" and "%s" are
    modelled by [decimal] and by copying; a text that cannot be rendered as a C
    string is copied unchanged (printing such a text aborts in C, OString.v). *)
From Coq Require Import List NArith ZArith Bool Lia Arith.
From Verif Require Import Base Parser.
Import ListNotations.
Local Open Scope N_scope.

(** Decimal digits of n: "%zu"; [fuel] bounds the number of digits. *)
Fixpoint decimal_fuel (fuel : nat) (n : N) (acc : list N) : list N :=
  match fuel with
  | O => acc
  | S f => let acc := (48 + n mod 10) :: acc in
           if n <? 10 then acc else decimal_fuel f (n / 10) acc
  end.
Definition decimal (n : N) : list N := decimal_fuel (S (N.to_nat (N.log2 n))) n [].

(** "{D+%d}" / "{D%d}", value:1316-1325. *)
Definition print_int (z : Z) : list N :=
  if (0 <=? z)%Z then [123; 68; 43] ++ decimal (Z.to_N z) ++ [125]
  else [123; 68; 45] ++ decimal (Z.to_N (- z)) ++ [125].

(** value:1366-1395. *)
Definition print_char (s : list N) : list N :=
  match s with
  | [c] => if c =? 124 then [124; 98; 97; 114; 124]
           else if c =? 10 then [124; 110; 101; 119; 108; 105; 110; 101; 124]
           else if c =? 9 then [124; 116; 97; 98; 124]
           else [124; c; 124]
  | _ => [124] ++ s ++ [124]
  end.

(** octaspire_semver_to_string (A:9420-9522) without pre-release and build parts. *)
Definition print_semver (a b c : N) : list N := decimal a ++ [46] ++ decimal b ++ [46] ++ decimal c.

(** value:1407-1455: elements separated by one space. *)
Fixpoint join (l : list (list N)) : list N :=
  match l with
  | [] => []
  | [x] => x
  | x :: t => x ++ [32] ++ join t
  end.

Fixpoint print (v : sexp) : list N :=
  match v with
  | SNil => [110; 105; 108]
  | SBool true => [116; 114; 117; 101]
  | SBool false => [102; 97; 108; 115; 101]
  | SInt z => print_int z
  | SStr s => [91] ++ s ++ [93]
  | SChar s => print_char s
  | SSym s => s
  | SSemver a b c => print_semver a b c
  | SVec l => [40] ++ join (map print l) ++ [41]
  | SReal _ | SErr => []
  end.
