(** What literals denote: numbers in four bases, characters, strings. *)
From Coq Require Import List NArith ZArith Bool.
From Coq Require Import Floats.SpecFloat.
From Verif Require Import SpecText SpecRead.
Import ListNotations.
Local Open Scope N_scope.

(** [c] is the digit [d] of base [b]: 0-9, a-f or A-F. *)
Definition digit (b c d : N) : Prop :=
  d < b /\ ((48 <= c <= 57 /\ c = 48 + d) \/ (10 <= d <= 15 /\ c = 87 + d) \/ (10 <= d <= 15 /\ c = 55 + d)).
(** B, O, D and X. *)
Definition base_letter (c b : N) : Prop := In (c, b) [(66, 2); (79, 8); (68, 10); (88, 16)].
(** The number with the digits [ds] in base [b]. *)
Definition value (b : N) (ds : list N) : N := fold_left (fun v d => b * v + d) ds 0.
Definition sign (c : N) (neg : bool) : Prop := c = if neg then 45 else 43.
(** The characters of a number in braces: letter, sign, then [cs]. *)
Definition braces (letter sgn : N) (cs : list N) : list N := [123; letter; sgn] ++ cs ++ [125].

(** Double precision numbers: a natural number; [f] divided [n] times by [b]. *)
Definition double (n : N) : spec_float := match n with N0 => S754_zero false | Npos p => binary_normalize 53 1024 (Zpos p) 0 false end.
Fixpoint divided (n : nat) (f b : spec_float) : spec_float := match n with O => f | S n => SFdiv 53 1024 (divided n f b) b end.

(** What stands between the bars of a character: the character itself, a name, or
    two to eight hexadecimal digits. *)
Inductive char_name : list N -> N -> Prop :=
| name_self c : c <> 124 -> char_name [c] c
| name_bar : char_name [98; 97; 114] 124
| name_newline : char_name [110; 101; 119; 108; 105; 110; 101] 10
| name_tab : char_name [116; 97; 98] 9
| name_string_start : char_name [115; 116; 114; 105; 110; 103; 45; 115; 116; 97; 114; 116] 91
| name_string_end : char_name [115; 116; 114; 105; 110; 103; 45; 101; 110; 100] 93
| name_hex cs ds : (2 <= length cs <= 8)%nat -> Forall2 (digit 16) cs ds -> char_name cs (value 16 ds).
(** What stands between the brackets of a string: characters, and names between
    bars. *)
Inductive string_text : list N -> list N -> Prop :=
| text_end : string_text [] []
| text_char c l s : c <> 93 -> c <> 124 -> string_text l s -> string_text (c :: l) (c :: s)
| text_bars m c l s : char_name m c -> char_ok c -> string_text l s -> string_text (124 :: m ++ 124 :: l) (c :: s).
