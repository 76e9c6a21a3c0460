(** Model of octaspire_helpers_base64_encode / _decode (A:2370-2735).
    Simplifications: text and data are lists of octets; isspace is that of the
    C locale, and false for octets above 127; allocation never fails. *)
From Coq Require Import List NArith ZArith Bool Lia Arith.
From Verif Require Import Base.
Import ListNotations.
Local Open Scope N_scope.

(** isspace of the C locale. *)
Definition isspace (c : N) : bool := (c =? 32) || ((9 <=? c) && (c <=? 13)).

(** octaspire_helpers_base64_private_base64_char_into_num, A:2388-2418;
    None is octaspire_helpers_base64_private_bad_num. *)
Definition char_into_num (c : N) : option N :=
  if (65 <=? c) && (c <=? 90) then Some (c - 65)
  else if (97 <=? c) && (c <=? 122) then Some (26 + (c - 97))
  else if (48 <=? c) && (c <=? 57) then Some (52 + (c - 48))
  else if c =? 43 then Some 62
  else if c =? 47 then Some 63
  else None.

(** base64chars[n], A:2592-2593. *)
Definition base64char (n : N) : N :=
  if n <? 26 then 65 + n
  else if n <? 52 then 97 + (n - 26)
  else if n <? 62 then 48 + (n - 52)
  else if n =? 62 then 43 else 47.

(** Three octets of four indices, A:2504-2527. *)
Definition decode_quad (a b c d : N) : list N :=
  let num := N.shiftl (N.land a 63) 18 + N.shiftl (N.land b 63) 12
             + N.shiftl (N.land c 63) 6 + N.land d 63 in
  [N.land (N.shiftr num 16) 0xFF; N.land (N.shiftr num 8) 0xFF; N.land (N.shiftr num 0) 0xFF].

(** The main loop, A:2500-2559: returns the result vector, the number of
    pending indices and the padding count; None is the early NULL return.
    [idx] holds the pending indices in reverse order. *)
Fixpoint decode_loop64 (input : list N) (idx : list N) (res : list N) (pad : nat)
  : option (list N * nat * nat) :=
  let (idx, res) := match idx with
                    | [d; c; b; a] => ([], res ++ decode_quad a b c d)
                    | _ => (idx, res)
                    end in
  match input with
  | [] => Some (res, length idx, pad)
  | c :: t =>
      if isspace c then decode_loop64 t idx res pad
      else
        let pad := if c =? 61 then S pad else pad in
        let c := if c =? 61 then 65 else c in
        match char_into_num c with
        | None => None
        | Some n => decode_loop64 t (n :: idx) res pad
        end
  end.

(** The removal loop of one padding character, A:2569-2583: peeking into an
    empty vector dereferences NULL.  [r] is the result in reverse order. *)
Fixpoint drop_padding (r : list N) : outcome (list N) :=
  match r with
  | [] => Undef
  | c :: t => if isspace c then drop_padding t else Ret t
  end.
Fixpoint drop_paddings (n : nat) (r : list N) : outcome (list N) :=
  match n with
  | O => Ret r
  | S k => obind (drop_padding r) (drop_paddings k)
  end.

(** octaspire_helpers_base64_decode, A:2465-2584, given the length of the
    input (not negative, and at most INT32_MAX: the parameter is an int32_t);
    None is NULL. *)
Definition base64_decode (input : list N) : outcome (option (list N)) :=
  if Nat.ltb (length input) 2 then Ret None
  else match decode_loop64 input [] [] 0 with
       | None => Ret None
       | Some (res, pending, pad) =>
           if (negb (Nat.eqb pending 0) || Nat.leb (length res) pad)%bool then Ret None
           else obind (drop_paddings pad (rev res)) (fun r => Ret (Some (rev r)))
       end.

(** Output string and currentLineLen (a size_t). *)
Definition encstate := (list N * Z)%type.

(** octaspire_string_push_back_ucs_character of one of the four characters,
    then the line break, A:2640-2666. *)
Definition push64 (lineLen : nat) (s : encstate) (c : N) : encstate :=
  let (out, cl) := s in
  let out := out ++ [c] in
  let cl := ((cl + 1) mod 2 ^ 64)%Z in
  if (Nat.ltb 0 lineLen && (Z.of_nat lineLen <=? cl)%Z)%bool then (out ++ [10], 0%Z) else (out, cl).

(** The four characters of three octets, A:2613-2641. *)
Definition encode_chunk (a b c : N) : list N :=
  let num := N.shiftl a 16 + N.shiftl b 8 + N.shiftl c 0 in
  map base64char [N.land (N.shiftr num 18) 63; N.land (N.shiftr num 12) 63;
                  N.land (N.shiftr num 6) 63; N.land num 63].

(** The main loop, A:2612-2668: missing octets are read as NUL. *)
Fixpoint encode_loop64 (lineLen : nat) (input : list N) (s : encstate) : encstate :=
  match input with
  | [] => s
  | [a] => fold_left (push64 lineLen) (encode_chunk a 0 0) s
  | [a; b] => fold_left (push64 lineLen) (encode_chunk a b 0) s
  | a :: b :: c :: t =>
      encode_loop64 lineLen t (fold_left (push64 lineLen) (encode_chunk a b c) s)
  end.

(** octaspire_helpers_measure_length_of_last_line, A:2434-2450. *)
Fixpoint last_line_rev (r : list N) (n : nat) : nat :=
  match r with
  | [] => n
  | c :: t => if c =? 10 then S n else last_line_rev t (S n)
  end.
Definition last_line (l : list N) : nat := last_line_rev (rev l) 0.

(** The loop removing the characters to be replaced by padding, A:2670-2703:
    [i] is the loop counter, [removed] numZerosRemoved. *)
Fixpoint remove_zeros (fuel i removed pad : nat) (s : encstate) : outcome encstate :=
  let (out, cl) := s in
  if Nat.ltb i (length out) then
    match fuel with
    | O => NoFuel
    | S f =>
        let (removed, cl) :=
          if negb (last out 0 =? 10) then (S removed, ((cl - 1) mod 2 ^ 64)%Z)
          else (removed, Z.of_nat (last_line out)) in
        let out := removelast out in
        if Nat.eqb removed pad then Ret (out, cl) else remove_zeros f (S i) removed pad (out, cl)
    end
  else Ret (out, cl).

(** The padding loop, A:2705-2733. *)
Fixpoint push_padding (n lineLen : nat) (s : encstate) : encstate :=
  match n with
  | O => s
  | S k =>
      let (out, cl) := s in
      let (out, cl) := if (Nat.ltb 0 lineLen && (Z.of_nat lineLen <=? cl)%Z)%bool
                       then (out ++ [10], 0%Z) else (out, cl) in
      push_padding k lineLen (out ++ [61], ((cl + 1) mod 2 ^ 64)%Z)
  end.

(** octaspire_helpers_base64_encode, A:2586-2736. *)
Definition base64_encode (input : list N) (lineLen : nat) : outcome (list N) :=
  let pad := match Nat.modulo (length input) 3 with O => O | k => (3 - k)%nat end in
  let s := encode_loop64 lineLen input ([], 0%Z) in
  obind (match pad with O => Ret s | _ => remove_zeros (S (length (fst s))) 0 0 pad s end) (fun s =>
    Ret (fst (push_padding pad lineLen s))).
