(** Model of octaspire_utf8.c (A:2738-3194). *)
From Coq Require Import List NArith Bool Lia.
From Verif Require Import Base.
Import ListNotations.
Local Open Scope N_scope.

(** octaspire_utf8_character_range_t, A:2756-2764. *)
Inductive utf8_range := RFirst | RSecond | RThird | RFourth | RIllegal.

(** octaspire_utf8_private_rangeof, A:2789-2808. *)
Definition rangeof (c : N) : utf8_range :=
  if c <=? 0x7F then RFirst
  else if (0x80 <=? c) && (c <=? 0x7FF) then RSecond
  else if (0x800 <=? c) && (c <=? 0xFFFF) then RThird
  else if (0x10000 <=? c) && (c <=? 0x10FFFF) then RFourth
  else RIllegal.

(** octaspire_utf8_private_high_order_bits, A:2810-2827. *)
Definition high_order_bits (r : utf8_range) : N :=
  match r with
  | RFirst => 0
  | RSecond => 0xC080
  | RThird => 0xE08080
  | RFourth => 0xF0808080
  | RIllegal => 0xFFFFFFFF
  end.

(** One step "bitset |= ((bitset & ~mask) | x)" used all over the encoder and
    the decoder; [a & ~m] is [N.ldiff a m]. *)
Definition orstep (bitset mask x : N) : N :=
  N.lor bitset (N.lor (N.ldiff bitset mask) x).

(** octaspire_utf8_character_t: octets[4] and numoctets. *)
Record utf8_character := mkU8 { u8_octets : list N; u8_num : nat }.

(** The switch of octaspire_utf8_encode_character, A:2846-2930. *)
Definition encode_bits (r : utf8_range) (c : N) : N :=
  let b := high_order_bits r in
  match r with
  | RFirst => orstep b 0x7F (N.land c 0x7F)
  | RSecond =>
      let b := orstep b 0x3F (N.land c 0x3F) in
      orstep b 0x1F00 (N.land (N.shiftl (N.land c 0x7C0) 2) 0x1F00)
  | RThird =>
      let b := orstep b 0x3F (N.land c 0x3F) in
      let b := orstep b 0x3F00 (N.land (N.shiftl (N.land c 0xFC0) 2) 0x3F00) in
      orstep b 0xF0000 (N.land (N.shiftl (N.land c 0xF000) 4) 0xF0000)
  | RFourth =>
      let b := orstep b 0x3F (N.land c 0x3F) in
      let b := orstep b 0x3F00 (N.land (N.shiftl (N.land c 0xFC0) 2) 0x3F00) in
      let b := orstep b 0x3F0000 (N.land (N.shiftl (N.land c 0x3F000) 4) 0x3F0000) in
      orstep b 0x7000000 (N.land (N.shiftl (N.land c 0x1C0000) 6) 0x7000000)
  | RIllegal => b
  end.

Definition range_octets (r : utf8_range) : nat :=
  match r with RFirst => 1 | RSecond => 2 | RThird => 3 | RFourth => 4 | RIllegal => 0 end%nat.

(** octaspire_utf8_encode_character, A:2829-2953.  [None] is
    ILLEGAL_CHARACTER_NUMBER. *)
Definition encode_character (c : N) : option utf8_character :=
  if (0xD800 <=? c) && (c <=? 0xDFFF) then None
  else
    match rangeof c with
    | RIllegal => None
    | r =>
        let b := encode_bits r c in
        Some (mkU8
                [N.shiftr (N.land b 0xFF000000) 24;
                 N.shiftr (N.land b 0x00FF0000) 16;
                 N.shiftr (N.land b 0x0000FF00) 8;
                 N.land b 0xFF]
                (range_octets r))
    end.

(** The octets a caller appends: octets + 4 - numoctets .. octets + 3
    (octaspire_string_private_ensure_octets_are_up_to_date, A:6755-6765). *)
Definition u8_bytes (u : utf8_character) : list N :=
  skipn (4 - u8_num u) (u8_octets u).

(** octaspire_utf8_private_octets_in_next_from_buffer with currentIndex = 0,
    A:2979-3026.  [None] is the return value -1.  The buffer is the list of
    the [lengthInOctets] octets that may be looked at. *)
Definition octets_in_next_from_buffer (b : list N) : option nat :=
  match b with
  | [] => Some 0%nat
  | o0 :: t0 =>
      if N.land (N.shiftr o0 7) 1 =? 0 then Some 1%nat
      else if N.land (N.shiftr o0 5) 7 =? 6 then
        match t0 with
        | o1 :: _ => if N.land (N.shiftr o1 6) 3 =? 2 then Some 2%nat else None
        | _ => None
        end
      else if N.land (N.shiftr o0 4) 15 =? 14 then
        match t0 with
        | o1 :: o2 :: _ =>
            if (N.land (N.shiftr o1 6) 3 =? 2) && (N.land (N.shiftr o2 6) 3 =? 2)
            then Some 3%nat else None
        | _ => None
        end
      else if N.land (N.shiftr o0 3) 31 =? 30 then
        match t0 with
        | o1 :: o2 :: o3 :: _ =>
            if (N.land (N.shiftr o1 6) 3 =? 2) && (N.land (N.shiftr o2 6) 3 =? 2)
               && (N.land (N.shiftr o3 6) 3 =? 2)
            then Some 4%nat else None
        | _ => None
        end
      else None
  end.

(** The counting loop of octaspire_utf8_private_octets_in_next, A:2963-2974:
    the octets before the first NUL among the first min(4, length). *)
Fixpoint until_nul (n : nat) (b : list N) : list N :=
  match n, b with
  | S n', o :: t => if o =? 0 then [] else o :: until_nul n' t
  | _, _ => []
  end.

(** octaspire_utf8_private_octets_in_next, A:2955-2977. *)
Definition octets_in_next (b : list N) : option nat :=
  match b with
  | [] => Some 0%nat
  | o :: _ => if o =? 0 then Some 0%nat else octets_in_next_from_buffer (until_nul 4 b)
  end.

Inductive decode_status :=
| DecOk | DecNull | DecIllegalOctets | DecOverlong | DecNotEnough.

(** octaspire_utf8_private_decode_helper, A:3028-3128.  Reading an octet that
    is not in the buffer would be undefined behaviour; it cannot happen here
    because of the pattern, the last case is unreachable. *)
Definition decode_helper (b : list N) (needed : nat) : decode_status * N :=
  match needed, b with
  | 1%nat, b0 :: _ => (DecOk, orstep 0 0x7F (N.land b0 0x7F))
  | 2%nat, b0 :: b1 :: _ =>
      let r := orstep 0 0x7C0 (N.shiftl (N.land b0 0x1F) 6) in
      let r := orstep r 0x3F (N.land b1 0x3F) in
      (if r <=? 0x7F then DecOverlong else DecOk, r)
  | 3%nat, b0 :: b1 :: b2 :: _ =>
      let r := orstep 0 0xF000 (N.shiftl (N.land b0 0xF) 12) in
      let r := orstep r 0xFC0 (N.shiftl (N.land b1 0x3F) 6) in
      let r := orstep r 0x3F (N.land b2 0x3F) in
      (if r <=? 2047 then DecOverlong else DecOk, r)
  | 4%nat, b0 :: b1 :: b2 :: b3 :: _ =>
      let r := orstep 0 0x1C0000 (N.shiftl (N.land b0 0x7) 18) in
      let r := orstep r 0x3F000 (N.shiftl (N.land b1 0x3F) 12) in
      let r := orstep r 0xFC0 (N.shiftl (N.land b2 0x3F) 6) in
      let r := orstep r 0x3F (N.land b3 0x3F) in
      (if r <=? 65535 then DecOverlong else DecOk, r)
  | _, _ => (DecNotEnough, 0)
  end.

(** octaspire_utf8_decode_character, A:3130-3157.  Returns the status, the
    character and the number of octets. *)
Definition decode_character (b : list N) : decode_status * N * nat :=
  match octets_in_next b with
  | Some (S k) =>
      let (st, c) := decode_helper b (S k) in (st, c, S k)
  | Some O => (DecNull, 0, O)
  | None => (DecIllegalOctets, 0, O)
  end.

(** octaspire_utf8_decode_character_from_buffer, A:3159-3194.  Note that the
    octets are taken from the start of the buffer, not from [i]. *)
Definition decode_character_from_buffer (b : list N) (i : nat) : decode_status * N * nat :=
  match octets_in_next_from_buffer (skipn i b) with
  | Some (S k) => let (st, c) := decode_helper b (S k) in (st, c, S k)
  | _ => (DecIllegalOctets, 0, O)
  end.
