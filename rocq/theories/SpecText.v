(** Specifications for the text layer, independent of the model:
    RFC 3629 UTF-8 in plain arithmetic. *)
From Coq Require Import List NArith Bool Lia.
Import ListNotations.
Local Open Scope N_scope.

(** Unicode scalar values. *)
Definition scalar (c : N) : Prop := c <= 0x10FFFF /\ ~ (0xD800 <= c <= 0xDFFF).

(** The UTF-8 form of a number below 2^21 (RFC 3629 section 3; for scalar
    values this is the UTF-8 encoding). *)
Definition utf8 (c : N) : list N :=
  if c <? 0x80 then [c]
  else if c <? 0x800 then [0xC0 + c / 64; 0x80 + c mod 64]
  else if c <? 0x10000 then [0xE0 + c / 4096; 0x80 + (c / 64) mod 64; 0x80 + c mod 64]
  else [0xF0 + c / 262144; 0x80 + (c / 4096) mod 64; 0x80 + (c / 64) mod 64; 0x80 + c mod 64].

(** UTF-8 text: concatenation of the encodings. *)
Definition utf8_text (l : list N) : list N := concat (map utf8 l).

(** A number that has a UTF-8 form the decoder accepts (surrogates and numbers
    up to 2^21-1 included, NUL excluded). *)
Definition decodable (c : N) : Prop := 0 < c < 0x200000.

(** [longest_prefix b l rest]: [b] starts with the UTF-8 forms of the
    characters [l], and what follows does not start with any UTF-8 form. *)
Definition longest_prefix (b : list N) (l : list N) (rest : list N) : Prop :=
  b = utf8_text l ++ rest /\ Forall decodable l /\
  ~ exists c r, decodable c /\ rest = utf8 c ++ r.
