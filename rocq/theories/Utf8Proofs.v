(** Proofs about the UTF-8 codec. *)
From Coq Require Import List NArith ZArith Bool Lia.
From Coq Require Import ZifyBool ZifyNat ZifyN.
From Verif Require Import Base Utf8 SpecText.
Import ListNotations.
Local Open Scope N_scope.
Ltac Zify.zify_post_hook ::= Z.div_mod_to_equations.

Lemma orstep_lor b m x : orstep b m x = N.lor b x.
Proof.
  unfold orstep; apply N.bits_inj; intro n.
  rewrite !N.lor_spec, N.ldiff_spec.
  destruct (N.testbit b n), (N.testbit m n), (N.testbit x n); reflexivity.
Qed.

Lemma lor_shift_add a b n : a < 2 ^ n -> N.lor (N.shiftl b n) a = b * 2 ^ n + a.
Proof.
  intro H.
  assert (Hd : N.land (N.shiftl b n) a = 0).
  { apply N.bits_inj; intro k; rewrite N.land_spec, N.bits_0.
    destruct (N.lt_ge_cases k n) as [Hk|Hk].
    - rewrite N.shiftl_spec_low by exact Hk; reflexivity.
    - destruct (N.eq_dec a 0) as [->|Ha]; [rewrite N.bits_0; apply andb_false_r|].
      rewrite (N.bits_above_log2 a k); [apply andb_false_r|].
      apply N.log2_lt_pow2 in H; lia. }
  rewrite <- N.lxor_lor by exact Hd.
  rewrite <- N.add_nocarry_lxor by exact Hd.
  rewrite N.shiftl_mul_pow2; reflexivity.
Qed.

Lemma land_low x k : N.land x (N.ones k) = x mod 2 ^ k.
Proof. apply N.land_ones. Qed.

Lemma land_shiftl x m n : N.land x (N.shiftl m n) = N.shiftl (N.land (N.shiftr x n) m) n.
Proof.
  apply N.bits_inj; intro k; rewrite N.land_spec.
  destruct (N.lt_ge_cases k n) as [Hk|Hk].
  - rewrite !N.shiftl_spec_low by exact Hk; apply andb_false_r.
  - rewrite !N.shiftl_spec_high' by exact Hk.
    rewrite N.land_spec, N.shiftr_spec'.
    replace (k - n + n) with k by lia; reflexivity.
Qed.

(** mask of k ones above n zeros *)
Lemma land_mask x k n :
  N.land x (N.shiftl (N.ones k) n) = N.shiftl ((x / 2 ^ n) mod 2 ^ k) n.
Proof. rewrite land_shiftl, land_low, N.shiftr_div_pow2; reflexivity. Qed.

Lemma mask_shr x k n :
  N.shiftr (N.land x (N.shiftl (N.ones k) n)) n = (x / 2 ^ n) mod 2 ^ k.
Proof.
  rewrite land_mask, N.shiftr_shiftl_l by lia.
  rewrite N.sub_diag, N.shiftl_0_r; reflexivity.
Qed.

Lemma m3F x : N.land x 0x3F = x mod 64.
Proof. apply (land_low x 6). Qed.
Lemma m7F x : N.land x 0x7F = x mod 128.
Proof. apply (land_low x 7). Qed.
Lemma m1F x : N.land x 0x1F = x mod 32.
Proof. apply (land_low x 5). Qed.
Lemma mF x : N.land x 0xF = x mod 16.
Proof. apply (land_low x 4). Qed.
Lemma m7 x : N.land x 0x7 = x mod 8.
Proof. apply (land_low x 3). Qed.
Lemma m7C0 x : N.land x 0x7C0 = (x / 64) mod 32 * 64.
Proof. exact (eq_trans (land_mask x 5 6) (N.shiftl_mul_pow2 _ _)). Qed.
Lemma mFC0 x : N.land x 0xFC0 = (x / 64) mod 64 * 64.
Proof. exact (eq_trans (land_mask x 6 6) (N.shiftl_mul_pow2 _ _)). Qed.
Lemma mF000 x : N.land x 0xF000 = (x / 4096) mod 16 * 4096.
Proof. exact (eq_trans (land_mask x 4 12) (N.shiftl_mul_pow2 _ _)). Qed.
Lemma m3F000 x : N.land x 0x3F000 = (x / 4096) mod 64 * 4096.
Proof. exact (eq_trans (land_mask x 6 12) (N.shiftl_mul_pow2 _ _)). Qed.
Lemma m1C0000 x : N.land x 0x1C0000 = (x / 262144) mod 8 * 262144.
Proof. exact (eq_trans (land_mask x 3 18) (N.shiftl_mul_pow2 _ _)). Qed.
Lemma m1F00 x : N.land x 0x1F00 = (x / 256) mod 32 * 256.
Proof. exact (eq_trans (land_mask x 5 8) (N.shiftl_mul_pow2 _ _)). Qed.
Lemma m3F00 x : N.land x 0x3F00 = (x / 256) mod 64 * 256.
Proof. exact (eq_trans (land_mask x 6 8) (N.shiftl_mul_pow2 _ _)). Qed.
Lemma mF0000 x : N.land x 0xF0000 = (x / 65536) mod 16 * 65536.
Proof. exact (eq_trans (land_mask x 4 16) (N.shiftl_mul_pow2 _ _)). Qed.
Lemma m3F0000 x : N.land x 0x3F0000 = (x / 65536) mod 64 * 65536.
Proof. exact (eq_trans (land_mask x 6 16) (N.shiftl_mul_pow2 _ _)). Qed.
Lemma m7000000 x : N.land x 0x7000000 = (x / 16777216) mod 8 * 16777216.
Proof. exact (eq_trans (land_mask x 3 24) (N.shiftl_mul_pow2 _ _)). Qed.

Lemma mFF x : N.land x 0xFF = x mod 256.
Proof. apply (land_low x 8). Qed.
Lemma mFF00 x : N.shiftr (N.land x 0xFF00) 8 = (x / 256) mod 256.
Proof. exact (mask_shr x 8 8). Qed.
Lemma mFF0000 x : N.shiftr (N.land x 0xFF0000) 16 = (x / 65536) mod 256.
Proof. exact (mask_shr x 8 16). Qed.
Lemma mFF000000 x : N.shiftr (N.land x 0xFF000000) 24 = (x / 16777216) mod 256.
Proof. exact (mask_shr x 8 24). Qed.

(** A disjoint-bits or as a sum: [K] has zeros in bits n..n+k-1. *)
Lemma lor_gap hi x lo k n :
  x < 2 ^ k -> lo < 2 ^ n ->
  N.lor (hi * 2 ^ (n + k) + lo) (x * 2 ^ n) = hi * 2 ^ (n + k) + x * 2 ^ n + lo.
Proof.
  intros Hx Hlo.
  assert (Hp : 2 ^ (n + k) = 2 ^ n * 2 ^ k) by apply N.pow_add_r.
  assert (Hpn : 2 ^ n <> 0) by (apply N.pow_nonzero; lia).
  assert (Hbound : x * 2 ^ n < 2 ^ (n + k)) by (rewrite Hp; nia).
  assert (Hbound2 : x * 2 ^ n + lo < 2 ^ (n + k)) by (rewrite Hp; nia).
  assert (E1 : hi * 2 ^ (n + k) + lo = N.lor (N.shiftl hi (n + k)) lo)
    by (rewrite lor_shift_add; [reflexivity | rewrite Hp; nia]).
  assert (E2 : x * 2 ^ n + lo = N.lor (N.shiftl x n) lo)
    by (rewrite lor_shift_add; [reflexivity | exact Hlo]).
  rewrite E1, <- N.lor_assoc, (N.lor_comm lo).
  replace (x * 2 ^ n) with (N.shiftl x n) by (rewrite N.shiftl_mul_pow2; reflexivity).
  rewrite <- E2, lor_shift_add by exact Hbound2.
  rewrite N.shiftl_mul_pow2; lia.
Qed.

Lemma lor_low hi x k : x < 2 ^ k -> N.lor (hi * 2 ^ k) x = hi * 2 ^ k + x.
Proof.
  intro H. rewrite <- N.shiftl_mul_pow2 at 1. apply lor_shift_add; exact H.
Qed.

Definition canonical_bits (r : utf8_range) (c : N) : N :=
  match r with
  | RFirst => c
  | RSecond => (0xC0 + c / 64) * 256 + 0x80 + c mod 64
  | RThird => ((0xE0 + c / 4096) * 256 + 0x80 + (c / 64) mod 64) * 256 + 0x80 + c mod 64
  | RFourth => (((0xF0 + c / 262144) * 256 + 0x80 + (c / 4096) mod 64) * 256
                + 0x80 + (c / 64) mod 64) * 256 + 0x80 + c mod 64
  | RIllegal => 0xFFFFFFFF
  end.

Lemma encode_bits_canonical c : encode_bits (rangeof c) c = canonical_bits (rangeof c) c.
Proof.
  unfold rangeof.
  destruct (c <=? 0x7F) eqn:E1.
  { unfold encode_bits, canonical_bits, high_order_bits.
    rewrite orstep_lor, N.lor_0_l, m7F. apply N.mod_small; lia. }
  destruct ((0x80 <=? c) && (c <=? 0x7FF)) eqn:E2.
  { unfold encode_bits, canonical_bits, high_order_bits.
    rewrite !orstep_lor, m3F, m7C0, m1F00, N.shiftl_mul_pow2.
    change (N.lor 0xC080 (c mod 64)) with (N.lor (770 * 2 ^ 6) (c mod 64)).
    rewrite lor_low by (change (2^6) with 64; lia).
    change (2 ^ 6) with 64; change (2 ^ 2) with 4.
    assert (Ec : (c / 64) mod 32 = c / 64) by lia.
    rewrite Ec.
    replace ((c / 64 * 64 * 4 / 256) mod 32) with (c / 64) by lia.
    replace (770 * 64 + c mod 64) with (6 * 2 ^ (8 + 5) + (128 + c mod 64))
      by (change (2 ^ (8 + 5)) with 8192; lia).
    change 256 with (2 ^ 8) at 1.
    rewrite (lor_gap 6 (c / 64) (128 + c mod 64) 5 8)
      by (change (2 ^ 5) with 32; change (2^8) with 256; lia).
    change (2 ^ (8 + 5)) with 8192; change (2^8) with 256; lia. }
  destruct ((0x800 <=? c) && (c <=? 0xFFFF)) eqn:E3.
  { unfold encode_bits, canonical_bits, high_order_bits.
    rewrite !orstep_lor, m3F, mFC0, m3F00, mF000, mF0000, !N.shiftl_mul_pow2.
    change (N.lor 0xE08080 (c mod 64)) with (N.lor (229890 * 2 ^ 6) (c mod 64)).
    rewrite lor_low by (change (2^6) with 64; lia).
    change (2 ^ 6) with 64; change (2 ^ 2) with 4; change (2 ^ 4) with 16.
    replace (((c / 64) mod 64 * 64 * 4 / 256) mod 64) with ((c / 64) mod 64) by lia.
    replace (((c / 4096) mod 16 * 4096 * 16 / 65536) mod 16) with (c / 4096) by lia.
    replace (229890 * 64 + c mod 64) with (898 * 2 ^ (8 + 6) + (128 + c mod 64))
      by (change (2 ^ (8 + 6)) with 16384; lia).
    change 256 with (2 ^ 8) at 1.
    rewrite (lor_gap 898 ((c / 64) mod 64) (128 + c mod 64) 6 8)
      by (change (2 ^ 6) with 64; change (2^8) with 256; lia).
    change (2 ^ (8 + 6)) with 16384; change (2^8) with 256.
    replace (898 * 16384 + (c / 64) mod 64 * 256 + (128 + c mod 64))
      with (14 * 2 ^ (16 + 4) + ((128 + (c / 64) mod 64) * 256 + 128 + c mod 64))
      by (change (2 ^ (16 + 4)) with 1048576; lia).
    change 65536 with (2 ^ 16) at 1.
    rewrite (lor_gap 14 (c / 4096) ((128 + (c / 64) mod 64) * 256 + 128 + c mod 64) 4 16)
      by (change (2 ^ 4) with 16; change (2^16) with 65536; lia).
    change (2 ^ (16 + 4)) with 1048576; change (2^16) with 65536; lia. }
  destruct ((0x10000 <=? c) && (c <=? 0x10FFFF)) eqn:E4.
  { unfold encode_bits, canonical_bits, high_order_bits.
    rewrite !orstep_lor, m3F, mFC0, m3F00, m3F000, m3F0000, m1C0000, m7000000, !N.shiftl_mul_pow2.
    change (N.lor 0xF0808080 (c mod 64)) with (N.lor (63046146 * 2 ^ 6) (c mod 64)).
    rewrite lor_low by (change (2^6) with 64; lia).
    change (2 ^ 6) with 64; change (2 ^ 2) with 4; change (2 ^ 4) with 16.
    replace (((c / 64) mod 64 * 64 * 4 / 256) mod 64) with ((c / 64) mod 64) by lia.
    replace (((c / 4096) mod 64 * 4096 * 16 / 65536) mod 64) with ((c / 4096) mod 64) by lia.
    replace (((c / 262144) mod 8 * 262144 * 64 / 16777216) mod 8) with (c / 262144) by lia.
    replace (63046146 * 64 + c mod 64) with (246274 * 2 ^ (8 + 6) + (128 + c mod 64))
      by (change (2 ^ (8 + 6)) with 16384; lia).
    change 256 with (2 ^ 8) at 1.
    rewrite (lor_gap 246274 ((c / 64) mod 64) (128 + c mod 64) 6 8)
      by (change (2 ^ 6) with 64; change (2^8) with 256; lia).
    change (2 ^ (8 + 6)) with 16384; change (2^8) with 256.
    replace (246274 * 16384 + (c / 64) mod 64 * 256 + (128 + c mod 64))
      with (962 * 2 ^ (16 + 6) + ((128 + (c / 64) mod 64) * 256 + 128 + c mod 64))
      by (change (2 ^ (16 + 6)) with 4194304; lia).
    change 65536 with (2 ^ 16) at 1.
    rewrite (lor_gap 962 ((c / 4096) mod 64) ((128 + (c / 64) mod 64) * 256 + 128 + c mod 64) 6 16)
      by (change (2 ^ 6) with 64; change (2^16) with 65536; lia).
    change (2 ^ (16 + 6)) with 4194304; change (2^16) with 65536.
    replace (962 * 4194304 + (c / 4096) mod 64 * 65536 + ((128 + (c / 64) mod 64) * 256 + 128 + c mod 64))
      with (30 * 2 ^ (24 + 3) + (((128 + (c / 4096) mod 64) * 256 + 128 + (c / 64) mod 64) * 256 + 128 + c mod 64))
      by (change (2 ^ (24 + 3)) with 134217728; lia).
    change 16777216 with (2 ^ 24) at 1.
    rewrite (lor_gap 30 (c / 262144)
      (((128 + (c / 4096) mod 64) * 256 + 128 + (c / 64) mod 64) * 256 + 128 + c mod 64) 3 24)
      by (change (2 ^ 3) with 8; change (2^24) with 16777216; lia).
    change (2 ^ (24 + 3)) with 134217728; change (2^24) with 16777216; lia. }
  reflexivity.
Qed.

Lemma encode_character_scalar c :
  scalar c -> exists u, encode_character c = Some u /\ u8_bytes u = utf8 c
                        /\ u8_num u = length (utf8 c).
Proof.
  intros [Hmax Hsur]. unfold encode_character.
  assert (E0 : (0xD800 <=? c) && (c <=? 0xDFFF) = false) by lia.
  rewrite E0.
  pose proof (encode_bits_canonical c) as EB.
  unfold rangeof, utf8 in *.
  destruct (c <=? 0x7F) eqn:E1.
  { replace (c <? 0x80) with true by lia.
    eexists; split; [reflexivity|].
    unfold u8_bytes; cbn [u8_num u8_octets range_octets Nat.sub skipn].
    rewrite EB; cbn [canonical_bits]. rewrite mFF.
    split; [f_equal; lia | reflexivity]. }
  replace (c <? 0x80) with false by lia.
  destruct ((0x80 <=? c) && (c <=? 0x7FF)) eqn:E2.
  { replace (c <? 0x800) with true by lia.
    eexists; split; [reflexivity|].
    unfold u8_bytes; cbn [u8_num u8_octets range_octets Nat.sub skipn].
    rewrite EB; cbn [canonical_bits]. rewrite mFF, mFF00.
    split; [|reflexivity].
    repeat (f_equal; try lia). }
  replace (c <? 0x800) with false by lia.
  destruct ((0x800 <=? c) && (c <=? 0xFFFF)) eqn:E3.
  { replace (c <? 0x10000) with true by lia.
    eexists; split; [reflexivity|].
    unfold u8_bytes; cbn [u8_num u8_octets range_octets Nat.sub skipn].
    rewrite EB; cbn [canonical_bits]. rewrite mFF, mFF00, mFF0000.
    split; [|reflexivity].
    repeat (f_equal; try lia). }
  replace (c <? 0x10000) with false by lia.
  replace ((0x10000 <=? c) && (c <=? 0x10FFFF)) with true in * by lia.
  eexists; split; [reflexivity|].
  unfold u8_bytes; cbn [u8_num u8_octets range_octets Nat.sub skipn].
  rewrite EB; cbn [canonical_bits]. rewrite mFF, mFF00, mFF0000, mFF000000.
  split; [|reflexivity].
  repeat (f_equal; try lia).
Qed.

Lemma encode_character_nonscalar c : ~ scalar c -> encode_character c = None.
Proof.
  intro H; unfold encode_character.
  destruct ((0xD800 <=? c) && (c <=? 0xDFFF)) eqn:E0; [reflexivity|].
  unfold rangeof.
  destruct (c <=? 0x7F) eqn:E1; [exfalso; apply H; split; lia|].
  destruct ((0x80 <=? c) && (c <=? 0x7FF)) eqn:E2; [exfalso; apply H; split; lia|].
  destruct ((0x800 <=? c) && (c <=? 0xFFFF)) eqn:E3; [exfalso; apply H; split; lia|].
  destruct ((0x10000 <=? c) && (c <=? 0x10FFFF)) eqn:E4; [exfalso; apply H; split; lia|].
  reflexivity.
Qed.

(** *** Decoding: classification of the leading and continuation octets. *)
Lemma shr_land o k n : N.land (N.shiftr o n) (N.ones k) = (o / 2 ^ n) mod 2 ^ k.
Proof. rewrite land_low, N.shiftr_div_pow2; reflexivity. Qed.

Lemma lead1 o : o < 256 -> (N.land (N.shiftr o 7) 1 =? 0) = (o <? 128).
Proof. intro H. change 1 with (N.ones 1) at 1; rewrite (shr_land o 1 7). change (2^7) with 128; change (2^1) with 2. lia. Qed.
Lemma lead2 o : o < 256 -> (N.land (N.shiftr o 5) 7 =? 6) = ((192 <=? o) && (o <? 224)).
Proof. intro H. change 7 with (N.ones 3) at 1; rewrite (shr_land o 3 5). change (2^5) with 32; change (2^3) with 8. lia. Qed.
Lemma lead3 o : o < 256 -> (N.land (N.shiftr o 4) 15 =? 14) = ((224 <=? o) && (o <? 240)).
Proof. intro H. change 15 with (N.ones 4) at 1; rewrite (shr_land o 4 4). change (2^4) with 16. lia. Qed.
Lemma lead4 o : o < 256 -> (N.land (N.shiftr o 3) 31 =? 30) = ((240 <=? o) && (o <? 248)).
Proof. intro H. change 31 with (N.ones 5) at 1; rewrite (shr_land o 5 3). change (2^3) with 8; change (2^5) with 32. lia. Qed.
Lemma cont o : o < 256 -> (N.land (N.shiftr o 6) 3 =? 2) = ((128 <=? o) && (o <? 192)).
Proof. intro H. change 3 with (N.ones 2) at 1; rewrite (shr_land o 2 6). change (2^6) with 64; change (2^2) with 4. lia. Qed.

Lemma dec2_val a b : N.lor (N.lor 0 (N.shiftl (N.land a 0x1F) 6)) (N.land b 0x3F)
  = a mod 32 * 64 + b mod 64.
Proof.
  rewrite N.lor_0_l, m1F, m3F, lor_shift_add by (change (2^6) with 64; lia). reflexivity.
Qed.
Lemma dec3_val a b c :
  N.lor (N.lor (N.lor 0 (N.shiftl (N.land a 0xF) 12)) (N.shiftl (N.land b 0x3F) 6)) (N.land c 0x3F)
  = a mod 16 * 4096 + b mod 64 * 64 + c mod 64.
Proof.
  rewrite N.lor_0_l, mF, !m3F.
  rewrite <- N.lor_assoc, (lor_shift_add (c mod 64)) by (change (2^6) with 64; lia).
  rewrite lor_shift_add by (change (2^6) with 64; change (2^12) with 4096; lia).
  change (2^6) with 64; change (2^12) with 4096; lia.
Qed.
Lemma dec4_val a b c d :
  N.lor (N.lor (N.lor (N.lor 0 (N.shiftl (N.land a 0x7) 18)) (N.shiftl (N.land b 0x3F) 12))
    (N.shiftl (N.land c 0x3F) 6)) (N.land d 0x3F)
  = a mod 8 * 262144 + b mod 64 * 4096 + c mod 64 * 64 + d mod 64.
Proof.
  rewrite N.lor_0_l, m7, !m3F.
  rewrite <- N.lor_assoc, (lor_shift_add (d mod 64)) by (change (2^6) with 64; lia).
  rewrite <- N.lor_assoc, (lor_shift_add _ (b mod 64)) by (change (2^6) with 64; change (2^12) with 4096; lia).
  rewrite lor_shift_add by (change (2^6) with 64; change (2^12) with 4096; change (2^18) with 262144; lia).
  change (2^6) with 64; change (2^12) with 4096; change (2^18) with 262144; lia.
Qed.

(** Decoding the encoding of any number 0 < c < 2^21 succeeds. *)
Lemma decode_utf8 c rest :
  0 < c -> c < 0x200000 -> decode_character (utf8 c ++ rest) = (DecOk, c, length (utf8 c)).
Proof.
  intros H0 Hmax. unfold utf8.
  destruct (c <? 0x80) eqn:E1.
  { cbn [app length]. unfold decode_character, octets_in_next.
    replace (c =? 0) with false by lia.
    cbn [until_nul]. replace (c =? 0) with false by lia.
    cbn [octets_in_next_from_buffer]. rewrite lead1 by lia.
    replace (c <? 128) with true by lia.
    cbn [decode_helper]. rewrite orstep_lor, N.lor_0_l, m7F.
    rewrite N.mod_small by lia. reflexivity. }
  destruct (c <? 0x800) eqn:E2.
  { cbn [app length]. set (b0 := 192 + c / 64). set (b1 := 128 + c mod 64).
    assert (192 <= b0 < 224) by (subst b0; lia).
    assert (128 <= b1 < 192) by (subst b1; lia).
    unfold decode_character, octets_in_next.
    replace (b0 =? 0) with false by lia.
    cbn [until_nul]. replace (b0 =? 0) with false by lia. replace (b1 =? 0) with false by lia.
    cbn [octets_in_next_from_buffer].
    rewrite lead1, lead2, cont by lia.
    replace (b0 <? 128) with false by lia.
    replace ((192 <=? b0) && (b0 <? 224)) with true by lia.
    replace ((128 <=? b1) && (b1 <? 192)) with true by lia.
    cbn [decode_helper]. rewrite !orstep_lor, dec2_val.
    assert (Ec : b0 mod 32 * 64 + b1 mod 64 = c) by (subst b0 b1; lia).
    rewrite Ec. replace (c <=? 127) with false by lia. reflexivity. }
  destruct (c <? 0x10000) eqn:E3.
  { cbn [app length]. set (b0 := 224 + c / 4096). set (b1 := 128 + (c / 64) mod 64).
    set (b2 := 128 + c mod 64).
    assert (224 <= b0 < 240) by (subst b0; lia).
    assert (128 <= b1 < 192) by (subst b1; lia).
    assert (128 <= b2 < 192) by (subst b2; lia).
    unfold decode_character, octets_in_next.
    replace (b0 =? 0) with false by lia.
    cbn [until_nul]. replace (b0 =? 0) with false by lia.
    replace (b1 =? 0) with false by lia. replace (b2 =? 0) with false by lia.
    cbn [octets_in_next_from_buffer].
    rewrite lead1, lead2, lead3, !cont by lia.
    replace (b0 <? 128) with false by lia.
    replace ((192 <=? b0) && (b0 <? 224)) with false by lia.
    replace ((224 <=? b0) && (b0 <? 240)) with true by lia.
    replace ((128 <=? b1) && (b1 <? 192)) with true by lia.
    replace ((128 <=? b2) && (b2 <? 192)) with true by lia.
    cbn [andb decode_helper]. rewrite !orstep_lor, dec3_val.
    assert (Ec : b0 mod 16 * 4096 + b1 mod 64 * 64 + b2 mod 64 = c) by (subst b0 b1 b2; lia).
    rewrite Ec. replace (c <=? 2047) with false by lia. reflexivity. }
  { cbn [app length]. set (b0 := 240 + c / 262144). set (b1 := 128 + (c / 4096) mod 64).
    set (b2 := 128 + (c / 64) mod 64). set (b3 := 128 + c mod 64).
    assert (240 <= b0 < 248) by (subst b0; lia).
    assert (128 <= b1 < 192) by (subst b1; lia).
    assert (128 <= b2 < 192) by (subst b2; lia).
    assert (128 <= b3 < 192) by (subst b3; lia).
    unfold decode_character, octets_in_next.
    replace (b0 =? 0) with false by lia.
    cbn [until_nul]. replace (b0 =? 0) with false by lia.
    replace (b1 =? 0) with false by lia. replace (b2 =? 0) with false by lia.
    replace (b3 =? 0) with false by lia.
    cbn [octets_in_next_from_buffer].
    rewrite lead1, lead2, lead3, lead4, !cont by lia.
    replace (b0 <? 128) with false by lia.
    replace ((192 <=? b0) && (b0 <? 224)) with false by lia.
    replace ((224 <=? b0) && (b0 <? 240)) with false by lia.
    replace ((240 <=? b0) && (b0 <? 248)) with true by lia.
    replace ((128 <=? b1) && (b1 <? 192)) with true by lia.
    replace ((128 <=? b2) && (b2 <? 192)) with true by lia.
    replace ((128 <=? b3) && (b3 <? 192)) with true by lia.
    cbn [andb decode_helper]. rewrite !orstep_lor, dec4_val.
    assert (Ec : b0 mod 8 * 262144 + b1 mod 64 * 4096 + b2 mod 64 * 64 + b3 mod 64 = c)
      by (subst b0 b1 b2 b3; lia).
    rewrite Ec. replace (c <=? 65535) with false by lia. reflexivity. }
Qed.

(** A successful decode is of a shortest form. *)
Lemma decode_character_inv b c n :
  octets b -> decode_character b = (DecOk, c, n) ->
  0 < c /\ c < 0x200000 /\ n = length (utf8 c) /\ exists rest, b = utf8 c ++ rest.
Proof.
  intros Hb H. unfold decode_character, octets_in_next in H.
  destruct b as [|b0 t]; [discriminate|].
  destruct (b0 =? 0) eqn:Z0; [discriminate|].
  inversion Hb as [|? ? Hb0 Ht]; subst. unfold octet in Hb0.
  cbn [until_nul] in H. rewrite Z0 in H. cbn [octets_in_next_from_buffer] in H.
  rewrite lead1, lead2, lead3, lead4 in H by exact Hb0.
  destruct (b0 <? 128) eqn:L1.
  { cbn [decode_helper] in H. rewrite orstep_lor, N.lor_0_l, m7F in H.
    rewrite N.mod_small in H by lia. inversion H; subst.
    unfold utf8. rewrite L1. repeat split; try lia. exists t; reflexivity. }
  destruct ((192 <=? b0) && (b0 <? 224)) eqn:L2.
  { destruct t as [|b1 t]; [discriminate|].
    inversion Ht as [|? ? Hb1 Ht1]; subst. unfold octet in Hb1.
    destruct (b1 =? 0) eqn:Z1; [discriminate|].
    rewrite cont in H by exact Hb1.
    destruct ((128 <=? b1) && (b1 <? 192)) eqn:K1; [|discriminate].
    cbn [decode_helper] in H. rewrite !orstep_lor, dec2_val in H.
    destruct (_ <=? 127) eqn:O; [discriminate|].
    injection H as Hc Hn.
    assert (c < 2048) by lia.
    unfold utf8. replace (c <? 128) with false by lia. replace (c <? 2048) with true by lia.
    repeat split; try (cbn [length]; lia).
    exists t. cbn [app]. repeat f_equal; lia. }
  destruct ((224 <=? b0) && (b0 <? 240)) eqn:L3.
  { destruct t as [|b1 t]; [discriminate|].
    inversion Ht as [|? ? Hb1 Ht1]; subst. unfold octet in Hb1.
    destruct (b1 =? 0) eqn:Z1; [discriminate|].
    destruct t as [|b2 t]; [discriminate|].
    inversion Ht1 as [|? ? Hb2 Ht2]; subst. unfold octet in Hb2.
    destruct (b2 =? 0) eqn:Z2; [discriminate|].
    rewrite !cont in H by assumption.
    destruct ((128 <=? b1) && (b1 <? 192)) eqn:K1; [|discriminate].
    destruct ((128 <=? b2) && (b2 <? 192)) eqn:K2; [|discriminate].
    cbn [decode_helper andb] in H. rewrite !orstep_lor, dec3_val in H.
    destruct (_ <=? 2047) eqn:O; [discriminate|].
    injection H as Hc Hn.
    assert (c < 65536) by lia.
    unfold utf8. replace (c <? 128) with false by lia. replace (c <? 2048) with false by lia.
    replace (c <? 65536) with true by lia.
    repeat split; try (cbn [length]; lia).
    exists t. cbn [app]. repeat f_equal; lia. }
  destruct ((240 <=? b0) && (b0 <? 248)) eqn:L4; [|discriminate].
  destruct t as [|b1 t]; [discriminate|].
  inversion Ht as [|? ? Hb1 Ht1]; subst. unfold octet in Hb1.
  destruct (b1 =? 0) eqn:Z1; [discriminate|].
  destruct t as [|b2 t]; [discriminate|].
  inversion Ht1 as [|? ? Hb2 Ht2]; subst. unfold octet in Hb2.
  destruct (b2 =? 0) eqn:Z2; [discriminate|].
  destruct t as [|b3 t]; [discriminate|].
  inversion Ht2 as [|? ? Hb3 Ht3]; subst. unfold octet in Hb3.
  destruct (b3 =? 0) eqn:Z3; [discriminate|].
  rewrite !cont in H by assumption.
  destruct ((128 <=? b1) && (b1 <? 192)) eqn:K1; [|discriminate].
  destruct ((128 <=? b2) && (b2 <? 192)) eqn:K2; [|discriminate].
  destruct ((128 <=? b3) && (b3 <? 192)) eqn:K3; [|discriminate].
  cbn [decode_helper andb] in H. rewrite !orstep_lor, dec4_val in H.
  destruct (_ <=? 65535) eqn:O; [discriminate|].
  injection H as Hc Hn.
  assert (c < 0x200000) by lia.
  unfold utf8. replace (c <? 128) with false by lia. replace (c <? 2048) with false by lia.
  replace (c <? 65536) with false by lia.
  repeat split; try (cbn [length]; lia).
  exists t. cbn [app]. repeat f_equal; lia.
Qed.

Lemma utf8_nonempty c : (1 <= length (utf8 c) <= 4)%nat.
Proof. unfold utf8. repeat destruct (_ <? _); cbn; lia. Qed.

Lemma utf8_octets c : c < 0x200000 -> octets (utf8 c).
Proof.
  intro H; unfold utf8, octets, octet.
  destruct (c <? 0x80) eqn:E1; [repeat constructor; lia|].
  destruct (c <? 0x800) eqn:E2; [repeat constructor; lia|].
  destruct (c <? 0x10000) eqn:E3; repeat constructor; lia.
Qed.

Lemma utf8_inj_prefix c d r1 r2 :
  0 < c < 0x200000 -> 0 < d < 0x200000 -> utf8 c ++ r1 = utf8 d ++ r2 -> c = d /\ r1 = r2.
Proof.
  intros Hc Hd H.
  assert (E : decode_character (utf8 c ++ r1) = decode_character (utf8 d ++ r2)) by now rewrite H.
  rewrite !decode_utf8 in E by lia. inversion E; subst. split; [reflexivity|].
  now apply app_inv_head in H.
Qed.

Lemma utf8_nonzero c : 0 < c -> ~ In 0 (utf8 c).
Proof.
  intros H; unfold utf8.
  destruct (c <? 0x80) eqn:E1; [|destruct (c <? 0x800) eqn:E2; [|destruct (c <? 0x10000) eqn:E3]];
    cbn [In]; lia.
Qed.
