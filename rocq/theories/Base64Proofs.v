(** Proofs about Base64.v. *)
From Coq Require Import List NArith ZArith Bool Lia Arith.
From Coq Require Import ZifyBool ZifyNat ZifyN.
From Verif Require Import Base Base64.
Import ListNotations.
Local Open Scope N_scope.
Ltac Zify.zify_post_hook ::= Z.div_mod_to_equations.

Definition strip (l : list N) : list N := filter (fun c => negb (isspace c)) l.
Lemma strip_app a b : strip (a ++ b) = strip a ++ strip b.
Proof. apply filter_app. Qed.

Lemma char_num n : n < 64 -> char_into_num (base64char n) = Some n /\ isspace (base64char n) = false /\ base64char n <> 61 /\ base64char n <> 10.
Proof.
  intros H.
  assert (S : natforall 64 (fun n => match char_into_num (base64char n) with Some k => k =? n | None => false end
     && negb (isspace (base64char n)) && negb (base64char n =? 61) && negb (base64char n =? 10)) = true) by (vm_compute; reflexivity).
  pose proof (natforall_spec _ _ S n H) as K. cbv beta in K. destruct (char_into_num (base64char n)); [|discriminate].
  apply andb_prop in K as [K K4]. apply andb_prop in K as [K K3]. apply andb_prop in K as [K1 K2].
  apply N.eqb_eq in K1. subst. split; [reflexivity|]. split; [now destruct (isspace _)|]. lia.
Qed.

Definition i0 (num : N) := N.land (N.shiftr num 18) 63.
Definition i1 (num : N) := N.land (N.shiftr num 12) 63.
Definition i2 (num : N) := N.land (N.shiftr num 6) 63.
Definition i3 (num : N) := N.land num 63.
Definition num24 (a b c : N) := N.shiftl a 16 + N.shiftl b 8 + N.shiftl c 0.

Lemma land63 x : N.land x 63 = x mod 64.
Proof. change 63 with (N.ones 6). now rewrite N.land_ones. Qed.
Lemma land255 x : N.land x 255 = x mod 256.
Proof. change 255 with (N.ones 8). now rewrite N.land_ones. Qed.

Lemma quad_ok a b c : octet a -> octet b -> octet c ->
  decode_quad (i0 (num24 a b c)) (i1 (num24 a b c)) (i2 (num24 a b c)) (i3 (num24 a b c)) = [a; b; c].
Proof.
  unfold octet, decode_quad, i0, i1, i2, i3, num24. intros Ha Hb Hc.
  rewrite !land63, !land255, !N.shiftr_div_pow2, !N.shiftl_mul_pow2.
  change (2 ^ 0) with 1. change (2 ^ 6) with 64. change (2 ^ 8) with 256. change (2 ^ 12) with 4096.
  change (2 ^ 16) with 65536. change (2 ^ 18) with 262144.
  rewrite !N.mod_mod by discriminate. rewrite !N.mul_1_r, !N.div_1_r.
  set (n := a * 65536 + b * 256 + c).
  assert (E : (n / 262144) mod 64 * 262144 + (n / 4096) mod 64 * 4096 + (n / 64) mod 64 * 64 + n mod 64 = n).
  { assert (n < 64 * 262144) by lia. clearbody n. lia. }
  rewrite E. subst n. repeat f_equal; lia.
Qed.

Lemma idx_lt num : i0 num < 64 /\ i1 num < 64 /\ i2 num < 64 /\ i3 num < 64.
Proof. unfold i0, i1, i2, i3. rewrite !land63. lia. Qed.

Lemma chunk_form a b c : encode_chunk a b c =
  [base64char (i0 (num24 a b c)); base64char (i1 (num24 a b c)); base64char (i2 (num24 a b c)); base64char (i3 (num24 a b c))].
Proof. reflexivity. Qed.

Lemma pad1 a b : i3 (num24 a b 0) = 0.
Proof.
  unfold i3, num24. rewrite land63, !N.shiftl_mul_pow2. change (2 ^ 0) with 1. change (2 ^ 8) with 256. change (2 ^ 16) with 65536. lia.
Qed.
Lemma pad2 a : i2 (num24 a 0 0) = 0 /\ i3 (num24 a 0 0) = 0.
Proof.
  unfold i2, i3, num24. rewrite !land63, N.shiftr_div_pow2, !N.shiftl_mul_pow2. change (2 ^ 0) with 1. change (2 ^ 8) with 256.
  change (2 ^ 6) with 64. change (2 ^ 16) with 65536. lia.
Qed.

(** ** Decoder *)
Lemma flush d c b a t res pad :
  decode_loop64 t [d; c; b; a] res pad = decode_loop64 t [] (res ++ decode_quad a b c d) pad.
Proof. destruct t; reflexivity. Qed.

(** Normal form of the state at the top of the loop. *)
Definition norm (idx res : list N) : list N * list N :=
  match idx with [d; c; b; a] => ([], res ++ decode_quad a b c d) | _ => (idx, res) end.
Lemma loop_norm t idx res pad : decode_loop64 t idx res pad =
  decode_loop64 t (fst (norm idx res)) (snd (norm idx res)) pad.
Proof. destruct idx as [|d [|c [|b [|a [|]]]]]; try reflexivity. apply flush. Qed.

Lemma loop_cons c t idx res pad : decode_loop64 (c :: t) idx res pad =
  let idx' := fst (norm idx res) in let res' := snd (norm idx res) in
  if isspace c then decode_loop64 t idx' res' pad
  else match char_into_num (if c =? 61 then 65 else c) with
       | None => None
       | Some n => decode_loop64 t (n :: idx') res' (if c =? 61 then S pad else pad)
       end.
Proof. destruct idx as [|d [|x [|b [|a [|]]]]]; reflexivity. Qed.

Lemma loop_strip l : forall idx res pad, decode_loop64 l idx res pad = decode_loop64 (strip l) idx res pad.
Proof.
  induction l as [|c t IH]; intros idx res pad; [reflexivity|].
  cbn [strip filter]. fold (strip t). rewrite loop_cons. cbn zeta. destruct (isspace c) eqn:E; cbn [negb].
  - rewrite IH. symmetry. apply loop_norm.
  - rewrite loop_cons. cbn zeta. rewrite E. destruct (char_into_num _); [apply IH | reflexivity].
Qed.

Lemma loop_char n t idx res pad : n < 64 -> (length idx < 4)%nat ->
  decode_loop64 (base64char n :: t) idx res pad = decode_loop64 t (n :: idx) res pad.
Proof.
  intros Hn Hl. destruct (char_num n Hn) as (E1 & E2 & E3 & _).
  rewrite loop_cons. cbn zeta. rewrite E2. replace (base64char n =? 61) with false by lia. rewrite E1.
  destruct idx as [|d [|x [|b [|a [|]]]]]; cbn in Hl; try lia; reflexivity.
Qed.
Lemma loop_eq t idx res pad : (length idx < 4)%nat ->
  decode_loop64 (61 :: t) idx res pad = decode_loop64 t (0 :: idx) res (S pad).
Proof.
  intros Hl. rewrite loop_cons. cbn zeta. cbn [isspace N.eqb Pos.eqb].
  destruct idx as [|d [|x [|b [|a [|]]]]]; cbn in Hl; try lia; reflexivity.
Qed.

Lemma loop_chunk a b c t res pad : octet a -> octet b -> octet c ->
  decode_loop64 (encode_chunk a b c ++ t) [] res pad = decode_loop64 t [] (res ++ [a; b; c]) pad.
Proof.
  intros Ha Hb Hc. rewrite chunk_form. destruct (idx_lt (num24 a b c)) as (L0 & L1 & L2 & L3).
  cbn [app]. rewrite !loop_char by (assumption || (cbn; lia)). rewrite flush, quad_ok by assumption. reflexivity.
Qed.
Lemma loop_chunk1 a b t res pad : octet a -> octet b ->
  decode_loop64 (firstn 3 (encode_chunk a b 0) ++ 61 :: t) [] res pad
  = decode_loop64 t [] (res ++ [a; b; 0]) (S pad).
Proof.
  intros Ha Hb. rewrite chunk_form. destruct (idx_lt (num24 a b 0)) as (L0 & L1 & L2 & L3).
  cbn [firstn app]. rewrite !loop_char by (assumption || (cbn; lia)). rewrite loop_eq by (cbn; lia).
  assert (Z0 : octet 0) by (unfold octet; lia).
  pose proof (quad_ok a b 0 Ha Hb Z0) as Q. rewrite (pad1 a b) in Q. rewrite flush, Q. reflexivity.
Qed.
Lemma loop_chunk2 a t res pad : octet a ->
  decode_loop64 (firstn 2 (encode_chunk a 0 0) ++ 61 :: 61 :: t) [] res pad
  = decode_loop64 t [] (res ++ [a; 0; 0]) (S (S pad)).
Proof.
  intros Ha. rewrite chunk_form. destruct (idx_lt (num24 a 0 0)) as (L0 & L1 & L2 & L3).
  cbn [firstn app]. rewrite !loop_char by (assumption || (cbn; lia)). rewrite !loop_eq by (cbn; lia).
  assert (Z0 : octet 0) by (unfold octet; lia).
  pose proof (quad_ok a 0 0 Ha Z0 Z0) as Q. destruct (pad2 a) as [P1 P2]. rewrite P1, P2 in Q.
  rewrite flush, Q. reflexivity.
Qed.

(** ** Encoder: what its output is after removing line breaks *)
Fixpoint code (l : list N) : list N :=
  match l with
  | [] => []
  | [a] => firstn 2 (encode_chunk a 0 0) ++ [61; 61]
  | [a; b] => firstn 3 (encode_chunk a b 0) ++ [61]
  | a :: b :: c :: t => encode_chunk a b c ++ code t
  end.

Lemma list3_ind (P : list N -> Prop) : P [] -> (forall a, P [a]) -> (forall a b, P [a; b]) ->
  (forall a b c t, P t -> P (a :: b :: c :: t)) -> forall l, P l.
Proof.
  intros H0 H1 H2 H3. assert (G : forall n l, (length l <= n)%nat -> P l).
  { induction n as [|n IH]; intros l Hl.
    - destruct l; [exact H0 | cbn in Hl; lia].
    - destruct l as [|a [|b [|c t]]]; auto. apply H3, IH. cbn in Hl. lia. }
  intros l. now apply (G (length l)).
Qed.

Lemma code_decodes l : octets l -> forall res,
  decode_loop64 (code l) [] res 0 =
  let pad := match Nat.modulo (length l) 3 with O => O | k => (3 - k)%nat end in
  Some (res ++ l ++ repeat 0 pad, O, pad).
Proof.
  induction l as [|a|a b|a b c t IH] using list3_ind; intros Ho res.
  - cbn. now rewrite app_nil_r.
  - inversion Ho; subst. cbn [code]. now rewrite loop_chunk2.
  - inversion Ho as [|? ? ? Ho2]; subst. inversion Ho2; subst. cbn [code]. now rewrite loop_chunk1.
  - inversion Ho as [|? ? ? Ho2]; subst. inversion Ho2 as [|? ? ? Ho3]; subst. inversion Ho3; subst.
    cbn [code]. rewrite loop_chunk by assumption. rewrite IH by assumption. cbn zeta.
    replace (Nat.modulo (length (a :: b :: c :: t)) 3) with (Nat.modulo (length t) 3).
    + do 3 f_equal. now rewrite <- app_assoc.
    + cbn [length]. replace (S (S (S (length t)))) with (length t + 1 * 3)%nat by lia. now rewrite Nat.mod_add.
Qed.

(** Pushing one of the characters: [brk] tells whether a newline follows. *)
Definition okstate (L : nat) (s : encstate) : Prop :=
  (0 <= snd s)%Z /\ ((0 < L)%nat -> (snd s < Z.of_nat L)%Z).
Lemma push64_form L s c : okstate L s -> (Z.of_nat L < 2 ^ 64)%Z ->
  exists nl cl, push64 L s c = (fst s ++ c :: nl, cl) /\ okstate L (push64 L s c) /\ (nl = [] \/ nl = [10])
    /\ (nl = [10] -> cl = 0%Z) /\ (nl = [10] -> snd s = 0%Z -> L = 1%nat) /\ (L = 1%nat -> nl = [10]).
Proof.
  destruct s as [out cl]. unfold okstate. cbn [fst snd]. intros [H1 H2] HL. unfold push64.
  set (cl' := ((cl + 1) mod 2 ^ 64)%Z).
  assert (Hc : (0 <= cl')%Z) by (unfold cl'; apply Z.mod_pos_bound; lia).
  assert (Hs : (0 < L)%nat -> (cl' = cl + 1)%Z) by (intros; unfold cl'; rewrite Z.mod_small; lia).
  clearbody cl'. destruct ((0 <? L)%nat && (Z.of_nat L <=? cl')%Z) eqn:E.
  - exists [10], 0%Z. rewrite <- app_assoc. cbn [app snd]. repeat split; auto; lia.
  - exists [], cl'. cbn [snd]. repeat split; auto; try lia; try discriminate.
Qed.

Lemma strip_nl nl : nl = [] \/ nl = [10] -> strip nl = [].
Proof. intros [-> | ->]; reflexivity. Qed.
Lemma strip_char c : isspace c = false -> strip [c] = [c].
Proof. intros H. cbn. now rewrite H. Qed.

Lemma strip_unit c nl : isspace c = false -> nl = [] \/ nl = [10] -> strip (c :: nl) = [c].
Proof. intros H [-> | ->]; cbn; rewrite H; reflexivity. Qed.

Lemma chunk_push L s a b c : okstate L s -> (Z.of_nat L < 2 ^ 64)%Z ->
  exists n1 n2 n3 n4 cl, let ch := fun i => nth i (encode_chunk a b c) 0 in
    fold_left (push64 L) (encode_chunk a b c) s
    = (fst s ++ (ch 0%nat :: n1) ++ (ch 1%nat :: n2) ++ (ch 2%nat :: n3) ++ (ch 3%nat :: n4), cl)
    /\ okstate L (fold_left (push64 L) (encode_chunk a b c) s)
    /\ Forall (fun n => n = [] \/ n = [10]) [n1; n2; n3; n4]
    /\ (n3 = [10] -> n4 = [10] -> n1 = [10]).
Proof.
  intros Hs HL. cbn zeta.
  set (ch := encode_chunk a b c). assert (Ech : ch = [nth 0 ch 0; nth 1 ch 0; nth 2 ch 0; nth 3 ch 0]) by reflexivity.
  set (c0 := nth 0 ch 0) in *. set (c1 := nth 1 ch 0) in *. set (c2 := nth 2 ch 0) in *. set (c3 := nth 3 ch 0) in *.
  clearbody c0 c1 c2 c3. rewrite Ech. cbn [fold_left].
  destruct (push64_form L s c0 Hs HL) as (n1 & l1 & E1 & O1 & N1 & Z1 & _ & B1).
  destruct (push64_form L _ c1 O1 HL) as (n2 & l2 & E2 & O2 & N2 & Z2 & _).
  destruct (push64_form L _ c2 O2 HL) as (n3 & l3 & E3 & O3 & N3 & Z3 & _).
  destruct (push64_form L _ c3 O3 HL) as (n4 & l4 & E4 & O4 & N4 & Z4 & S4 & _).
  exists n1, n2, n3, n4, l4. split.
  - rewrite E4, E3, E2, E1. cbn [fst]. rewrite <- !app_assoc. cbn [app]. reflexivity.
  - split; [exact O4|]. split; [apply Forall_cons; [exact N1|]; apply Forall_cons; [exact N2|]; apply Forall_cons; [exact N3|]; apply Forall_cons; [exact N4|]; apply Forall_nil|].
    intros H3 H4. apply B1, S4; [exact H4|]. rewrite E3. cbn [snd]. now apply Z3.
Qed.

(** Removing one character. *)
Lemma remove_step f i removed pad out x cl : (i < length (out ++ [x]))%nat ->
  remove_zeros (S f) i removed pad (out ++ [x], cl) =
  (let '(r, cl') := if negb (x =? 10) then (S removed, ((cl - 1) mod 2 ^ 64)%Z) else (removed, Z.of_nat (last_line (out ++ [x]))) in
   if Nat.eqb r pad then Ret (out, cl') else remove_zeros f (S i) r pad (out, cl')).
Proof.
  intros Hi. cbn [remove_zeros]. destruct (Nat.ltb_spec i (length (out ++ [x]))); [|lia].
  rewrite last_last, removelast_last. reflexivity.
Qed.

(** One character with its optional line break, when the counter allows it. *)
Lemma remove_unit f i removed pad out x nl cl : x <> 10 -> nl = [] \/ nl = [10] ->
  (removed < pad)%nat -> (i + length nl < length (out ++ [x]))%nat ->
  exists cl', remove_zeros (S (S f)) i removed pad (out ++ x :: nl, cl) =
    if Nat.eqb (S removed) pad then Ret (out, cl')
    else remove_zeros (S f - length nl) (S i + length nl) (S removed) pad (out, cl').
Proof.
  intros Hx Hnl Hr Hl. destruct Hnl as [-> | ->]; cbn [length] in *.
  - rewrite remove_step by lia. replace (x =? 10) with false by lia. cbn [negb].
    eexists. rewrite Nat.add_0_r. reflexivity.
  - change (out ++ [x; 10]) with (out ++ [x] ++ [10]). rewrite app_assoc.
    rewrite remove_step by (rewrite app_length; cbn; lia). cbn [N.eqb Pos.eqb negb].
    destruct (Nat.eqb_spec removed pad); [lia|]. rewrite remove_step by lia.
    replace (x =? 10) with false by lia. cbn [negb]. eexists.
    replace (S f - 1)%nat with f by lia. replace (S i + 1)%nat with (S (S i)) by lia. reflexivity.
Qed.

Lemma push_padding_strip n L : forall s, strip (fst (push_padding n L s)) = strip (fst s) ++ repeat 61 n.
Proof.
  induction n as [|n IH]; intros [out cl]; cbn [push_padding]; [cbn; now rewrite app_nil_r|].
  destruct (_ && _); rewrite IH; cbn [fst repeat]; rewrite !strip_app; cbn; rewrite <- ?app_assoc; reflexivity.
Qed.

Lemma chunk_nospace a b c i : (i < 4)%nat ->
  isspace (nth i (encode_chunk a b c) 0) = false /\ nth i (encode_chunk a b c) 0 <> 10.
Proof.
  intros Hi. rewrite chunk_form. destruct (idx_lt (num24 a b c)) as (L0 & L1 & L2 & L3).
  destruct i as [|[|[|[|i]]]]; [..|lia]; cbn [nth];
    match goal with |- isspace (base64char ?n) = _ /\ _ =>
      destruct (char_num n) as (_ & E & _ & E2); [assumption|]; auto end.
Qed.

Lemma encode_loop_strip L l : octets l -> (Z.of_nat L < 2 ^ 64)%Z -> forall s, okstate L s ->
  let pad := match Nat.modulo (length l) 3 with O => O | k => (3 - k)%nat end in
  exists s', (match pad with O => Ret (encode_loop64 L l s)
              | _ => remove_zeros (S (length (fst (encode_loop64 L l s)))) 0 0 pad (encode_loop64 L l s) end) = Ret s'
    /\ strip (fst s') ++ repeat 61 pad = strip (fst s) ++ code l.
Proof.
  intros Ho HL. revert Ho. induction l as [|a|a b|a b c t IH] using list3_ind; intros Ho s Hs.
  - cbn. eexists; split; [reflexivity|]. reflexivity.
  - cbn [length encode_loop64].
    change (match Nat.modulo 1 3 with O => O | S k => (3 - S k)%nat end) with 2%nat. cbn zeta. cbn match.
    destruct (chunk_push L s a 0 0 Hs HL) as (n1 & n2 & n3 & n4 & cl & E & _ & F & G). cbn zeta in E. rewrite E. cbn [fst].
    inversion F as [|? ? N1 F1]; subst. inversion F1 as [|? ? N2 F2]; subst. inversion F2 as [|? ? N3 F3]; subst.
    inversion F3 as [|? ? N4 _]; subst.
    pose proof (chunk_nospace a 0 0 0 ltac:(lia)) as [S0 _]. pose proof (chunk_nospace a 0 0 1 ltac:(lia)) as [S1 _].
    pose proof (chunk_nospace a 0 0 2 ltac:(lia)) as [_ X2]. pose proof (chunk_nospace a 0 0 3 ltac:(lia)) as [_ X3].
    cbn [code]. set (ch := encode_chunk a 0 0) in *.
    assert (Ef : firstn 2 ch = [nth 0 ch 0; nth 1 ch 0]) by reflexivity. rewrite Ef. clearbody ch. clear Ef E.
    set (out := fst s ++ (nth 0 ch 0 :: n1) ++ nth 1 ch 0 :: n2).
    replace (fst s ++ (nth 0 ch 0 :: n1) ++ (nth 1 ch 0 :: n2) ++ (nth 2 ch 0 :: n3) ++ nth 3 ch 0 :: n4)
      with ((out ++ nth 2 ch 0 :: n3) ++ nth 3 ch 0 :: n4) by (unfold out; rewrite <- !app_assoc; reflexivity).
    assert (Lo : (length out >= 2 + length n1)%nat) by (unfold out; rewrite !app_length; cbn; lia).
    assert (B4 : (length n4 <= 1)%nat) by (destruct N4 as [-> | ->]; cbn; lia).
    assert (B3 : (length n3 <= 1)%nat) by (destruct N3 as [-> | ->]; cbn; lia).
    assert (G' : (length n3 + length n4 <= 1 + length n1)%nat).
    { destruct N3 as [-> | ->], N4 as [-> | ->]; cbn; try lia. rewrite G by reflexivity. cbn. lia. }
    match goal with |- context [remove_zeros (S ?m) _ _ _ _] => set (fuel := m) end.
    assert (Lf : (fuel >= 4)%nat) by (unfold fuel; rewrite !app_length; cbn; lia). clearbody fuel.
    destruct fuel as [|fuel]; [lia|].
    destruct (remove_unit fuel 0 0 2 (out ++ nth 2 ch 0 :: n3) (nth 3 ch 0) n4 cl X3 N4) as (cl1 & ->);
      [lia | rewrite !app_length; cbn; lia|].
    cbn [Nat.eqb].
    destruct (S fuel - length n4)%nat as [|[|f2]] eqn:Ef; [lia|lia|].
    destruct (remove_unit f2 (1 + length n4) 1 2 out (nth 2 ch 0) n3 cl1 X2 N3) as (cl2 & ->);
      [lia | rewrite app_length; cbn; lia|].
    cbn [Nat.eqb]. eexists. split; [reflexivity|]. cbn [fst repeat]. unfold out.
    rewrite !strip_app, !strip_unit by assumption. rewrite <- app_assoc. reflexivity.
  - cbn [length encode_loop64].
    change (match Nat.modulo 2 3 with O => O | S k => (3 - S k)%nat end) with 1%nat. cbn zeta. cbn match.
    destruct (chunk_push L s a b 0 Hs HL) as (n1 & n2 & n3 & n4 & cl & E & _ & F & G). cbn zeta in E. rewrite E. cbn [fst].
    inversion F as [|? ? N1 F1]; subst. inversion F1 as [|? ? N2 F2]; subst. inversion F2 as [|? ? N3 F3]; subst.
    inversion F3 as [|? ? N4 _]; subst.
    pose proof (chunk_nospace a b 0 0 ltac:(lia)) as [S0 _]. pose proof (chunk_nospace a b 0 1 ltac:(lia)) as [S1 _].
    pose proof (chunk_nospace a b 0 2 ltac:(lia)) as [S2 _]. pose proof (chunk_nospace a b 0 3 ltac:(lia)) as [_ X3].
    cbn [code]. set (ch := encode_chunk a b 0) in *.
    assert (Ef : firstn 3 ch = [nth 0 ch 0; nth 1 ch 0; nth 2 ch 0]) by reflexivity. rewrite Ef. clearbody ch. clear Ef E.
    set (out := fst s ++ (nth 0 ch 0 :: n1) ++ (nth 1 ch 0 :: n2) ++ nth 2 ch 0 :: n3).
    replace (fst s ++ (nth 0 ch 0 :: n1) ++ (nth 1 ch 0 :: n2) ++ (nth 2 ch 0 :: n3) ++ nth 3 ch 0 :: n4)
      with (out ++ nth 3 ch 0 :: n4) by (unfold out; rewrite <- !app_assoc; reflexivity).
    assert (Lo : (length out >= 3)%nat) by (unfold out; rewrite !app_length; cbn; lia).
    assert (B4 : (length n4 <= 1)%nat) by (destruct N4 as [-> | ->]; cbn; lia).
    match goal with |- context [remove_zeros (S ?m) _ _ _ _] => set (fuel := m) end.
    assert (Lf : (fuel >= 4)%nat) by (unfold fuel; rewrite !app_length; cbn; lia). clearbody fuel.
    destruct fuel as [|fuel]; [lia|].
    destruct (remove_unit fuel 0 0 1 out (nth 3 ch 0) n4 cl X3 N4) as (cl1 & ->);
      [lia | rewrite !app_length; cbn; lia|].
    cbn [Nat.eqb]. eexists. split; [reflexivity|]. cbn [fst repeat]. unfold out.
    rewrite !strip_app, !strip_unit by assumption. rewrite <- app_assoc. reflexivity.
  - inversion Ho as [|? ? ? Ho2]; subst. inversion Ho2 as [|? ? ? Ho3]; subst. inversion Ho3 as [|? ? ? Ho4]; subst.
    destruct (chunk_push L s a b c Hs HL) as (n1 & n2 & n3 & n4 & cl & E & O4 & F & _). cbn zeta in E.
    specialize (IH Ho4 _ O4). cbn zeta in *.
    replace (Nat.modulo (length (a :: b :: c :: t)) 3) with (Nat.modulo (length t) 3)
      by (cbn [length]; replace (S (S (S (length t)))) with (length t + 1 * 3)%nat by lia; now rewrite Nat.mod_add).
    change (encode_loop64 L (a :: b :: c :: t) s) with (encode_loop64 L t (fold_left (push64 L) (encode_chunk a b c) s)).
    destruct IH as (s' & E' & H'). exists s'. split; [exact E'|]. rewrite H'. cbn [code]. rewrite app_assoc. f_equal.
    rewrite E. cbn [fst].
    pose proof (chunk_nospace a b c 0 ltac:(lia)) as [S0 _]. pose proof (chunk_nospace a b c 1 ltac:(lia)) as [S1 _].
    pose proof (chunk_nospace a b c 2 ltac:(lia)) as [S2 _]. pose proof (chunk_nospace a b c 3 ltac:(lia)) as [S3 _].
    inversion F as [|? ? N1 F1]; subst. inversion F1 as [|? ? N2 F2]; subst. inversion F2 as [|? ? N3 F3]; subst.
    inversion F3 as [|? ? N4 _]; subst.
    set (ch := encode_chunk a b c) in *. assert (Ef : ch = [nth 0 ch 0; nth 1 ch 0; nth 2 ch 0; nth 3 ch 0]) by reflexivity.
    clearbody ch. rewrite Ef at 5.
    rewrite !strip_app, !strip_unit by assumption. reflexivity.
Qed.

Lemma encode_ok l L : octets l -> (Z.of_nat L < 2 ^ 64)%Z ->
  exists t, base64_encode l L = Ret t /\ strip t = code l.
Proof.
  intros Ho HL. unfold base64_encode.
  destruct (encode_loop_strip L l Ho HL ([], 0%Z)) as (s' & E & H).
  { split; cbn; lia. }
  cbn zeta in *. rewrite E. cbn [obind]. eexists. split; [reflexivity|].
  rewrite push_padding_strip, H. reflexivity.
Qed.

Lemma rev_repeat0 {X} (x : X) n : rev (repeat x n) = repeat x n.
Proof.
  induction n as [|n IH]; [reflexivity|]. cbn [repeat rev]. rewrite IH. clear IH.
  induction n as [|n IH]; [reflexivity|]. cbn. now rewrite IH.
Qed.
Lemma drop_zero n r : drop_paddings n (repeat 0 n ++ r) = Ret r.
Proof. induction n as [|n IH]; [reflexivity|]. cbn. exact IH. Qed.

Lemma code_length l : l <> [] -> (4 <= length (code l))%nat.
Proof. intros H. destruct l as [|a [|b [|c t]]]; cbn; [congruence|lia|lia|lia]. Qed.
Lemma strip_length l : (length (strip l) <= length l)%nat.
Proof. induction l as [|c t IH]; cbn; [lia|]. destruct (isspace c); cbn; unfold strip in IH; lia. Qed.

Lemma round_trip l L : octets l -> l <> [] -> (Z.of_nat L < 2 ^ 64)%Z ->
  exists t, base64_encode l L = Ret t /\ base64_decode t = Ret (Some l).
Proof.
  intros Ho Hne HL. destruct (encode_ok l L Ho HL) as (t & E & Hs). exists t. split; [exact E|].
  unfold base64_decode. pose proof (code_length l Hne). pose proof (strip_length t). rewrite Hs in *.
  destruct (Nat.ltb_spec (length t) 2); [lia|]. rewrite loop_strip, Hs, code_decodes by assumption. cbn zeta. cbn [app].
  set (pad := match Nat.modulo (length l) 3 with O => O | S k => (3 - S k)%nat end).
  rewrite app_length, repeat_length. cbn [Nat.eqb negb orb].
  destruct (Nat.leb_spec (length l + pad) pad); [destruct l; [congruence | cbn in *; lia]|].
  rewrite rev_app_distr, rev_repeat0, drop_zero. cbn [obind]. now rewrite rev_involutive.
Qed.

(** ** When decoding cannot crash *)
Lemma drop_padding_ok r : (exists c, In c r /\ isspace c = false) -> exists r', drop_padding r = Ret r'.
Proof.
  induction r as [|c t IH]; intros (x & Hi & Hx); [destruct Hi|]. cbn. destruct (isspace c) eqn:E; [|eauto].
  apply IH. destruct Hi as [<-|Hi]; [congruence | eauto].
Qed.

Lemma drop_paddings_space n : forall r,
  if (length (strip r) <? n)%nat then drop_paddings n r = Undef else exists r', drop_paddings n r = Ret r'.
Proof.
  assert (D : forall r, (strip r = [] /\ drop_padding r = Undef) \/
      exists c r', strip r = c :: strip r' /\ drop_padding r = Ret r').
  { induction r as [|c t IH]; [now left|]. cbn [strip filter drop_padding]. fold (strip t).
    destruct (isspace c) eqn:E; cbn [negb]; [exact IH|]. right. eauto. }
  induction n as [|n IH]; intros r; [cbn; eauto|]. cbn [drop_paddings].
  destruct (D r) as [[E1 ->] | (c & r' & E1 & ->)]; rewrite E1; cbn [obind].
  - cbn [length]. destruct (Nat.ltb_spec 0 (S n)); [reflexivity | lia].
  - cbn [length]. specialize (IH r').
    replace (S (length (strip r')) <? S n)%nat with (length (strip r') <? n)%nat by lia. exact IH.
Qed.

Lemma loop_no_padding t : ~ In 61 t -> forall idx res pad r k p,
  decode_loop64 t idx res pad = Some (r, k, p) -> p = pad.
Proof.
  induction t as [|c t IH]; intros Hn idx res pad r k p E.
  - rewrite loop_norm in E. cbn [decode_loop64] in E.
    destruct (fst (norm idx res)) as [|d [|x [|b [|a [|]]]]]; congruence.
  - rewrite loop_cons in E. cbn zeta in E.
    assert (Hc : (c =? 61) = false) by (apply N.eqb_neq; intros ->; apply Hn; cbn; auto). rewrite Hc in E.
    destruct (isspace c); [apply (IH (fun h => Hn (or_intror h)) _ _ _ _ _ _ E)|].
    destruct (char_into_num c); [|discriminate]. apply (IH (fun h => Hn (or_intror h)) _ _ _ _ _ _ E).
Qed.

Lemma decode_no_padding t : ~ In 61 t -> exists r, base64_decode t = Ret r.
Proof.
  intros Hn. unfold base64_decode. destruct (_ <? _)%nat; [eauto|].
  destruct (decode_loop64 t [] [] 0) as [[[res k] p]|] eqn:E; [|eauto].
  apply (loop_no_padding t Hn) in E as ->. destruct (_ || _); [eauto|]. cbn. eauto.
Qed.
Lemma decode_outcome t : base64_decode t = Undef \/ exists r, base64_decode t = Ret r.
Proof.
  unfold base64_decode. destruct (_ <? _)%nat; [eauto|].
  destruct (decode_loop64 t [] [] 0) as [[[res k] p]|] eqn:E; [|eauto].
  destruct (_ || _); [eauto|]. pose proof (drop_paddings_space p (rev res)) as D.
  destruct (_ <? _)%nat; [rewrite D; auto | destruct D as (r' & ->); cbn; eauto].
Qed.
