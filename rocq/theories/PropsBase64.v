(** Properties C23, C24: Base64. *)
From Coq Require Import List NArith ZArith Bool Lia Arith.
From Coq Require Import ZifyBool ZifyNat ZifyN.
From Verif Require Import Base Base64 SpecBase64 Base64Proofs.
Import ListNotations.
Local Open Scope N_scope.

(** ** C23: for every non-empty octet sequence and every line length (a
    size_t). *)
Theorem C23_base64_round_trip : forall (data : list N) (lineLen : nat),
  octets data -> data <> [] -> (Z.of_nat lineLen < 2 ^ 64)%Z ->
  exists text, base64_encode data lineLen = Ret text /\ base64_decode text = Ret (Some data).
Proof. exact round_trip. Qed.
Print Assumptions C23_base64_round_trip.

(** "any carnal" with lines of 5 characters: "YW55I\nGNhcm\n5hbA==" *)
Example C23_witness :
  base64_encode [97;110;121;32;99;97;114;110;97;108] 5
  = Ret [89;87;53;53;73;10;71;78;104;99;109;10;53;104;98;65;61;61]
  /\ base64_decode [89;87;53;53;73;10;71;78;104;99;109;10;53;104;98;65;61;61]
  = Ret (Some [97;110;121;32;99;97;114;110;97;108]).
Proof. split; vm_compute; reflexivity. Qed.

(** ** C24: refuted: decoding "IC==" removes its two padding octets and the
    white space before them, and then peeks into an empty vector. *)
Theorem C24_decoding_is_safe_refuted : base64_decode [73; 67; 61; 61] = Undef.
Proof. vm_compute. reflexivity. Qed.
Print Assumptions C24_decoding_is_safe_refuted.

(** Texts without padding characters, and every text the encoder produces, are
    decoded safely; no input makes the decoder abort or run forever. *)
Theorem C24_decoding_is_safe_partial :
  (forall text, ~ In 61 text -> exists r, base64_decode text = Ret r) /\
  (forall data lineLen text, octets data -> data <> [] -> (Z.of_nat lineLen < 2 ^ 64)%Z ->
     base64_encode data lineLen = Ret text -> exists r, base64_decode text = Ret r) /\
  (forall text, base64_decode text = Undef \/ exists r, base64_decode text = Ret r).
Proof.
  split; [exact decode_no_padding|]. split; [|exact decode_outcome].
  intros data L text Ho Hne HL E. destruct (round_trip data L Ho Hne HL) as (t & E1 & E2).
  rewrite E in E1. injection E1 as ->. eauto.
Qed.
Print Assumptions C24_decoding_is_safe_partial.

Example C24_witness : base64_decode [89; 87; 74; 106] = Ret (Some [97; 98; 99]).
Proof. vm_compute. reflexivity. Qed.

(** ** C70 *)
Lemma digit64_char n : n < 64 -> base64char n = digit64 n.
Proof.
  intros H. assert (A : forall k, (k < 64)%nat -> base64char (N.of_nat k) = digit64 (N.of_nat k)).
  { intros k Hk. do 64 (destruct k as [|k]; [reflexivity|]). lia. }
  rewrite <- (N2Nat.id n). apply A. lia.
Qed.
Lemma digits a b c : octet a -> octet b -> octet c -> encode_chunk a b c =
  [digit64 (a / 4); digit64 (a mod 4 * 16 + b / 16); digit64 (b mod 16 * 4 + c / 64); digit64 (c mod 64)].
Proof.
  unfold octet. intros Ha Hb Hc. rewrite chunk_form. destruct (idx_lt (num24 a b c)) as (L0 & L1 & L2 & L3). rewrite !digit64_char by assumption.
  clear L0 L1 L2 L3. unfold i0, i1, i2, i3, num24. rewrite !land63, !N.shiftr_div_pow2, !N.shiftl_mul_pow2.
  change (2 ^ 0) with 1. change (2 ^ 6) with 64. change (2 ^ 8) with 256. change (2 ^ 12) with 4096. change (2 ^ 16) with 65536. change (2 ^ 18) with 262144.
  assert (E0 : (a * 65536 + b * 256 + c * 1) / 262144 mod 64 = a / 4) by lia.
  assert (E1 : (a * 65536 + b * 256 + c * 1) / 4096 mod 64 = a mod 4 * 16 + b / 16) by lia.
  assert (E2 : (a * 65536 + b * 256 + c * 1) / 64 mod 64 = b mod 16 * 4 + c / 64) by lia.
  assert (E3 : (a * 65536 + b * 256 + c * 1) mod 64 = c mod 64) by lia.
  now rewrite E0, E1, E2, E3.
Qed.
Lemma code_rfc l : octets l -> code l = rfc4648 l.
Proof.
  induction l as [|a|a b|a b c t IH] using list3_ind; intros Ho; [reflexivity| | |].
  - inversion Ho; subst. cbn [code rfc4648]. rewrite digits; [|assumption|unfold octet; lia..]. cbn [firstn app]. 
    replace (a mod 4 * 16 + 0 / 16) with (a mod 4 * 16) by (cbn; lia). reflexivity.
  - inversion Ho as [|? ? ? Ho2]; subst. inversion Ho2; subst. cbn [code rfc4648]. rewrite digits; [|assumption|assumption|unfold octet; lia]. cbn [firstn app].
    replace (b mod 16 * 4 + 0 / 64) with (b mod 16 * 4) by (cbn; lia). reflexivity.
  - inversion Ho as [|? ? ? Ho2]; subst. inversion Ho2 as [|? ? ? Ho3]; subst. inversion Ho3; subst. cbn [code rfc4648]. rewrite digits by assumption. now rewrite IH.
Qed.
Definition printed (c : N) : Prop := c = 10 \/ isspace c = false.
Lemma push64_printed L s c : Forall printed (fst s) -> isspace c = false -> Forall printed (fst (push64 L s c)).
Proof.
  destruct s as [out cl]. unfold push64. cbn [fst]. intros F S.
  assert (F1 : Forall printed (out ++ [c])) by (apply Forall_app; split; [exact F|constructor; [now right|constructor]]).
  destruct (_ && _); cbn [fst]; [|exact F1]. apply Forall_app. split; [exact F1|constructor; [now left|constructor]].
Qed.
Lemma pushes_printed L l : forall s, Forall printed (fst s) -> (forall c, In c l -> isspace c = false) -> Forall printed (fst (fold_left (push64 L) l s)).
Proof. induction l as [|c l IH]; intros s F A; cbn [fold_left]; [exact F|]. apply IH; [apply push64_printed; [exact F|apply A; now left]|intros; apply A; now right]. Qed.
Lemma chunk_printed a b c x : In x (encode_chunk a b c) -> isspace x = false.
Proof. intros I. apply (In_nth _ _ 0) in I as (i & L & <-). apply chunk_nospace. exact L. Qed.
Lemma loop_printed L l : forall s, Forall printed (fst s) -> Forall printed (fst (encode_loop64 L l s)).
Proof.
  induction l as [|a|a b|a b c t IH] using list3_ind; intros s F; cbn [encode_loop64]; [exact F|..]; try apply IH; apply pushes_printed; auto; intros; eapply chunk_printed; eauto.
Qed.
Lemma remove_printed fuel : forall i removed pad s s', remove_zeros fuel i removed pad s = Ret s' -> Forall printed (fst s) -> Forall printed (fst s').
Proof.
  induction fuel as [|f IH]; intros i removed pad [out cl] s' E F; cbn [remove_zeros] in E; destruct (Nat.ltb i (length out)); try discriminate; try (injection E as <-; exact F).
  assert (F' : Forall printed (removelast out)).
  { cbn in F. clear - F. induction out as [|x [|y out] IH]; [exact F|constructor|]. inversion F; subst. constructor; [assumption|now apply IH]. }
  destruct (if negb _ then _ else _) as [r cl']. destruct (Nat.eqb r pad); [injection E as <-; exact F'|]. eapply IH; [exact E|exact F'].
Qed.
Lemma padding_printed n L : forall s, Forall printed (fst s) -> Forall printed (fst (push_padding n L s)).
Proof.
  induction n as [|n IH]; intros [out cl] F; cbn [push_padding]; [exact F|]. cbn [fst] in F. destruct (_ && _); apply IH; cbn [fst]; repeat (apply Forall_app; split); auto; (constructor; [first [now left|now right]|constructor]).
Qed.
Lemma encode_printed l L t : base64_encode l L = Ret t -> Forall printed t.
Proof.
  unfold base64_encode. set (pad := match _ with O => O | _ => _ end). clearbody pad. set (s := encode_loop64 L l ([], 0%Z)).
  assert (F : Forall printed (fst s)) by (apply loop_printed; constructor). clearbody s.
  destruct pad as [|p]; cbn [obind].
  - intros [= <-]. exact F.
  - destruct (remove_zeros _ 0 0 (S p) s) as [s'| | | | |] eqn:E; try discriminate. unfold obind. intros EE. injection EE as <-. apply (padding_printed (S p)). eapply remove_printed; eauto.
Qed.
Lemma printed_strip t : Forall printed t -> without_newlines t = strip t.
Proof.
  unfold without_newlines, strip, newline. induction 1 as [|c t [->|P] F IH]; [reflexivity|exact IH|]. cbn [filter]. rewrite IH, P.
  destruct (N.eqb_spec c 10) as [->|]; [discriminate P|reflexivity].
Qed.
(** The text is the standard encoding of the octets with newlines in it. *)
Theorem C70_standard_encoding : forall data lineLen, octets data -> (Z.of_nat lineLen < 2 ^ 64)%Z ->
  exists text, base64_encode data lineLen = Ret text /\ without_newlines text = rfc4648 data.
Proof.
  intros l L Ho HL. destruct (encode_ok l L Ho HL) as (t & E & S). exists t. split; [exact E|]. rewrite printed_strip, S, code_rfc; auto. eapply encode_printed; eauto.
Qed.
Print Assumptions C70_standard_encoding.

(** Without a line length there are no newlines. *)
Lemma push0 s c : fst (push64 0 s c) = fst s ++ [c].
Proof. destruct s. reflexivity. Qed.
Lemma pushes0 l : forall s, fst (fold_left (push64 0) l s) = fst s ++ l.
Proof. induction l as [|c l IH]; intros s; cbn [fold_left]; [now rewrite app_nil_r|]. rewrite IH, push0, <- app_assoc. reflexivity. Qed.
Lemma loop0 l : forall s, ~ In 10 (fst s) -> ~ In 10 (fst (encode_loop64 0 l s)).
Proof.
  assert (K : forall a b c s, ~ In 10 (fst s) -> ~ In 10 (fst (fold_left (push64 0) (encode_chunk a b c) s))).
  { intros a b c s N I. rewrite pushes0 in I. apply in_app_or in I as [I|I]; [auto|]. apply chunk_printed in I. discriminate. }
  induction l as [|a|a b|a b c t IH] using list3_ind; intros s F; cbn [encode_loop64]; [exact F|..]; try apply IH; apply K, F.
Qed.
Lemma remove0 fuel : forall i removed pad s s', remove_zeros fuel i removed pad s = Ret s' -> ~ In 10 (fst s) -> ~ In 10 (fst s').
Proof.
  induction fuel as [|f IH]; intros i removed pad [out cl] s' E F; cbn [remove_zeros] in E; destruct (Nat.ltb i (length out)); try discriminate; try (injection E as <-; exact F).
  assert (F' : ~ In 10 (removelast out)).
  { cbn in F. clear - F. intros I. apply F. destruct out as [|x out]; [destruct I|]. rewrite (app_removelast_last 0 (l := x :: out)) by discriminate. apply in_or_app. now left. }
  destruct (if negb _ then _ else _) as [r cl']. destruct (Nat.eqb r pad); [injection E as <-; exact F'|]. eapply IH; [exact E|exact F'].
Qed.
Lemma padding0 n : forall s, ~ In 10 (fst s) -> ~ In 10 (fst (push_padding n 0 s)).
Proof.
  induction n as [|n IH]; intros [out cl] F; cbn [push_padding]; [exact F|]. cbn [fst Nat.ltb Nat.leb andb] in *. apply IH. cbn [fst]. intros I. apply in_app_or in I as [I|[I|[]]]; [auto|discriminate].
Qed.
Theorem C70_one_line : forall data, octets data -> base64_encode data 0 = Ret (rfc4648 data).
Proof.
  intros l Ho. destruct (C70_standard_encoding l 0 Ho) as (t & E & <-); [reflexivity|]. rewrite E. f_equal.
  assert (N : ~ In 10 t).
  { revert E. unfold base64_encode. set (pad := match _ with O => O | _ => _ end). clearbody pad. set (s := encode_loop64 0 l ([], 0%Z)).
    assert (F : ~ In 10 (fst s)) by (apply loop0; intros []). clearbody s. destruct pad as [|p]; cbn [obind]; [intros [= <-]; exact F|].
    destruct (remove_zeros _ 0 0 (S p) s) as [s'| | | | |] eqn:E; try discriminate. unfold obind. intros EE. injection EE as <-. apply (padding0 (S p)). eapply remove0; eauto. }
  clear E. unfold without_newlines, newline. induction t as [|c t IH]; [reflexivity|]. cbn [filter]. destruct (N.eqb_spec c 10) as [->|]; [elim N; now left|].
  cbn [negb]. f_equal. apply IH. intros I. apply N. now right.
Qed.
Print Assumptions C70_one_line.

(** With one, the lines have that length, when no padding is needed. *)
Definition lined (L : nat) (s : encstate) : Prop :=
  exists ls rest, fst s = concat (map (fun x => x ++ [newline]) ls) ++ rest /\
    (forall x, In x ls -> length x = L /\ ~ In newline x) /\ (length rest < L)%nat /\ ~ In newline rest /\ snd s = Z.of_nat (length rest).
Lemma push_lined L s c : (Z.of_nat L < 2 ^ 64)%Z -> c <> 10 -> lined L s -> lined L (push64 L s c).
Proof.
  intros HL HC (ls & rest & E & A & B & C & D). destruct s as [out cl]. cbn [fst snd] in *. subst out cl. unfold push64.
  assert (EM : ((Z.of_nat (length rest) + 1) mod 2 ^ 64 = Z.of_nat (S (length rest)))%Z) by (rewrite Z.mod_small; lia). rewrite EM.
  assert (NR : ~ In newline (rest ++ [c])) by (intros I; apply in_app_or in I as [I|[I|[]]]; auto).
  destruct (Nat.ltb_spec 0 L); [|lia]. cbn [andb]. destruct (Z.leb_spec (Z.of_nat L) (Z.of_nat (S (length rest)))).
  - exists (ls ++ [rest ++ [c]]), []. cbn [fst snd length]. rewrite map_app, concat_app. cbn [map concat]. rewrite !app_nil_r, <- !app_assoc. split; [reflexivity|].
    split; [|split; [lia|split; [easy|reflexivity]]]. intros x I. apply in_app_or in I as [I|[<-|[]]]; [auto|]. rewrite app_length. cbn. split; [lia|exact NR].
  - exists ls, (rest ++ [c]). cbn [fst snd]. rewrite app_length, app_assoc. cbn [length]. split; [reflexivity|]. split; [exact A|]. split; [lia|]. split; [exact NR|]. lia.
Qed.
Lemma pushes_lined L l : (Z.of_nat L < 2 ^ 64)%Z -> (forall c, In c l -> c <> 10) -> forall s, lined L s -> lined L (fold_left (push64 L) l s).
Proof. intros HL. induction l as [|c l IH]; intros A s S; cbn [fold_left]; [exact S|]. apply IH; [intros; apply A; now right|]. apply push_lined; auto. apply A. now left. Qed.
Lemma loop_lined L l : (Z.of_nat L < 2 ^ 64)%Z -> forall s, lined L s -> lined L (encode_loop64 L l s).
Proof.
  intros HL. assert (K : forall a b c x, In x (encode_chunk a b c) -> x <> 10) by (intros a b c x I ->; apply chunk_printed in I; discriminate).
  induction l as [|a|a b|a b c t IH] using list3_ind; intros s F; cbn [encode_loop64]; [exact F|..]; try apply IH; apply pushes_lined; auto; apply K.
Qed.
Theorem C70_line_length_partial : forall data lineLen text, (0 < lineLen)%nat -> (Z.of_nat lineLen < 2 ^ 64)%Z ->
  Nat.modulo (length data) 3 = 0%nat -> base64_encode data lineLen = Ret text -> in_lines lineLen text.
Proof.
  intros l L t H0 HL M. unfold base64_encode. rewrite M. cbn [obind push_padding]. intros [= <-].
  destruct (loop_lined L l HL ([], 0%Z)) as (ls & rest & E & A & B & C & _).
  { exists [], []. cbn. repeat split; auto; try contradiction. }
  exists ls, rest. auto.
Qed.
Print Assumptions C70_line_length_partial.
Example C70_witness : base64_encode [97; 98; 99; 100; 101; 102] 5 = Ret [89; 87; 74; 106; 90; 10; 71; 86; 109].
Proof. reflexivity. Qed.
(** With padding a line can be longer: one octet in lines of 3 gives "AA==" on one
    line; and there may be empty lines. *)
Theorem C70_line_length_refuted :
  base64_encode [0] 3 = Ret [65; 65; 61; 61] /\ ~ lines_within 3 [65; 65; 61; 61] /\
  base64_encode [0] 2 = Ret [65; 65; 10; 10; 61; 61].
Proof.
  split; [reflexivity|]. split; [|reflexivity]. intros K. specialize (K [65; 65; 61; 61]). cbn in K. assert (A : (4 <= 3)%nat); [|lia]. apply K.
  exists [], []. split; [reflexivity|]. unfold newline. cbn. lia.
Qed.
Print Assumptions C70_line_length_refuted.
