(** Numbers read from texts: strtoimax, and the strings added to numbers. *)
From Coq Require Import NArith ZArith Bool Lia Arith List.
From Coq Require Import ZifyBool ZifyNat ZifyN.
From Verif Require Import Base OString Heap Builtins SpecReal SpecDefine SpecEval SpecBuiltin SpecWrite.
Import ListNotations.
Local Open Scope N_scope.
Local Open Scope list_scope.

Lemma white_test c : ((c =? 32) || ((9 <=? c) && (c <=? 13))) = true <-> white c.
Proof. unfold white. lia. Qed.
Lemma skip_white sp rest : Forall white sp -> (forall c r, rest = c :: r -> ~ white c) -> skip_spaces (sp ++ rest) = rest.
Proof.
  intros F K. induction F as [|c sp W F IH]; cbn [app skip_spaces].
  - destruct rest as [|c r]; [reflexivity|]. cbn [skip_spaces]. pose proof (K c r eq_refl) as N. rewrite <- white_test in N. now destruct (_ || _).
  - apply white_test in W. now rewrite W.
Qed.
Lemma digits_fold u : forall acc, Forall digit u -> forall rest, stops rest -> digits_value (Z.of_N acc) (u ++ rest) = Z.of_N (fold_left (fun v c => 10 * v + (c - 48)) u acc).
Proof.
  induction u as [|c u IH]; intros acc F rest K; cbn [app digits_value fold_left].
  - destruct rest as [|c r]; [reflexivity|]. cbn [digits_value]. pose proof (K c r eq_refl) as N. unfold digit in N. destruct (48 <=? c) eqn:E1, (c <=? 57) eqn:E2; cbn [andb]; try reflexivity. exfalso. lia.
  - inversion F as [|? ? D F']; subst. unfold digit in D. replace ((48 <=? c) && (c <=? 57)) with true by lia. rewrite <- (IH _ F' _ K). f_equal. lia.
Qed.
Lemma digits_read u rest : Forall digit u -> stops rest -> digits_value 0 (u ++ rest) = Z.of_N (digits_worth u).
Proof. intros F K. apply (digits_fold u 0 F rest K). Qed.
Lemma strtoimax_clamped t i : leading_int t i -> strtoimax t = as_long i.
Proof.
  unfold strtoimax, as_long. intros LI. assert (NW : forall c, digit c -> ~ white c) by (unfold digit, white; lia).
  enough (EQ : match skip_spaces t with 45 :: t => (- digits_value 0 t)%Z | 43 :: t => digits_value 0 t | l => digits_value 0 l end = i) by (rewrite EQ; reflexivity).
  destruct LI as [sp u rest W D NE K|sp u rest W D K|sp u rest W D K|sp rest W K N].
  - rewrite skip_white; [|exact W|].
    + rewrite <- (digits_read u rest D K). destruct u as [|c u]; [congruence|]. inversion D as [|? ? DC D']; subst. unfold digit in DC. cbn [app].
      destruct c as [|p]; [lia|]. repeat (destruct p as [p|p|]; try reflexivity; try lia).
    + intros c r EQ. destruct u as [|c' u]; [congruence|]. injection EQ as <- _. inversion D; subst. auto.
  - rewrite skip_white; [now apply digits_read|exact W|]. intros c r [= <- _]. unfold white. lia.
  - rewrite skip_white; [now rewrite digits_read|exact W|]. intros c r [= <- _]. unfold white. lia.
  - rewrite skip_white; [|exact W|intros c r EQ; now apply (N c r)]. destruct rest as [|c r]; [reflexivity|]. destruct (N c r eq_refl) as (_ & N1 & N2). pose proof (digits_read [] (c :: r) (Forall_nil _) K) as Z0. cbn [app] in Z0.
    destruct c as [|p]; [exact Z0|]. repeat (destruct p as [p|p|]; try exact Z0; try congruence).
Qed.

(** Every text of digits and '-' starts with a number. *)
Lemma digits_split t : exists u rest, t = u ++ rest /\ Forall digit u /\ stops rest.
Proof.
  induction t as [|c t (u & r & -> & F & K)]; [exists [], []; repeat split; [constructor|intros c r E; discriminate]|].
  destruct (((48 <=? c) && (c <=? 57))%N) eqn:E.
  - exists (c :: u), r. repeat split; [constructor; [unfold digit; lia|exact F]|exact K].
  - exists [], (c :: u ++ r). repeat split; [constructor|]. intros c' r' [= <- _]. unfold digit. lia.
Qed.
Lemma numeric_leading t : numeric t -> exists i, leading_int t i.
Proof.
  intros F. destruct t as [|c t]; [exists 0%Z; apply (lead_none [] []); [constructor|discriminate|discriminate]|].
  inversion F as [|? ? C F']; subst. destruct C as [->|D].
  - destruct (digits_split t) as (u & r & -> & DU & K). eexists. apply (lead_minus [] u r); auto.
  - destruct (digits_split (c :: t)) as (u & r & E & DU & K). rewrite E. eexists. apply (lead_plain [] u r); auto.
    intros ->. cbn in E. subst r. now apply (K c t).
Qed.
Lemma text_number_spec t o : text_number t = Ret o -> match o with Some z => exists i, numeric t /\ leading_int t i /\ z = as_long i | None => ~ numeric t end.
Proof.
  unfold text_number. destruct (forallb number_char t) eqn:F.
  - destruct (existsb (N.eqb 46) t) eqn:X; [discriminate|]. intros [= <-].
    assert (NU : numeric t).
    { apply Forall_forall. intros c J. rewrite forallb_forall in F. specialize (F c J). assert (NE : c <> 46). { intros ->. assert (existsb (N.eqb 46) t = true) by (apply existsb_exists; exists 46; split; [exact J|reflexivity]). congruence. }
      unfold number_char in F. unfold digit. lia. }
    destruct (numeric_leading t NU) as (i & LI). exists i. split; [exact NU|]. split; [exact LI|]. now apply strtoimax_clamped.
  - intros [= <-] NU. assert (forallb number_char t = true); [|congruence]. apply forallb_forall. intros c J. pose proof (proj1 (Forall_forall _ _) NU c J) as C. cbv beta in C. unfold digit in C. unfold number_char. lia.
Qed.
Lemma wrap_cut z : cut32 z (wrap32 z).
Proof.
  unfold cut32, wrap32, fits. pose proof (Z.div_mod (z + 2 ^ 31) (2 ^ 32)). pose proof (Z.mod_pos_bound (z + 2 ^ 31) (2 ^ 32)). split; [lia|]. exists ((z + 2 ^ 31) / 2 ^ 32)%Z. lia.
Qed.
Lemma long_op_cut z z' : long_op z = Ret z' -> long z /\ cut32 z z'.
Proof. unfold long_op, long. destruct (_ && _)%bool eqn:E; [|discriminate]. intros [= <-]. split; [lia|apply wrap_cut]. Qed.
Lemma mod_cut z : cut_unsigned z (Z.to_N (z mod 2 ^ 32)).
Proof.
  unfold cut_unsigned. pose proof (Z.div_mod z (2 ^ 32)). pose proof (Z.mod_pos_bound z (2 ^ 32)). split; [lia|]. exists (z / 2 ^ 32)%Z. lia.
Qed.
