(** A real has only one text. *)
From Coq Require Import String List NArith ZArith Bool Lia Arith.
From Coq Require Import Floats.SpecFloat.
From Verif Require Import Base Heap Env SpecText SpecReal RealText RealProofs PrintProofs.
Import ListNotations.
Local Open Scope list_scope.
Local Open Scope Z_scope.

Lemma power_mono x y : x <= y -> at_most (power 10 x) (power 10 y).
Proof.
  intros L. unfold at_most, power. cbn [fst snd]. rewrite <- !Z.pow_add_r by lia. apply Z.pow_le_mono_r; lia.
Qed.
Lemma leading_unique v x y : 0 < snd v -> at_most (power 10 x) v -> less v (power 10 (x + 1)) -> at_most (power 10 y) v -> less v (power 10 (y + 1)) -> x = y.
Proof.
  intros P A B A' B'. assert (K : forall x y, at_most (power 10 y) v -> less v (power 10 (x + 1)) -> y <= x).
  { clear A B A' B'. intros a b A B. destruct (Z.le_gt_cases b a) as [|G]; [assumption|]. exfalso. pose proof (power_mono (a + 1) b ltac:(lia)) as M.
    assert (T : at_most (power 10 (a + 1)) v) by (eapply most_trans; [| |exact P|exact M|exact A]; apply power_snd; lia). unfold at_most, less in *. lia. }
  apply Z.le_antisymm; eapply K; eauto.
Qed.
Lemma next_unique p n m : 0 < snd p -> next_to p n -> next_to p m -> n = m.
Proof.
  intros P. assert (K : forall n m, next_to p n -> next_to p m -> n < m -> False).
  { clear n m. destruct p as [a b]. unfold next_to. cbn [fst snd] in *. intros n m (A1 & A2) (B1 & B2) LT.
    assert (D : m = n + 1) by nia. subst m. assert (E1 : 2 * Z.abs (a - n * b) = b) by lia. assert (E2 : 2 * Z.abs (a - (n + 1) * b) = b) by lia. specialize (A2 E1). specialize (B2 E2).
    rewrite Z.add_1_r, Z.even_succ, <- Z.negb_even, A2 in B2. discriminate. }
  intros A B. destruct (Z.lt_trichotomy n m) as [L|[E|L]]; [exfalso; eauto|exact E|exfalso; eauto].
Qed.
Lemma six_unique v n x n' x' : 0 < snd v -> six_significant v n x -> six_significant v n' x' -> n = n' /\ x = x'.
Proof.
  intros P (n0 & x0 & A & B & C & D) (n1 & x1 & A' & B' & C' & D'). assert (x0 = x1) by (eapply leading_unique; eauto). subst x1.
  assert (n0 = n1). { eapply next_unique; [|exact C|exact C']. unfold over. cbn [snd]. pose proof (power_fst 10 (x0 - 5) ltac:(lia)). nia. } subst n1.
  destruct D as [(D1 & -> & ->)|(D1 & -> & ->)], D' as [(E1 & -> & ->)|(E1 & -> & ->)]; auto; lia.
Qed.
Lemma zeros_unique t u v : without_zeros t u -> without_zeros t v -> u = v.
Proof.
  assert (K : forall u v k l, u ++ repeat 48%N k = v ++ repeat 48%N l -> (forall p, u <> p ++ [48%N]) -> (k <= l)%nat -> u = v).
  { clear. intros u v k l E N LE. replace l with ((l - k) + k)%nat in E by lia. rewrite repeat_app, app_assoc in E. apply app_inv_tail in E. destruct (l - k)%nat as [|j] eqn:J; [now rewrite app_nil_r in E|]. exfalso.
    apply (N (v ++ repeat 48%N j)). rewrite E, <- app_assoc. f_equal. change [48%N] with (repeat 48%N 1). rewrite <- repeat_app. f_equal. lia. }
  intros (k & E & N) (l & E' & N'). rewrite E in E'. destruct (Nat.le_ge_cases k l) as [L|L]; [eapply K; eauto|symmetry; eapply K; eauto].
Qed.
Lemma exponent_unique x u v : exponent_text x u -> exponent_text x v -> u = v.
Proof. intros [a A NA|a A NA] [b B NB|b B NB]; try lia; now rewrite (numeral_unique _ _ _ NA NB). Qed.
Lemma digits_unique n x u v : digits_text n x u -> digits_text n x v -> u = v.
Proof.
  intros U V. destruct U as [a b b' X NA LA W|b b' X NB W|c b b' w X NB W EX]; destruct V as [a2 b2 b2' X2 NA2 LA2 W2|b2 b2' X2 NB2 W2|c2 b2 b2' w2 X2 NB2 W2 EX2]; try lia.
  - pose proof (numeral_unique _ _ _ NA NA2) as E. assert (LL : List.length a = List.length a2) by lia.
    assert (a = a2 /\ b = b2) as (-> & ->). { clear - E LL. revert a2 E LL. induction a as [|y a IH]; intros [|z a2] E LL; try discriminate LL; [auto|]. injection E as -> E. injection LL as LL. destruct (IH _ E LL) as (-> & ->). auto. }
    now rewrite (zeros_unique _ _ _ W W2).
  - pose proof (numeral_unique _ _ _ NB NB2) as ->. now rewrite (zeros_unique _ _ _ W W2).
  - pose proof (numeral_unique _ _ _ NB NB2) as [= -> ->]. now rewrite (zeros_unique _ _ _ W W2), (exponent_unique _ _ _ EX EX2).
Qed.
Theorem real_text_unique f u v : real_text f u -> real_text f v -> u = v.
Proof.
  intros U V. destruct U as [s|s|s m e n x u S D]; inversion V as [| |s' m' e' n' x' u' S' D']; subst; auto. f_equal.
  destruct (six_unique (magnitude m e) _ _ _ _ (power_snd 2 e ltac:(lia)) S S') as (<- & <-). eapply digits_unique; eauto.
Qed.
