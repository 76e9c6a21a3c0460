(** The double next to a fraction. *)
From Coq Require Import String List NArith ZArith Bool Lia Arith.
From Coq Require Import Floats.SpecFloat.
From Verif Require Import Base Heap Env SpecText SpecReal RealText RealProofs RealUnique SpecWrite Strtod SpecStrtod.
Import ListNotations.
Local Open Scope list_scope.
Local Open Scope Z_scope.

Lemma power_shift b x k : 0 < b -> 0 <= k -> fst (power b (x + k)) * snd (power b x) = b ^ k * fst (power b x) * snd (power b (x + k)).
Proof. intros B K. unfold power. cbn [fst snd]. rewrite <- !Z.pow_add_r by lia. f_equal. lia. Qed.
Lemma most_shift v e k : 0 <= k -> at_most (power 2 (e + k)) v <-> 2 ^ k * snd (over v (power 2 e)) <= fst (over v (power 2 e)).
Proof.
  intros K. pose proof (power_shift 2 e k ltac:(lia) K) as E. pose proof (power_snd 2 e ltac:(lia)). pose proof (power_snd 2 (e + k) ltac:(lia)). unfold at_most, over. cbn [fst snd].
  set (f := fst (power 2 e)) in *. set (s := snd (power 2 e)) in *. set (f' := fst (power 2 (e + k))) in *. set (s' := snd (power 2 (e + k))) in *. set (c := 2 ^ k) in *. clearbody f s f' s' c. destruct v as [n d]. cbn [fst snd].
  assert (X : f' * d * s = c * (d * f) * s') by (replace (f' * d * s) with (f' * s * d) by ring; rewrite E; ring). assert (Y : n * s' * s = n * s * s') by ring. split; intro L.
  - apply (Zmult_le_reg_r _ _ s'); [lia|]. rewrite <- X, <- Y. apply Zmult_le_compat_r; lia.
  - apply (Zmult_le_reg_r _ _ s); [lia|]. rewrite X, Y. apply Zmult_le_compat_r; lia.
Qed.
Lemma less_not p q : less p q <-> ~ at_most q p.
Proof. unfold less, at_most. lia. Qed.
Lemma less_shift v e k : 0 <= k -> less v (power 2 (e + k)) <-> fst (over v (power 2 e)) < 2 ^ k * snd (over v (power 2 e)).
Proof. intros K. rewrite less_not, (most_shift v e k K). lia. Qed.
Lemma two_mono x y : x <= y -> at_most (power 2 x) (power 2 y).
Proof. intros L. unfold at_most, power. cbn [fst snd]. rewrite <- !Z.pow_add_r by lia. apply Z.pow_le_mono_r; lia. Qed.
Lemma less_two v x y : 0 < snd v -> x <= y -> less v (power 2 x) -> less v (power 2 y).
Proof. intros P L H. apply (less_trans v (power 2 x) (power 2 y)); [exact P|apply power_snd; lia|apply power_snd; lia|exact H|now apply two_mono]. Qed.
Lemma most_two v x y : 0 < snd v -> x <= y -> at_most (power 2 y) v -> at_most (power 2 x) v.
Proof. intros P L H. apply (most_trans (power 2 x) (power 2 y) v); [apply power_snd; lia|apply power_snd; lia|exact P|now apply two_mono|exact H]. Qed.
Lemma over_snd v e : 0 < snd v -> 0 < snd (over v (power 2 e)).
Proof. intros P. unfold over. cbn [snd]. pose proof (power_fst 2 e ltac:(lia)). nia. Qed.
Lemma next_below w n : 0 < snd w -> 0 <= fst w -> next_to w n -> 0 <= n.
Proof. destruct w as [a b]. unfold next_to. cbn [fst snd]. intros P B (H & _). nia. Qed.
Lemma next_upper w n k : 0 < snd w -> fst w < k * snd w -> next_to w n -> n <= k.
Proof. destruct w as [a b]. unfold next_to. cbn [fst snd]. intros P B (H & _). nia. Qed.
Lemma next_lower w n k : 0 < snd w -> k * snd w <= fst w -> next_to w n -> k <= n.
Proof. destruct w as [a b]. unfold next_to. cbn [fst snd]. intros P B (H & _). nia. Qed.

Lemma spacing_exists num den : 0 < num -> 0 < den ->
  let b := Z.log2 num - Z.log2 den in
  let b' := if 2 ^ Z.max b 0 * den <=? num * 2 ^ Z.max (- b) 0 then b else b - 1 in
  spacing (num, den) (Z.max (-1074) (b' - 52)).
Proof.
  intros N D b b'. destruct (log_bounds num den N D) as (L & A). fold b in L, A.
  assert (K : less (num, den) (power 2 (b' + 1)) /\ at_most (power 2 b') (num, den)).
  { unfold b'. destruct (Z.leb_spec (2 ^ Z.max b 0 * den) (num * 2 ^ Z.max (- b) 0)) as [G|G].
    - split; [exact L|]. unfold at_most, power. cbn [fst snd]. exact G.
    - replace (b - 1 + 1) with b by lia. split; [unfold less, power; cbn [fst snd]; exact G|]. now replace (b - 1) with (b + 1 - 2) by lia. }
  destruct K as (K1 & K2). clearbody b'. split.
  - eapply less_two; [exact D| |exact K1]. lia.
  - destruct (Z.le_gt_cases (b' - 52) (-1074)) as [G|G]; [left; lia|right]. rewrite Z.max_r by lia. split; [lia|]. now replace (b' - 52 + 52) with b' by lia.
Qed.
Lemma big_at_most n e : 2 ^ 52 <= n -> 972 <= e -> at_most (power 2 1024) (n * fst (power 2 e), snd (power 2 e)).
Proof.
  intros N E. unfold at_most. rewrite (power_up 2 1024), (power_up 2 e) by lia. cbn [fst snd]. rewrite !Z.mul_1_r. replace 1024 with (52 + 972) by reflexivity. rewrite Z.pow_add_r by lia.
  apply Z.mul_le_mono_nonneg; [apply Z.pow_nonneg; lia|exact N|apply Z.pow_nonneg; lia|apply Z.pow_le_mono_r; lia].
Qed.
Lemma nearest_rounded neg num den : 0 <= num -> 0 < den -> rounded neg (num, den) (nearest_double neg num den).
Proof.
  intros N D. unfold nearest_double. destruct (Z.eqb_spec num 0) as [->|NZ].
  { apply (rounded_zero neg _ (-1074)).
    - split; [|now left]. unfold less. cbn [fst snd]. pose proof (power_fst 2 (-1074 + 53) ltac:(lia)). nia.
    - unfold next_to, over. cbn [fst snd]. pose proof (power_fst 2 (-1074) ltac:(lia)). rewrite !Z.mul_0_l. cbn. split; [nia|auto]. }
  assert (NP : 0 < num) by lia. pose proof (spacing_exists num den NP D) as S. cbv zeta in S. set (e := Z.max (-1074) _) in *. clearbody e.
  set (n := nearest _ _).
  assert (NX : next_to (over (num, den) (power 2 e)) n).
  { unfold over, power. cbn [fst snd]. apply nearest_next. assert (0 < 2 ^ Z.max e 0) by (apply Z.pow_pos_nonneg; lia). nia. }
  clearbody n. set (w := over (num, den) (power 2 e)) in *.
  assert (WP : 0 < snd w) by (now apply over_snd). assert (WN : 0 <= fst w) by (unfold w, over; cbn [fst snd]; pose proof (power_snd 2 e ltac:(lia)); nia).
  pose proof (next_below w n WP WN NX) as N0. destruct S as (S1 & S2) eqn:ES. pose proof (conj S1 S2 : spacing (num, den) e) as SP. clear ES.
  assert (UP : fst w < 2 ^ 53 * snd w) by (apply (proj1 (less_shift (num, den) e 53 ltac:(lia))); exact S1). pose proof (next_upper w n _ WP UP NX) as N1.
  destruct (Z.eqb_spec n (2 ^ 53)) as [->|NE].
  - change (2 ^ 52) with (Z.pos (2 ^ 52)%positive). cbv iota. destruct (Z.ltb_spec 971 (e + 1)) as [G|G].
    + eapply rounded_infinity; [exact SP|exact NX|].
      unfold at_most. rewrite (power_up 2 1024), (power_up 2 e) by lia. cbn [fst snd]. rewrite !Z.mul_1_r. rewrite <- Z.pow_add_r by lia. apply Z.pow_le_mono_r; lia.
    + now apply rounded_carry.
  - destruct n as [|m|m]; [now apply (rounded_zero neg _ e)| |lia]. destruct (Z.ltb_spec 971 e) as [G|G].
    + eapply rounded_infinity; [exact SP|exact NX|]. destruct S2 as [->|(_ & S2)]; [lia|]. apply big_at_most; [|lia].
      eapply next_lower; [exact WP| |exact NX]. apply (proj1 (most_shift (num, den) e 52 ltac:(lia))). exact S2.
    + apply rounded_finite; auto. lia.
Qed.

(** There is only one. *)
Lemma spacing_unique v e e' : 0 < snd v -> spacing v e -> spacing v e' -> e = e'.
Proof.
  intros P. assert (K : forall e e', spacing v e -> spacing v e' -> e < e' -> False).
  { clear e e'. intros e e' (A & B) (C & [->|(D & F)]) L; [destruct B as [->|(B & _)]; lia|]. apply (proj1 (less_not _ _) A). eapply most_two; [exact P| |exact F]. lia. }
  intros A B. destruct (Z.lt_trichotomy e e') as [L|[L|L]]; [|exact L|]; exfalso; eauto.
Qed.
Lemma small_not_most n e : n < 2 ^ 53 -> 0 <= n -> e <= 971 -> ~ at_most (power 2 1024) (n * fst (power 2 e), snd (power 2 e)).
Proof.
  intros N Z E. unfold at_most. rewrite (power_up 2 1024) by lia. cbn [fst snd]. rewrite Z.mul_1_r.
  assert (F : fst (power 2 e) <= 2 ^ 971 * snd (power 2 e)).
  { pose proof (two_mono e 971 E) as M. unfold at_most in M. rewrite (power_up 2 971) in M by lia. cbn [fst snd] in M. now rewrite Z.mul_1_r in M. }
  pose proof (power_snd 2 e ltac:(lia)) as S. pose proof (power_fst 2 e ltac:(lia)) as S'. set (f := fst (power 2 e)) in *. set (s := snd (power 2 e)) in *. clearbody f s.
  replace (2 ^ 1024) with (2 ^ 53 * 2 ^ 971) by (rewrite <- Z.pow_add_r by lia; reflexivity). set (a := 2 ^ 971) in *. assert (0 < a) by (apply Z.pow_pos_nonneg; lia). clearbody a. set (c := 2 ^ 53) in *. clearbody c. nia.
Qed.
Lemma carry_not_most e : e + 1 <= 971 -> ~ at_most (power 2 1024) (2 ^ 53 * fst (power 2 e), snd (power 2 e)).
Proof.
  intros E. unfold at_most. rewrite (power_up 2 1024) by lia. cbn [fst snd]. rewrite Z.mul_1_r.
  assert (F : fst (power 2 e) <= 2 ^ 970 * snd (power 2 e)).
  { pose proof (two_mono e 970 ltac:(lia)) as M. unfold at_most in M. rewrite (power_up 2 970) in M by lia. cbn [fst snd] in M. now rewrite Z.mul_1_r in M. }
  pose proof (power_snd 2 e ltac:(lia)) as S. set (f := fst (power 2 e)) in *. set (s := snd (power 2 e)) in *. clearbody f s.
  replace (2 ^ 1024) with (2 ^ 53 * 2 * 2 ^ 970) by (change (2 ^ 53 * 2) with (2 ^ 54); rewrite <- Z.pow_add_r by lia; reflexivity). set (a := 2 ^ 970) in *. assert (0 < a) by (apply Z.pow_pos_nonneg; lia). clearbody a. assert (0 < 2 ^ 53) by lia. set (c := 2 ^ 53) in *. clearbody c. nia.
Qed.
Lemma rounded_unique neg v f g : 0 < snd v -> rounded neg v f -> rounded neg v g -> f = g.
Proof.
  intros P A B.
  assert (SAME : forall e n e' n', spacing v e -> next_to (over v (power 2 e)) n -> spacing v e' -> next_to (over v (power 2 e')) n' -> e = e' /\ n = n').
  { intros e n e' n' SE NE SE' NE'. assert (e = e') by (eapply spacing_unique; eauto). subst e'. split; [reflexivity|]. eapply next_unique; [|exact NE|exact NE']. now apply over_snd. }
  assert (ZERO : forall e, ~ at_most (power 2 1024) (0 * fst (power 2 e), snd (power 2 e))).
  { intros e M. unfold at_most in M. cbn [fst snd] in M. rewrite !Z.mul_0_l in M. pose proof (power_fst 2 1024 ltac:(lia)). pose proof (power_snd 2 e ltac:(lia)). nia. }
  destruct A as [e S N|e m S N M E|e S N E|e n S N M]; inversion B as [e' S' N' X|e' m' S' N' M' E' X|e' S' N' E' X|e' n' S' N' M' X]; destruct (SAME _ _ _ _ S N S' N') as (<- & NN); try reflexivity; try discriminate NN.
  - subst n'. exfalso. now apply (ZERO e).
  - now injection NN as ->.
  - exfalso. lia.
  - subst n'. exfalso. eapply (small_not_most (Zpos m) e); [lia|lia|lia|exact M'].
  - exfalso. lia.
  - subst n'. exfalso. now apply (carry_not_most e).
  - subst n. exfalso. now apply (ZERO e).
  - subst n. exfalso. eapply (small_not_most (Zpos m') e); [lia|lia|lia|exact M].
  - subst n. exfalso. now apply (carry_not_most e).
Qed.

(** It is the nearest one. *)
Lemma next_nearest w n k : 0 < snd w -> next_to w n -> Z.abs (fst w - n * snd w) <= Z.abs (fst w - k * snd w).
Proof.
  destruct w as [a b]. unfold next_to. cbn [fst snd]. intros P (H & _). destruct (Z.eq_dec n k) as [->|N]; [lia|].
  assert (b <= Z.abs (n * b - k * b)) by (replace (n * b - k * b) with ((n - k) * b) by ring; rewrite Z.abs_mul, (Z.abs_eq b) by lia; nia). lia.
Qed.
(** Distances in units of [2 ^ E]. *)
Lemma distance_units v m e E : 0 < snd v -> E <= e -> forall n d, n = fst (over v (power 2 E)) -> d = snd (over v (power 2 E)) ->
  exists k, 0 < k /\ fst (distance_from v m e) * d * snd (power 2 E) = Z.abs (n - m * 2 ^ (e - E) * d) * snd (distance_from v m e) * fst (power 2 E) * k /\ k = 1.
Proof.
  intros P L n d -> ->. exists 1. split; [lia|]. split; [|reflexivity]. rewrite Z.mul_1_r.
  pose proof (power_shift 2 E (e - E) ltac:(lia) ltac:(lia)) as X. replace (E + (e - E)) with e in X by lia. pose proof (power_snd 2 e ltac:(lia)). pose proof (power_snd 2 E ltac:(lia)). pose proof (power_fst 2 E ltac:(lia)).
  unfold distance_from, over. cbn [fst snd]. set (f := fst (power 2 E)) in *. set (s := snd (power 2 E)) in *. set (f' := fst (power 2 e)) in *. set (s' := snd (power 2 e)) in *. set (c := 2 ^ (e - E)) in *. clearbody f s f' s' c. destruct v as [a b]. cbn [fst snd] in *.
  assert (Q1 : Z.abs (a * s' - m * f' * b) * (b * f) * s = Z.abs ((a * s' - m * f' * b) * (b * f * s))) by (rewrite Z.abs_mul, (Z.abs_eq (b * f * s)) by nia; ring).
  assert (Q2 : Z.abs (a * s - m * c * (b * f)) * (b * s') * f = Z.abs ((a * s - m * c * (b * f)) * (b * s' * f))) by (rewrite Z.abs_mul, (Z.abs_eq (b * s' * f)) by nia; ring).
  rewrite Q1, Q2. f_equal. transitivity (b * f * (a * s' * s - m * (f' * s) * b)); [ring|]. rewrite X. ring.
Qed.
Lemma distance_compare v m e m' e' E : 0 < snd v -> E <= e -> E <= e' ->
  let n := fst (over v (power 2 E)) in let d := snd (over v (power 2 E)) in
  Z.abs (n - m * 2 ^ (e - E) * d) <= Z.abs (n - m' * 2 ^ (e' - E) * d) -> at_most (distance_from v m e) (distance_from v m' e').
Proof.
  intros P L L' n d LE. destruct (distance_units v m e E P L n d eq_refl eq_refl) as (k & _ & A & ->). destruct (distance_units v m' e' E P L' n d eq_refl eq_refl) as (k & _ & B & ->). rewrite Z.mul_1_r in A, B.
  assert (D : 0 < d) by (now apply over_snd). pose proof (power_snd 2 E ltac:(lia)) as S. pose proof (power_fst 2 E ltac:(lia)) as F.
  assert (D1 : 0 < snd (distance_from v m e)) by (unfold distance_from; cbn [snd]; pose proof (power_snd 2 e ltac:(lia)); nia). assert (D2 : 0 < snd (distance_from v m' e')) by (unfold distance_from; cbn [snd]; pose proof (power_snd 2 e' ltac:(lia)); nia).
  unfold at_most. set (x := fst (distance_from v m e)) in *. set (y := snd (distance_from v m e)) in *. set (x' := fst (distance_from v m' e')) in *. set (y' := snd (distance_from v m' e')) in *.
  set (u := Z.abs (n - m * 2 ^ (e - E) * d)) in *. set (u' := Z.abs (n - m' * 2 ^ (e' - E) * d)) in *. set (s := snd (power 2 E)) in *. set (f := fst (power 2 E)) in *. clearbody x y x' y' u u' s f d. clear n.
  apply (Zmult_le_reg_r _ _ (d * s)); [nia|]. replace (x * y' * (d * s)) with (x * d * s * y') by ring. replace (x' * y * (d * s)) with (x' * d * s * y) by ring. rewrite A, B.
  replace (u * y * f * y') with (u * (y * f * y')) by ring. replace (u' * y' * f * y) with (u' * (y * f * y')) by ring. apply Zmult_le_compat_r; [exact LE|nia].
Qed.
Lemma spacing_nearest v e n m' e' : 0 < snd v -> spacing v e -> next_to (over v (power 2 e)) n -> a_double m' e' -> at_most (distance_from v n e) (distance_from v m' e').
Proof.
  intros P S N ((M0 & M1) & E0 & E1). destruct (Z.le_gt_cases e e') as [L|G].
  - apply (distance_compare v n e m' e' e P (Z.le_refl e) L). rewrite Z.sub_diag, Z.pow_0_r, Z.mul_1_r. apply next_nearest; [now apply over_snd|exact N].
  - destruct S as (S1 & [->|(_ & S2)]); [lia|].
    apply (most_trans _ (distance_from v (2 ^ 52) e) _); try (unfold distance_from; cbn [snd]; match goal with |- 0 < _ * snd (power 2 ?x) => pose proof (power_snd 2 x ltac:(lia)) end; nia).
    + apply (distance_compare v n e (2 ^ 52) e e P (Z.le_refl e) (Z.le_refl e)). rewrite Z.sub_diag, Z.pow_0_r, !Z.mul_1_r. apply next_nearest; [now apply over_snd|exact N].
    + assert (L : e' <= e) by lia. apply (distance_compare v (2 ^ 52) e m' e' e' P L (Z.le_refl e')). rewrite Z.sub_diag, Z.pow_0_r, Z.mul_1_r. rewrite <- Z.pow_add_r by lia.
      replace (e + 52) with (e' + (52 + (e - e'))) in S2 by lia. apply (most_shift v e' (52 + (e - e')) ltac:(lia)) in S2. pose proof (over_snd v e' P) as D.
      set (a := fst (over v (power 2 e'))) in *. set (d := snd (over v (power 2 e'))) in *. clearbody a d. assert (C : 2 ^ 53 <= 2 ^ (52 + (e - e'))) by (apply Z.pow_le_mono_r; lia). set (c := 2 ^ (52 + (e - e'))) in *. clearbody c. set (b := 2 ^ 53) in *. clearbody b. nia.
Qed.
Theorem rounded_nearest neg v f : 0 < snd v -> rounded neg v f ->
  match f with
  | S754_finite s m e => s = neg /\ a_double (Zpos m) e /\ forall m' e', a_double m' e' -> at_most (distance_from v (Zpos m) e) (distance_from v m' e')
  | S754_zero s => s = neg /\ forall m' e', a_double m' e' -> at_most (distance_from v 0 0) (distance_from v m' e')
  | S754_infinity s => s = neg
  | S754_nan => False
  end.
Proof.
  intros P [e S N|e m S N M E|e S N E|e n S N M]; [..|reflexivity]; (split; [reflexivity|]).
  - intros m' e' A. pose proof (spacing_nearest v e 0 m' e' P S N A) as K. enough (Q : at_most (distance_from v 0 0) (distance_from v 0 e)).
    + eapply most_trans; [..|exact Q|exact K]; unfold distance_from; cbn [snd]; match goal with |- 0 < _ * snd (power 2 ?x) => pose proof (power_snd 2 x ltac:(lia)) end; nia.
    + unfold at_most, distance_from. cbn [fst snd]. rewrite !Z.mul_0_l, !Z.sub_0_r. change (snd (power 2 0)) with 1. rewrite !Z.mul_1_r. rewrite Z.abs_mul, (Z.abs_eq (snd (power 2 e))) by (pose proof (power_snd 2 e ltac:(lia)); lia). lia.
  - split; [|intros m' e' A; eapply spacing_nearest; eauto]. split; [lia|]. destruct S as (_ & [->|(S & _)]); lia.
  - split; [split; [lia|]; destruct S as (_ & [->|(S & _)]); lia|]. intros m' e' A. pose proof (spacing_nearest v e (2 ^ 53) m' e' P S N A) as K.
    assert (Q : at_most (distance_from v (Z.pos (2 ^ 52)) (e + 1)) (distance_from v (2 ^ 53) e)).
    { assert (L : e <= e + 1) by lia. apply (distance_compare v _ (e + 1) _ e e P L (Z.le_refl e)). rewrite Z.sub_diag. replace (e + 1 - e) with 1 by lia. rewrite Z.pow_0_r. change (Z.pos (2 ^ 52) * 2 ^ 1) with (2 ^ 53). rewrite Z.mul_1_r. lia. }
    eapply most_trans; [..|exact Q|exact K]; unfold distance_from; cbn [snd]; match goal with |- 0 < _ * snd (power 2 ?x) => pose proof (power_snd 2 x ltac:(lia)) end; nia.
Qed.
