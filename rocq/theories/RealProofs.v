(** Numbers are printed as SpecReal.v says. *)
From Coq Require Import String List NArith ZArith Bool Lia Arith.
From Coq Require Import Floats.SpecFloat.
From Verif Require Import Base Heap Env RealText SpecReal PrinterProofs.
From Verif Require Printer.
Import ListNotations.
Local Open Scope list_scope.
Local Open Scope N_scope.

(** ** Decimal digits *)
Lemma worth_app l m : forall a, fold_left (fun v c => 10 * v + (c - 48)) (l ++ m) a = fold_left (fun v c => 10 * v + (c - 48)) m (fold_left (fun v c => 10 * v + (c - 48)) l a).
Proof. intros a. apply fold_left_app. Qed.
Lemma worth_rev ds : digits_worth (rev ds) = lval ds.
Proof. unfold digits_worth. induction ds as [|c ds IH]; cbn [rev lval]; [reflexivity|]. rewrite worth_app, IH. cbn [fold_left]. lia. Qed.
Lemma worth_bound l : Forall digit l -> digits_worth l < 10 ^ N.of_nat (List.length l).
Proof.
  induction l as [|c l IH] using rev_ind; intros F; [reflexivity|]. apply Forall_app in F as (F & F1). inversion F1 as [|? ? D _]; subst. specialize (IH F). unfold digits_worth in *. rewrite worth_app. cbn [fold_left].
  rewrite app_length. cbn [List.length]. replace (N.of_nat (List.length l + 1)) with (N.succ (N.of_nat (List.length l))) by lia. rewrite N.pow_succ_r'. unfold digit in D. lia.
Qed.
Lemma decimal_facts n : numeral n (Printer.decimal n) /\ (n <> 0 -> 10 ^ (N.of_nat (List.length (Printer.decimal n)) - 1) <= n).
Proof.
  unfold Printer.decimal. destruct (decimal_fuel_spec (S (N.to_nat (N.log2 n))) n []) as (ds & E & F & V & NE & B & Z0); [|lia|].
  { rewrite Nnat.Nat2N.inj_succ, Nnat.N2Nat.id. destruct (N.eq_dec n 0) as [->|H]; [reflexivity|]. apply N.log2_spec; lia. }
  rewrite E, app_nil_r. split; [|now rewrite rev_length]. split; [intros K; apply NE; rewrite <- (rev_involutive ds), K; reflexivity|]. split; [now apply Forall_rev|]. split; [now rewrite worth_rev|].
  intros v K. destruct (N.eq_dec n 0) as [H0|H0].
  - specialize (Z0 H0). rewrite <- rev_length, K in Z0. destruct v; [reflexivity|discriminate].
  - specialize (B H0). rewrite <- rev_length, K in B. cbn [List.length] in B.
    assert (W : digits_worth (rev ds) = n) by now rewrite worth_rev. rewrite K in W. unfold digits_worth in W. cbn [fold_left] in W. change (10 * 0 + (48 - 48)) with 0 in W. fold (digits_worth v) in W.
    assert (FV : Forall digit v) by (apply Forall_rev in F; rewrite K in F; now inversion F). pose proof (worth_bound v FV) as WB. rewrite W in WB.
    replace (N.of_nat (S (List.length v)) - 1) with (N.of_nat (List.length v)) in B by lia. lia.
Qed.
Lemma decimal_numeral n : numeral n (Printer.decimal n).
Proof. apply decimal_facts. Qed.
Lemma six_long n : 100000 <= n < 1000000 -> List.length (Printer.decimal n) = 6%nat.
Proof.
  intros H. destruct (decimal_facts n) as ((_ & F & W & _) & B). specialize (B ltac:(lia)). pose proof (worth_bound _ F) as U. rewrite W in U.
  set (k := List.length (Printer.decimal n)) in *. clearbody k. destruct (Nat.lt_trichotomy k 6) as [L|[L|L]]; [|exact L|].
  - exfalso. assert (10 ^ N.of_nat k <= 10 ^ 5) by (apply N.pow_le_mono_r; lia). change (10 ^ 5) with 100000 in *. lia.
  - exfalso. assert (10 ^ 6 <= 10 ^ (N.of_nat k - 1)) by (apply N.pow_le_mono_r; lia). change (10 ^ 6) with 1000000 in *. lia.
Qed.

(** ** The layout *)
Local Open Scope Z_scope.
Lemma trim_without l : without_zeros l (trim_zeros l).
Proof.
  induction l as [|c l (k & E & N)]; cbn [trim_zeros]; [exists 0%nat; split; [reflexivity|]; intros [|? ?]; discriminate|].
  destruct (trim_zeros l) as [|c' t] eqn:T.
  - cbn [app] in E. destruct (N.eqb_spec c 48) as [->|NE].
    + exists (S k). cbn [app repeat]. split; [now rewrite E|]. intros [|? ?]; discriminate.
    + exists k. rewrite E. split; [reflexivity|]. intros [|d [|? ?]]; cbn; congruence.
  - exists k. rewrite E. split; [reflexivity|]. intros [|d l'] K; [discriminate|]. injection K as -> K. apply (N l'). exact K.
Qed.
Lemma trim_app a l : trim_zeros l <> [] -> trim_zeros (a ++ l) = a ++ trim_zeros l.
Proof.
  intros NE. induction a as [|c a IH]; cbn [app trim_zeros]; [reflexivity|]. rewrite IH. destruct (a ++ trim_zeros l) eqn:E; [|reflexivity]. apply app_eq_nil in E as (_ & E). now rewrite E in NE.
Qed.
Lemma fraction_after l : fraction l = after_point (trim_zeros l).
Proof. unfold fraction, after_point. now destruct (trim_zeros l). Qed.
Lemma worth_zeros k : digits_worth (repeat 48%N k) = 0%N.
Proof. unfold digits_worth. induction k as [|k IH]; cbn [repeat fold_left]; [reflexivity|exact IH]. Qed.
Lemma layout_text n x : 100000 <= n < 1000000 -> digits_text n x (layout n x).
Proof.
  intros H. assert (LD : List.length (Printer.decimal (Z.to_N n)) = 6%nat) by (apply six_long; lia). pose proof (decimal_numeral (Z.to_N n)) as NU. unfold layout.
  set (ds := Printer.decimal (Z.to_N n)) in *. clearbody ds.
  destruct ((-4 <=? x) && (x <? 6))%bool eqn:R.
  - apply andb_true_iff in R as (R1 & R2). apply Z.leb_le in R1. apply Z.ltb_lt in R2. destruct (Z.leb_spec 0 x) as [P|P].
    + rewrite fraction_after. apply (text_fixed n x _ (skipn (Z.to_nat (x + 1)) ds)); [lia|now rewrite firstn_skipn| |apply trim_without]. rewrite firstn_length. lia.
    + rewrite fraction_after. assert (NE : trim_zeros ds <> []).
      { intros E. destruct (trim_without ds) as (k & K & _). rewrite E in K. cbn [app] in K. destruct NU as (_ & _ & W & _). rewrite K, worth_zeros in W. lia. }
      rewrite trim_app by exact NE. replace (after_point (repeat 48%N (Z.to_nat (- x - 1)) ++ trim_zeros ds)) with (asc "." ++ repeat 48%N (Z.to_nat (- x - 1)) ++ trim_zeros ds).
      2: { unfold after_point. destruct (repeat 48%N (Z.to_nat (- x - 1)) ++ trim_zeros ds) eqn:E; [|reflexivity]. apply app_eq_nil in E as (_ & E). now rewrite E in NE. }
      apply (text_small n x ds); [lia|exact NU|apply trim_without].
  - destruct ds as [|c b]; [discriminate|]. cbn [firstn skipn app]. rewrite fraction_after. 
    apply (text_exponent n x c b (trim_zeros b) ((if x <? 0 then 45%N else 43%N) :: (if Z.abs x <? 10 then [48%N] else []) ++ Printer.decimal (Z.to_N (Z.abs x)))); [|exact NU|apply trim_without|].
    + apply andb_false_iff in R as [R|R]; [apply Z.leb_gt in R|apply Z.ltb_ge in R]; lia.
    + destruct (Z.ltb_spec (Z.abs x) 10) as [L|L].
      * pose proof (exponent_one x (Printer.decimal (Z.to_N (Z.abs x))) L (decimal_numeral _)) as K. destruct (x <? 0); exact K.
      * pose proof (exponent_more x (Printer.decimal (Z.to_N (Z.abs x))) L (decimal_numeral _)) as K. destruct (x <? 0); exact K.
Qed.

(** ** Rounding *)
Lemma nearest_next num den : 0 < den -> next_to (num, den) (nearest num den).
Proof.
  intros D. unfold next_to, nearest. cbn [fst snd]. pose proof (Z.div_mod num den ltac:(lia)) as E. pose proof (Z.mod_pos_bound num den D) as B.
  set (q := num / den) in *. set (r := num mod den) in *. clearbody q r.
  assert (A1 : num - q * den = r) by lia. assert (A2 : num - (q + 1) * den = r - den) by lia.
  destruct (2 * r ?= den) eqn:C.
  - apply Z.compare_eq in C. destruct (Z.even q) eqn:EV.
    + rewrite A1, Z.abs_eq by lia. split; [lia|auto].
    + rewrite A2, Z.abs_neq by lia. split; [lia|]. intros _. change (q + 1) with (Z.succ q). rewrite Z.even_succ. now rewrite <- Z.negb_even, EV.
  - assert (2 * r < den) by exact C. rewrite A1, Z.abs_eq by lia. split; lia.
  - assert (2 * r > den) by exact C. rewrite A2, Z.abs_neq by lia. split; lia.
Qed.
Lemma pow10 k : 0 <= k -> 0 < 10 ^ k. Proof. intros. apply Z.pow_pos_nonneg; lia. Qed.
Lemma power_up b x : 0 <= x -> power b x = (b ^ x, 1).
Proof. intros H. unfold power. now rewrite Z.max_l, Z.max_r by lia. Qed.
Lemma power_down b x : x <= 0 -> power b x = (1, b ^ (- x)).
Proof. intros H. unfold power. now rewrite Z.max_r, Z.max_l by lia. Qed.
Lemma ge_ten_spec num den x : ge_ten num den x = true <-> at_most (power 10 x) (num, den).
Proof.
  unfold ge_ten, at_most. destruct (Z.leb_spec 0 x) as [P|P].
  - rewrite power_up by lia. cbn [fst snd]. rewrite Z.mul_1_r. apply Z.leb_le.
  - rewrite power_down by lia. cbn [fst snd]. rewrite Z.mul_1_l. apply Z.leb_le.
Qed.
Lemma not_ten num den x : ge_ten num den x = false -> less (num, den) (power 10 x).
Proof. intros H. unfold less. cbn [fst snd]. destruct (Z.lt_ge_cases (num * snd (power 10 x)) (fst (power 10 x) * den)) as [L|L]; [exact L|]. assert (T : ge_ten num den x = true) by (apply ge_ten_spec; exact L). congruence. Qed.
Lemma descend_spec num den : forall fuel x y, less (num, den) (power 10 (x + 1)) -> descend fuel num den x = Some y -> at_most (power 10 y) (num, den) /\ less (num, den) (power 10 (y + 1)).
Proof.
  induction fuel as [|f IH]; intros x y L E; cbn [descend] in E; destruct (ge_ten num den x) eqn:G; try discriminate.
  - injection E as <-. now rewrite <- ge_ten_spec.
  - injection E as <-. now rewrite <- ge_ten_spec.
  - apply (IH (x - 1) y); [|exact E]. replace (x - 1 + 1) with x by lia. now apply not_ten.
Qed.
Lemma descend_some num den : forall fuel x, (exists k, 0 <= k <= Z.of_nat fuel /\ ge_ten num den (x - k) = true) -> descend fuel num den x <> None.
Proof.
  induction fuel as [|f IH]; intros x (k & K & G); cbn [descend]; destruct (ge_ten num den x) eqn:E; try discriminate.
  - exfalso. assert (k = 0) by lia. subst k. rewrite Z.sub_0_r in G. congruence.
  - apply IH. exists (k - 1). split; [|now replace (x - 1 - (k - 1)) with (x - k) by lia]. assert (k <> 0) by (intros ->; rewrite Z.sub_0_r in G; congruence). lia.
Qed.
(** num / den lies between 2 ^ (b - 2) and 2 ^ b. *)
Lemma log_bounds num den : 0 < num -> 0 < den -> let b := Z.log2 num - Z.log2 den + 1 in
  less (num, den) (power 2 b) /\ at_most (power 2 (b - 2)) (num, den).
Proof.
  intros N D b. pose proof (Z.log2_spec num N) as (N1 & N2). pose proof (Z.log2_spec den D) as (D1 & D2). pose proof (Z.log2_nonneg num). pose proof (Z.log2_nonneg den).
  unfold less, at_most, b. set (p := Z.log2 num) in *. set (q := Z.log2 den) in *. clearbody p q. clear b. unfold Z.succ in *. rewrite Z.pow_add_r in N2, D2 by lia. change (2 ^ 1) with 2 in *.
  split.
  - destruct (Z.le_gt_cases 0 (p - q + 1)) as [P|P].
    + rewrite power_up by lia. cbn [fst snd]. assert (E : 2 ^ (p - q + 1) * 2 ^ q = 2 ^ p * 2) by (rewrite <- Z.pow_add_r by lia; replace (p - q + 1 + q) with (p + 1) by lia; rewrite Z.pow_add_r by lia; reflexivity).
      assert (0 < 2 ^ (p - q + 1)) by (apply Z.pow_pos_nonneg; lia). nia.
    + rewrite power_down by lia. cbn [fst snd]. assert (E : 2 ^ (- (p - q + 1)) * (2 ^ p * 2) = 2 ^ q) by (replace (2 ^ p * 2) with (2 ^ (p + 1)) by (rewrite Z.pow_add_r by lia; reflexivity); rewrite <- Z.pow_add_r by lia; f_equal; lia).
      assert (0 < 2 ^ (- (p - q + 1))) by (apply Z.pow_pos_nonneg; lia). nia.
  - destruct (Z.le_gt_cases 0 (p - q + 1 - 2)) as [P|P].
    + rewrite power_up by lia. cbn [fst snd]. assert (E : 2 ^ (p - q + 1 - 2) * (2 ^ q * 2) = 2 ^ p) by (replace (2 ^ q * 2) with (2 ^ (q + 1)) by (rewrite Z.pow_add_r by lia; reflexivity); rewrite <- Z.pow_add_r by lia; f_equal; lia).
      assert (0 < 2 ^ (p - q + 1 - 2)) by (apply Z.pow_pos_nonneg; lia). nia.
    + rewrite power_down by lia. cbn [fst snd]. assert (E : 2 ^ (- (p - q + 1 - 2)) * 2 ^ p = 2 ^ q * 2) by (replace (2 ^ q * 2) with (2 ^ (q + 1)) by (rewrite Z.pow_add_r by lia; reflexivity); rewrite <- Z.pow_add_r by lia; f_equal; lia).
      assert (0 < 2 ^ (- (p - q + 1 - 2))) by (apply Z.pow_pos_nonneg; lia). nia.
Qed.
(** Powers of ten against powers of two. *)
Lemma eight_ten k : 0 <= k -> 2 ^ (3 * k) <= 10 ^ k.
Proof. intros. rewrite Z.pow_mul_r by lia. apply Z.pow_le_mono_l. lia. Qed.
Lemma ten_sixteen k : 0 <= k -> 10 ^ k <= 2 ^ (4 * k).
Proof. intros. rewrite Z.pow_mul_r by lia. apply Z.pow_le_mono_l. lia. Qed.
Lemma start_above b : let x := if 0 <=? b then b / 3 else b / 4 in at_most (power 2 b) (power 10 (x + 1)).
Proof.
  cbv zeta. unfold at_most. destruct (Z.leb_spec 0 b) as [P|P].
  - assert (Q : 0 <= b / 3) by (apply Z.div_pos; lia). rewrite !power_up by lia. cbn [fst snd]. rewrite !Z.mul_1_r. eapply Z.le_trans; [|apply eight_ten; lia]. apply Z.pow_le_mono_r; [lia|]. pose proof (Z.mod_pos_bound b 3). pose proof (Z.div_mod b 3). lia.
  - assert (Q : b / 4 < 0) by (apply Z.div_lt_upper_bound; lia). rewrite !power_down by lia. cbn [fst snd]. rewrite !Z.mul_1_l. eapply Z.le_trans; [apply ten_sixteen; lia|]. apply Z.pow_le_mono_r; [lia|]. pose proof (Z.mod_pos_bound b 4). pose proof (Z.div_mod b 4). lia.
Qed.
Lemma less_trans p q r : 0 < snd p -> 0 < snd q -> 0 < snd r -> less p q -> at_most q r -> less p r.
Proof. unfold less, at_most. destruct p as [a b], q as [c d], r as [e f]. cbn [fst snd]. intros. nia. Qed.
Lemma most_trans p q r : 0 < snd p -> 0 < snd q -> 0 < snd r -> at_most p q -> at_most q r -> at_most p r.
Proof. unfold at_most. destruct p as [a b], q as [c d], r as [e f]. cbn [fst snd]. intros. nia. Qed.
Lemma power_snd b x : 0 < b -> 0 < snd (power b x).
Proof. intros. unfold power. cbn [snd]. apply Z.pow_pos_nonneg; lia. Qed.
Lemma power_fst b x : 0 < b -> 0 < fst (power b x).
Proof. intros. unfold power. cbn [fst]. apply Z.pow_pos_nonneg; lia. Qed.
Lemma leading_spec num den x : 0 < num -> 0 < den -> leading num den = Some x -> at_most (power 10 x) (num, den) /\ less (num, den) (power 10 (x + 1)).
Proof.
  intros N D E. unfold leading in E. eapply descend_spec; [|exact E]. destruct (log_bounds num den N D) as (L & _).
  eapply less_trans; [exact D|apply (power_snd 2); lia|apply (power_snd 10); lia|exact L|apply start_above].
Qed.
Lemma leading_some num den : 0 < num -> 0 < den -> leading num den <> None.
Proof.
  intros N D. unfold leading. destruct (log_bounds num den N D) as (_ & L). set (b := Z.log2 num - Z.log2 den + 1) in *. clearbody b. apply descend_some.
  assert (K : forall y, at_most (power 10 y) (power 2 (b - 2)) -> ge_ten num den y = true).
  { intros y A. apply ge_ten_spec. eapply most_trans; [apply (power_snd 10); lia|apply (power_snd 2); lia|exact D|exact A|exact L]. }
  destruct (Z.leb_spec 0 b) as [P|P].
  - exists (b / 3 + 1). assert (Q : 0 <= b / 3) by (apply Z.div_pos; lia). assert (Q2 : b / 3 <= b) by (apply Z.div_le_upper_bound; lia). split; [rewrite Nat2Z.inj_add, Zabs2Nat.id_abs; lia|]. apply K. replace (b / 3 - (b / 3 + 1)) with (-1) by lia. unfold at_most. rewrite (power_down 10) by lia. cbn [fst snd]. change (10 ^ (- -1)) with 10. rewrite Z.mul_1_l.
    destruct (Z.le_gt_cases 0 (b - 2)); [rewrite power_up by lia|rewrite power_down by lia]; cbn [fst snd]; [assert (0 < 2 ^ (b - 2)) by (apply Z.pow_pos_nonneg; lia); lia|].
    assert (2 ^ (- (b - 2)) <= 2 ^ 2) by (apply Z.pow_le_mono_r; lia). lia.
  - pose proof (Z.mod_pos_bound b 4). pose proof (Z.div_mod b 4). pose proof (Z.mod_pos_bound (b - 2) 3). pose proof (Z.div_mod (b - 2) 3). exists (b / 4 - (b - 2) / 3). split; [rewrite Nat2Z.inj_add, Zabs2Nat.id_abs; lia|]. apply K. replace (b / 4 - (b / 4 - (b - 2) / 3)) with ((b - 2) / 3) by lia.
    unfold at_most. assert (Q : (b - 2) / 3 < 0) by (apply Z.div_lt_upper_bound; lia). rewrite !power_down by lia. cbn [fst snd]. rewrite !Z.mul_1_l. eapply Z.le_trans; [|apply eight_ten; lia]. apply Z.pow_le_mono_r; lia.
Qed.

(** What is rounded has six digits before the point. *)
Lemma six_before num den x : 0 < num -> 0 < den -> at_most (power 10 x) (num, den) -> less (num, den) (power 10 (x + 1)) ->
  let w := over (num, den) (power 10 (x - 5)) in 0 < snd w /\ 100000 * snd w <= fst w < 1000000 * snd w.
Proof.
  intros N D A L. cbv zeta. unfold over, at_most, less in *. cbn [fst snd] in *. destruct (Z.le_gt_cases 5 x) as [P|P].
  - rewrite !power_up in * by lia. cbn [fst snd] in *. pose proof (pow10 (x - 5) ltac:(lia)). replace (10 ^ x) with (10 ^ (x - 5) * 100000) in A by (change 100000 with (10 ^ 5); rewrite <- Z.pow_add_r by lia; f_equal; lia).
    replace (10 ^ (x + 1)) with (10 ^ (x - 5) * 1000000) in L by (change 1000000 with (10 ^ 6); rewrite <- Z.pow_add_r by lia; f_equal; lia). nia.
  - rewrite (power_down 10 (x - 5)) in * by lia. cbn [fst snd]. replace (- (x - 5)) with (5 - x) by lia. rewrite !Z.mul_1_r. split; [lia|].
    split.
    + destruct (Z.le_gt_cases 0 x) as [Q|Q].
      * rewrite power_up in A by lia. cbn [fst snd] in A. pose proof (pow10 (5 - x) ltac:(lia)). assert (E : 10 ^ (5 - x) * 10 ^ x = 100000) by (change 100000 with (10 ^ 5); rewrite <- Z.pow_add_r by lia; f_equal; lia). nia.
      * rewrite power_down in A by lia. cbn [fst snd] in A. replace (10 ^ (5 - x)) with (10 ^ (- x) * 100000) by (change 100000 with (10 ^ 5); rewrite <- Z.pow_add_r by lia; f_equal; lia). nia.
    + destruct (Z.le_gt_cases 0 (x + 1)) as [Q|Q].
      * rewrite power_up in L by lia. cbn [fst snd] in L. pose proof (pow10 (5 - x) ltac:(lia)). assert (E : 10 ^ (5 - x) * 10 ^ (x + 1) = 1000000) by (change 1000000 with (10 ^ 6); rewrite <- Z.pow_add_r by lia; f_equal; lia). nia.
      * rewrite power_down in L by lia. cbn [fst snd] in L. replace (10 ^ (5 - x)) with (10 ^ (- (x + 1)) * 1000000) by (change 1000000 with (10 ^ 6); rewrite <- Z.pow_add_r by lia; f_equal; lia). nia.
Qed.
Lemma next_bounds w n : 0 < snd w -> 100000 * snd w <= fst w < 1000000 * snd w -> next_to w n -> 100000 <= n <= 1000000.
Proof. destruct w as [a b]. unfold next_to. cbn [fst snd]. intros P B (H & _). assert (- b <= 2 * (a - n * b) <= b) by lia. split; nia. Qed.
Lemma six_digits_spec m e n x : six_digits m e = Some (n, x) -> six_significant (magnitude m e) n x /\ 100000 <= n < 1000000.
Proof.
  unfold six_digits. set (num := Zpos m * 2 ^ Z.max e 0). set (den := 2 ^ Z.max (- e) 0).
  assert (N : 0 < num) by (unfold num; assert (0 < 2 ^ Z.max e 0) by (apply Z.pow_pos_nonneg; lia); lia). assert (D : 0 < den) by (apply Z.pow_pos_nonneg; lia).
  destruct (leading num den) as [x0|] eqn:E; [|discriminate]. destruct (leading_spec _ _ _ N D E) as (A & L). intros H. destruct (six_before num den x0 N D A L) as (WP & WB).
  set (n0 := if 5 <=? x0 then nearest num (den * 10 ^ (x0 - 5)) else nearest (num * 10 ^ (5 - x0)) den) in *.
  assert (NX : next_to (over (num, den) (power 10 (x0 - 5))) n0).
  { unfold n0, over. destruct (Z.leb_spec 5 x0) as [P|P].
    - rewrite power_up by lia. cbn [fst snd]. rewrite Z.mul_1_r. apply nearest_next. pose proof (pow10 (x0 - 5) ltac:(lia)). nia.
    - rewrite power_down by lia. cbn [fst snd]. replace (- (x0 - 5)) with (5 - x0) by lia. rewrite Z.mul_1_r. now apply nearest_next. }
  pose proof (next_bounds _ _ WP WB NX) as BB. clearbody n0.
  destruct (Z.eqb_spec n0 1000000) as [E0|E0]; injection H as <- <-.
  - split; [|lia]. exists n0, x0. split; [exact A|]. split; [exact L|]. split; [exact NX|]. right. auto.
  - split; [|lia]. exists n0, x0. split; [exact A|]. split; [exact L|]. split; [exact NX|]. left. split; [lia|auto].
Qed.
Lemma six_digits_some m e : six_digits m e <> None.
Proof.
  unfold six_digits. destruct (leading _ _) as [x|] eqn:E; [discriminate|]. exfalso. revert E. apply leading_some; [|apply Z.pow_pos_nonneg; lia].
  assert (0 < 2 ^ Z.max e 0) by (apply Z.pow_pos_nonneg; lia). lia.
Qed.
Theorem g_text_spec f u : g_text f = Ret u -> real_text f u.
Proof.
  destruct f as [s|s| |s m e]; cbn [g_text]; intros E; try discriminate.
  - injection E as <-. pose proof (text_zero s) as T. destruct s; exact T.
  - injection E as <-. pose proof (text_infinity s) as T. destruct s; exact T.
  - destruct (six_digits m e) as [[n x]|] eqn:S; [|discriminate]. injection E as <-. apply six_digits_spec in S as (S & B).
    pose proof (text_finite s m e n x _ S (layout_text n x B)) as T. destruct s; exact T.
Qed.
Theorem g_text_total f : f <> S754_nan -> exists u, g_text f = Ret u.
Proof.
  intros H. destruct f as [s|s| |s m e]; cbn [g_text]; eauto; [congruence|]. destruct (six_digits m e) as [[n x]|] eqn:S; [eauto|]. now apply six_digits_some in S.
Qed.
