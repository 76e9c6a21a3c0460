From Coq Require Import List NArith ZArith Bool Lia Arith.
From Coq Require Import ZifyBool ZifyNat ZifyN.
From Verif Require Import Base SpecText SpecStr OString Semver HMap Heap ValueOps SpecValue PropsText PropsSemver.
Import ListNotations.

Lemma tree_ind' (P : tree -> Prop) :
  P TNil -> (forall b, P (TBool b)) -> (forall z, P (TInt z)) -> (forall s, P (TStr s)) -> (forall s, P (TChar s)) ->
  (forall s, P (TSym s)) -> (forall s n, P (TErr s n)) -> (forall l, Forall P l -> P (TVec l)) -> (forall l, Forall P l -> P (TQueue l)) ->
  (forall l, Forall P l -> P (TList l)) -> forall t, P t.
Proof.
  intros H1 H2 H3 H4 H5 H6 H6' H7 H8 H9. fix IH 1. intros [ |b|z|s|s|s|s n|l|l|l];
    [exact H1|apply H2|apply H3|apply H4|apply H5|apply H6|apply H6'|apply H7|apply H8|apply H9]; induction l; constructor; auto.
Qed.

(** ** The order on trees *)
Section FD.
Context {A : Type} (f : A -> A -> comparison).
Lemma fd_refl l : Forall (fun x => f x x = Eq) l -> first_difference f l l = Eq.
Proof. induction 1 as [|x l E F IH]; cbn; [reflexivity|]. now rewrite E. Qed.
Lemma fd_eq l : Forall (fun x => forall y, f x y = Eq -> x = y) l -> forall m, first_difference f l m = Eq -> l = m.
Proof.
  induction 1 as [|x l E F IH]; intros [|y m]; cbn; try congruence.
  destruct (f x y) eqn:C; try discriminate. intros G. f_equal; auto.
Qed.
Lemma fd_opp l : Forall (fun x => forall y, f y x = CompOpp (f x y)) l -> forall m, first_difference f m l = CompOpp (first_difference f l m).
Proof.
  induction 1 as [|x l E F IH]; intros [|y m]; cbn; try reflexivity. rewrite E. destruct (f x y); cbn; auto.
Qed.
Lemma fd_trans l : (forall x y, f x y = Eq -> x = y) -> (forall x, f x x = Eq) ->
  Forall (fun x => forall y z, f x y = Lt -> f y z = Lt -> f x z = Lt) l ->
  forall m n, first_difference f l m = Lt -> first_difference f m n = Lt -> first_difference f l n = Lt.
Proof.
  intros HE HR. induction 1 as [|x l E F IH]; intros [|y m] [|z n]; cbn; try congruence.
  destruct (f x y) eqn:C1; try congruence; destruct (f y z) eqn:C2; try congruence; intros G1 G2.
  - apply HE in C1, C2. subst. rewrite HR. eauto.
  - apply HE in C1. subst. now rewrite C2.
  - apply HE in C2. subst. now rewrite C1.
  - now rewrite (E y z).
Qed.
End FD.

Lemma tree_order_refl t : tree_order t t = Eq.
Proof.
  induction t using tree_ind'; cbn; auto using Z.compare_refl; try (apply lex_eq; reflexivity);
    try (destruct b; reflexivity); try (rewrite (proj2 (lex_eq _ _) eq_refl); apply N.compare_refl); unfold by_length; rewrite Nat.compare_refl; now apply fd_refl.
Qed.
Lemma by_length_eq {A} (f : A -> A -> comparison) l : Forall (fun x => forall y, f x y = Eq -> x = y) l -> forall m, by_length f l m = Eq -> l = m.
Proof. unfold by_length. intros H m. destruct (Nat.compare (length l) (length m)); try discriminate. now apply fd_eq. Qed.
Lemma tree_order_eq a : forall b, tree_order a b = Eq -> a = b.
Proof.
  induction a using tree_ind'; intros [ | | | | | | | | | ]; cbn; try discriminate; try reflexivity; intros E;
    try (f_equal; now apply (by_length_eq _ _ H)); try (apply lex_eq in E; congruence).
  - destruct b, b0; congruence.
  - apply Z.compare_eq in E. congruence.
  - destruct (lex s s0) eqn:EL; try discriminate. apply lex_eq in EL. apply N.compare_eq in E. congruence.
Qed.
Lemma by_length_opp {A} (f : A -> A -> comparison) l : Forall (fun x => forall y, f y x = CompOpp (f x y)) l -> forall m, by_length f m l = CompOpp (by_length f l m).
Proof.
  unfold by_length. intros H m. rewrite (Nat.compare_antisym (length l)). destruct (Nat.compare (length l) (length m)); cbn; auto. now apply fd_opp.
Qed.
Lemma tree_order_opp a : forall b, tree_order b a = CompOpp (tree_order a b).
Proof.
  induction a using tree_ind'; intros [ | | | | | | | | | ]; cbn; try reflexivity; try (now apply by_length_opp); try (apply lex_opp).
  - now destruct b, b0.
  - apply Z.compare_antisym.
  - pose proof (lex_opp s s0) as EO. destruct (lex s s0); cbn in EO; rewrite EO; cbn; auto. apply N.compare_antisym.
Qed.
Lemma by_length_trans {A} (f : A -> A -> comparison) l : (forall x y, f x y = Eq -> x = y) -> (forall x, f x x = Eq) ->
  Forall (fun x => forall y z, f x y = Lt -> f y z = Lt -> f x z = Lt) l ->
  forall m n, by_length f l m = Lt -> by_length f m n = Lt -> by_length f l n = Lt.
Proof.
  unfold by_length. intros HE HR H m n.
  destruct (Nat.compare_spec (length l) (length m)), (Nat.compare_spec (length m) (length n)), (Nat.compare_spec (length l) (length n));
    try congruence; try lia. now apply fd_trans.
Qed.
Lemma tree_order_trans a : forall b c, tree_order a b = Lt -> tree_order b c = Lt -> tree_order a c = Lt.
Proof.
  induction a using tree_ind'; intros [ | | | | | | | | | ] [ | | | | | | | | | ]; cbn; try congruence;
    try (apply by_length_trans; auto using tree_order_eq, tree_order_refl); try (apply lex_trans).
  - destruct b, b0, b1; congruence.
  - rewrite !Z.compare_lt_iff. lia.
  - destruct (lex s s0) eqn:E1; try congruence; destruct (lex s0 s1) eqn:E2; try congruence; intros G1 G2.
    + apply lex_eq in E1, E2. subst. rewrite (proj2 (lex_eq _ _) eq_refl). rewrite N.compare_lt_iff in *. lia.
    + apply lex_eq in E1. subst. now rewrite E2.
    + apply lex_eq in E2. subst. now rewrite E1.
    + now rewrite (lex_trans _ _ _ E1 E2).
Qed.

(** ** The comparison computes it *)
Definition sign_is (o : outcome Z) (c : comparison) : Prop := exists z, o = Ret z /\ Z.compare z 0 = c.

Lemma text_cmp_sign s t : Forall scalar s /\ ~ In 0%N s -> Forall scalar t /\ ~ In 0%N t -> sign_is (text_cmp s t) (lex s t).
Proof. intros Hs Ht. unfold text_cmp. rewrite text_compare_lex by assumption. cbn. eexists. split; [reflexivity|]. now destruct (lex s t). Qed.

Lemma size_diff_small m n : (Z.of_nat m <= INT32_MAX)%Z -> (Z.of_nat n <= INT32_MAX)%Z ->
  size_diff (N.of_nat m) (N.of_nat n) = (Z.of_nat m - Z.of_nat n)%Z.
Proof.
  unfold size_diff, INT32_MAX. intros Hm Hn. change (2 ^ 31 - 1)%Z with 2147483647%Z in *.
  assert (E : Z.of_N ((N.of_nat m + two64 - N.of_nat n) mod two64) = ((Z.of_nat m - Z.of_nat n) mod 18446744073709551616)%Z).
  { rewrite N2Z.inj_mod, N2Z.inj_sub by (unfold two64; lia). rewrite N2Z.inj_add, !nat_N_Z.
    change (Z.of_N two64) with 18446744073709551616%Z.
    replace (Z.of_nat m + 18446744073709551616 - Z.of_nat n)%Z with (Z.of_nat m - Z.of_nat n + 1 * 18446744073709551616)%Z by lia.
    apply Z.mod_add. lia. }
  rewrite E. unfold wrap32. change (2 ^ 31)%Z with 2147483648%Z. change (2 ^ 32)%Z with 4294967296%Z.
  rewrite <- Z.add_mod_idemp_l by lia.
  replace (((Z.of_nat m - Z.of_nat n) mod 18446744073709551616) mod 4294967296)%Z with ((Z.of_nat m - Z.of_nat n) mod 4294967296)%Z.
  - rewrite Z.add_mod_idemp_l by lia. rewrite Z.mod_small; lia.
  - apply Znumtheory.Zmod_div_mod; [lia|lia|]. now exists 4294967296%Z.
Qed.

Lemma compare_seq_sign cmp l ts : forall m us,
  length l = length m -> length ts = length l -> length us = length m ->
  (forall x t y u, In (x, t) (combine l ts) -> In (y, u) (combine m us) -> sign_is (cmp x y) (tree_order t u)) ->
  sign_is (compare_seq cmp l m) (first_difference tree_order ts us).
Proof.
  revert ts. induction l as [|x l IH]; intros [|t ts] [|y m] [|u us] L1 L2 L3 H; cbn in *; try discriminate.
  - now exists 0%Z.
  - destruct (H x t y u) as (z & E & S); auto. rewrite E. cbn.
    destruct (Z.eqb_spec z 0) as [->|NZ].
    + cbn in S. rewrite <- S. apply IH; auto.
    + destruct (Z.compare_spec z 0) as [|S'|S']; [congruence| |]; rewrite <- S; (exists z; split; [reflexivity|]); [now apply Z.compare_lt_iff|now apply Z.compare_gt_iff].
Qed.

Lemma compare_sized_sign cmp l ts m us :
  length ts = length l -> length us = length m ->
  (Z.of_nat (length ts) <= INT32_MAX)%Z -> (Z.of_nat (length us) <= INT32_MAX)%Z ->
  (forall x t y u, In (x, t) (combine l ts) -> In (y, u) (combine m us) -> sign_is (cmp x y) (tree_order t u)) ->
  sign_is (compare_sized cmp l m) (by_length tree_order ts us).
Proof.
  intros L1 L2 B1 B2 H. unfold compare_sized, by_length. rewrite L1, L2.
  destruct (Nat.eqb_spec (length l) (length m)) as [E|E].
  - rewrite E, Nat.compare_refl. apply compare_seq_sign; auto.
  - rewrite size_diff_small by lia.
    destruct (Nat.compare_spec (length l) (length m)); [lia| |]; eexists; (split; [reflexivity|]); [apply Z.compare_lt_iff; lia|apply Z.compare_gt_iff; lia].
Qed.

Lemma ordinary_list lo l : (fix go (l : list tree) : Prop := match l with [] => True | x :: t => ordinary lo x /\ go t end) l <-> Forall (ordinary lo) l.
Proof. induction l as [|x l IH]; [split; auto|]. rewrite Forall_cons_iff, <- IH. tauto. Qed.
Lemma Forall2_combine {A B} (P : A -> B -> Prop) l m : Forall2 P l m -> length m = length l /\ forall x y, In (x, y) (combine l m) -> P x y.
Proof. induction 1 as [|a b l m H F (IH1 & IH2)]; cbn; [split; [auto|easy]|]. split; [lia|]. intros x y [E|I]; [congruence|auto]. Qed.

Lemma list_max_le n l : In n l -> n <= list_max l.
Proof. induction l as [|x l IH]; cbn; [easy|]. intros [->|I]; [lia|]. specialize (IH I). unfold list_max in IH. lia. Qed.

Ltac inv_den D c L E F := inversion D as [? c L E|? c ? L E|? c ? L E|? c ? L E|? c ? L E|? c ? L E|? c ? ? L E|? c ?l ? L E F|? c ?l ? ? L E F|? c ?l ? L E F]; subst.
(** A value denotes at most one tree. *)
Lemma denotes_list_fun h ts : Forall (fun t => forall r t', denotes h r t -> denotes h r t' -> t = t') ts ->
  forall l us, Forall2 (denotes h) l ts -> Forall2 (denotes h) l us -> ts = us.
Proof.
  induction 1 as [|t ts H F IH]; intros l us F1 F2; inversion F1; subst; inversion F2; subst; [reflexivity|].
  f_equal; [now apply (H x)|now apply (IH l0)].
Qed.
Lemma denotes_fun h : forall t r t', denotes h r t -> denotes h r t' -> t = t'.
Proof.
  intros t. induction t using tree_ind'; intros r t' D1 D2; inv_den D1 c L E F; inv_den D2 c2 L2 E2 F2;
  rewrite L in L2; injection L2 as <-; rewrite E in E2; try discriminate; try (injection E2 as <-; reflexivity); try reflexivity;
  f_equal; injection E2; intros; subst; try reflexivity; eapply denotes_list_fun; eauto.
Qed.

Theorem vcompare_sign h lo : forall ta tb a b fuel,
  denotes h a ta -> denotes h b tb -> ordinary lo ta -> ordinary lo tb -> height ta < fuel ->
  sign_is (vcompare fuel h a b) (tree_order ta tb).
Proof.
  assert (SEQ : forall ts us l m f cmp, Forall2 (denotes h) l ts -> Forall2 (denotes h) m us ->
    (Z.of_nat (length ts) <= INT32_MAX)%Z -> (Z.of_nat (length us) <= INT32_MAX)%Z ->
    Forall (ordinary lo) ts -> Forall (ordinary lo) us -> list_max (map height ts) < f ->
    Forall (fun ta => forall tb a b fuel, denotes h a ta -> denotes h b tb -> ordinary lo ta -> ordinary lo tb -> height ta < fuel ->
       sign_is (vcompare fuel h a b) (tree_order ta tb)) ts -> cmp = vcompare f h ->
    sign_is (compare_sized cmp l m) (by_length tree_order ts us)).
  { intros ts us l m f cmp F1 F2 B1 B2 O1 O2 HF IH ->. apply Forall2_combine in F1 as (L1 & C1). apply Forall2_combine in F2 as (L2 & C2).
    apply compare_sized_sign; auto. intros x t y u I1 I2. rewrite Forall_forall in IH, O1, O2.
    pose proof (in_combine_r _ _ _ _ I1) as It. pose proof (in_combine_r _ _ _ _ I2) as Iu.
    apply IH; auto. pose proof (list_max_le (height t) (map height ts) (in_map height ts t It)). lia. }
  intros ta. induction ta using tree_ind'; intros tb a b' fuel Da Db Oa Ob Hf;
    (destruct fuel as [|f]; [lia|]); cbn [vcompare];
    (destruct (N.eqb_spec a b') as [<-|NE];
     [match goal with |- sign_is _ (tree_order ?t tb) => assert (E : t = tb) by (eapply denotes_fun; eauto); rewrite <- E, tree_order_refl; exists 0%Z; auto end|]);
    inv_den Da c L E F; inv_den Db c2 L2 E2 F2; rewrite L, L2, E, E2; cbn [tree_order kind tag]; try (eexists; split; reflexivity).
  - destruct b, b0; eexists; split; reflexivity.
  - cbn in Oa, Ob. unfold int32_op, in_int32, INT32_MIN, INT32_MAX in *.
    replace ((- 2 ^ 31 <=? z - z0) && (z - z0 <=? 2 ^ 31 - 1))%Z with true by lia. eexists. split; [reflexivity|].
    destruct (Z.compare_spec z z0); [apply Z.compare_eq_iff|apply Z.compare_lt_iff|apply Z.compare_gt_iff]; lia.
  - now apply text_cmp_sign.
  - now apply text_cmp_sign.
  - now apply text_cmp_sign.
  - destruct Oa as (O1 & B1), Ob as (O2 & B2). destruct (text_cmp_sign _ _ O1 O2) as (z & EZ & SZ). rewrite EZ. unfold andthen. cbn [obind]. destruct (Z.eqb_spec z 0) as [->|NZ].
    + cbn in SZ. rewrite <- SZ. eexists. split; [reflexivity|]. rewrite <- (N2Nat.id n), <- (N2Nat.id n0). rewrite size_diff_small by lia. rewrite !N2Nat.id.
      destruct (N.compare_spec n n0); [apply Z.compare_eq_iff|apply Z.compare_lt_iff|apply Z.compare_gt_iff]; lia.
    + exists z. split; [reflexivity|]. rewrite <- SZ. destruct (Z.compare_spec z 0); [contradiction|reflexivity|reflexivity].
  - destruct Oa as (B1 & O1), Ob as (B2 & O2). apply ordinary_list in O1, O2. cbn [height] in Hf. apply (SEQ _ _ _ _ f _ F F2); auto; lia.
  - destruct Oa as (B1 & O1), Ob as (B2 & O2). apply ordinary_list in O1, O2. cbn [height] in Hf. apply (SEQ _ _ _ _ f _ F F2); auto; lia.
  - destruct Oa as (B1 & O1), Ob as (B2 & O2). apply ordinary_list in O1, O2. cbn [height] in Hf. apply (SEQ _ _ _ _ f _ F F2); auto; lia.
Qed.
