(** The edit distance computed by the dynamic programme is the least number
    of single-character edits. *)
From Coq Require Import List NArith Bool Arith Lia.
From Coq Require Import ZifyBool ZifyNat ZifyN.
From Verif Require Import Base SpecEdit Leven ListLemmas.
Import ListNotations.

Fixpoint lev (a : list N) : list N -> nat :=
  match a with
  | [] => fun b => length b
  | x :: a' =>
      fix lev_b (b : list N) : nat :=
        match b with
        | [] => S (length a')
        | y :: b' => if N.eqb x y then lev a' b'
                     else S (Nat.min (lev a' b) (Nat.min (lev_b b') (lev a' b')))
        end
  end.

Lemma lev_nil_r a : lev a [] = length a.
Proof. destruct a; reflexivity. Qed.

Lemma lev_cons x a y b : lev (x :: a) (y :: b) =
  if N.eqb x y then lev a b
  else S (Nat.min (lev a (y :: b)) (Nat.min (lev (x :: a) b) (lev a b))).
Proof. reflexivity. Qed.

Lemma lev_sym a : forall b, lev a b = lev b a.
Proof.
  induction a as [|x a IH]; intros b; [now rewrite lev_nil_r|].
  induction b as [|y b IHb]; [reflexivity|].
  rewrite !lev_cons, (N.eqb_sym y x). destruct (N.eqb x y); [apply IH|].
  rewrite IHb, (IH (y :: b)), (IH b). lia.
Qed.

Lemma lev_neighbours n : forall a b, length a + length b <= n ->
  (forall x, lev (x :: a) b <= S (lev a b)) /\ (forall y, lev a b <= S (lev a (y :: b))).
Proof.
  induction n as [|n IH]; intros a b Hn.
  - destruct a, b; cbn in Hn; try lia. split; intros; cbn; lia.
  - split.
    + intros x. destruct b as [|y b].
      * rewrite !lev_nil_r. cbn. lia.
      * rewrite lev_cons. destruct (N.eqb x y).
        -- apply (IH a b). cbn in Hn. lia.
        -- lia.
    + intros y. destruct a as [|x a].
      * cbn. lia.
      * rewrite lev_cons. cbn in Hn. destruct (IH a b ltac:(lia)) as [H1 H3].
        specialize (H1 x); specialize (H3 y). destruct (N.eqb x y); lia.
Qed.

Lemma lev_up x a b : lev (x :: a) b <= S (lev a b).
Proof. apply (lev_neighbours (length a + length b)). lia. Qed.
Lemma lev_down x a b : lev a b <= S (lev (x :: a) b).
Proof. rewrite (lev_sym a b), (lev_sym (x :: a) b). apply (lev_neighbours (length b + length a)). lia. Qed.

Lemma lev_context x a a' : (forall b, lev a b <= S (lev a' b)) ->
  forall b, lev (x :: a) b <= S (lev (x :: a') b).
Proof.
  intros H b. induction b as [|y b IHb].
  - specialize (H []). rewrite !lev_nil_r in *. cbn in *. lia.
  - rewrite !lev_cons. destruct (N.eqb x y); [apply H|].
    pose proof (H (y :: b)). pose proof (H b). lia.
Qed.

Lemma lev_edit1 a a' : edit1 a a' -> forall b, lev a b <= S (lev a' b).
Proof.
  intros [p c q|p c q|p c d q].
  - induction p as [|x p IH]; cbn [app]; [intros; apply lev_down | now apply lev_context].
  - induction p as [|x p IH]; cbn [app]; [intros; apply lev_up | now apply lev_context].
  - induction p as [|x p IH]; cbn [app]; [|now apply lev_context].
    induction b as [|y b IHb]; [cbn; lia|].
    rewrite !lev_cons. pose proof (lev_up c q (y :: b)). pose proof (lev_up c q b).
    pose proof (lev_down d q (y :: b)). pose proof (lev_up d q b).
    pose proof (lev_down d q b). 
    assert (lev q b <= S (lev q (y :: b)))
      by (rewrite (lev_sym q b), (lev_sym q (y :: b)); apply lev_down).
    destruct (N.eqb c y), (N.eqb d y); lia.
Qed.

Lemma lev_refl a : lev a a = 0.
Proof. induction a as [|x a IH]; [reflexivity|]. now rewrite lev_cons, N.eqb_refl. Qed.

Lemma lev_lower n a b : edits n a b -> lev a b <= n.
Proof.
  induction 1 as [a|n a b c H1 H2 IH]; [rewrite lev_refl; lia|].
  pose proof (lev_edit1 _ _ H1 c). lia.
Qed.

Lemma edit1_cons x a b : edit1 a b -> edit1 (x :: a) (x :: b).
Proof.
  intros [p c q|p c q|p c d q]; [apply (ed_ins (x :: p))|apply (ed_del (x :: p))|apply (ed_sub (x :: p))].
Qed.
Lemma edits_cons x n a b : edits n a b -> edits n (x :: a) (x :: b).
Proof. induction 1; [constructor | econstructor; [apply edit1_cons; eassumption | assumption]]. Qed.
Lemma edits_nil_l b : edits (length b) [] b.
Proof.
  induction b as [|y b IH]; [constructor|].
  cbn. econstructor; [apply (ed_ins [] y [])|]. now apply edits_cons.
Qed.
Lemma edits_nil_r a : edits (length a) a [].
Proof. induction a as [|y a IH]; [constructor|]. cbn. econstructor; [apply (ed_del [] y a)|exact IH]. Qed.

Lemma lev_upper a : forall b, edits (lev a b) a b.
Proof.
  induction a as [|x a IH]; intros b; [apply edits_nil_l|].
  induction b as [|y b IHb]; [apply (edits_nil_r (x :: a))|].
  rewrite lev_cons. destruct (N.eqb x y) eqn:E.
  - apply N.eqb_eq in E as ->. apply edits_cons, IH.
  - destruct (Nat.min_dec (lev a (y :: b)) (Nat.min (lev (x :: a) b) (lev a b))) as [->| ->].
    + econstructor; [apply (ed_del [] x a)|apply IH].
    + destruct (Nat.min_dec (lev (x :: a) b) (lev a b)) as [->| ->].
      * econstructor; [apply (ed_ins [] y (x :: a))|]. cbn. apply edits_cons, IHb.
      * econstructor; [apply (ed_sub [] x y a)|]. cbn. apply edits_cons, IH.
Qed.

Lemma edit1_rev a b : edit1 a b -> edit1 (rev a) (rev b).
Proof.
  intros [p c q|p c q|p c d q]; repeat rewrite rev_app_distr; cbn [rev]; rewrite <- ?app_assoc; cbn [app].
  - apply ed_ins.
  - apply ed_del.
  - apply ed_sub.
Qed.
Lemma edits_rev n a b : edits n a b -> edits n (rev a) (rev b).
Proof. induction 1; [constructor | econstructor; [apply edit1_rev; eassumption | assumption]]. Qed.

Lemma lev_rev_distance a b : edit_distance a b (lev (rev a) (rev b)).
Proof.
  split.
  - pose proof (edits_rev _ _ _ (lev_upper (rev a) (rev b))) as H. now rewrite !rev_involutive in H.
  - intros n H. apply lev_lower, edits_rev, H.
Qed.

(** The dynamic programme. *)
Definition P (a b : list N) (i j : nat) : nat := lev (rev (firstn i a)) (rev (firstn j b)).

Lemma firstn_S_rev (a : list N) i : i < length a -> rev (firstn (S i) a) = nth i a 0%N :: rev (firstn i a).
Proof.
  revert a; induction i as [|i IH]; intros [|x a] H; cbn in H; try lia; [reflexivity|].
  rewrite firstn_cons. cbn [rev]. rewrite IH by lia. reflexivity.
Qed.

Lemma P_step a b i j : 1 <= i <= length a -> 1 <= j <= length b ->
  P a b i j = if N.eqb (nth (i - 1) a 0%N) (nth (j - 1) b 0%N) then P a b (i - 1) (j - 1)
              else Nat.min (P a b (i - 1) j + 1) (Nat.min (P a b i (j - 1) + 1) (P a b (i - 1) (j - 1) + 1)).
Proof.
  intros Hi Hj. destruct i as [|i]; [lia|]; destruct j as [|j]; [lia|].
  replace (S i - 1) with i by lia. replace (S j - 1) with j by lia.
  unfold P. rewrite (firstn_S_rev a i), (firstn_S_rev b j) by lia. rewrite lev_cons.
  destruct (N.eqb _ _); lia.
Qed.

Lemma P_0_l a b j : j <= length b -> P a b 0 j = j.
Proof. intros H. unfold P. cbn [firstn rev lev]. rewrite rev_length, firstn_length. lia. Qed.
Lemma P_0_r a b i : i <= length a -> P a b i 0 = i.
Proof. intros H. unfold P. cbn [firstn rev]. rewrite lev_nil_r, rev_length, firstn_length. lia. Qed.

(** Cells known to be right after [i] cells of column [j] were filled. *)
Definition good (a b : list N) (m : matrix) (i j : nat) : Prop :=
  forall i' j', i' <= length a -> j' <= length b ->
    (i' = 0 \/ j' < j \/ (j' = j /\ i' <= i)) \/ j' = 0 -> m i' j' = P a b i' j'.

Lemma column_good a b j n m : 1 <= j <= length b -> forall i, i + n = length a ->
  good a b m i j -> good a b (fold_left (lev_cell a b j) (seq (S i) n) m) (length a) j.
Proof.
  intros Hj. revert m; induction n as [|n IH]; intros m i Hi Hg.
  - cbn. now replace (length a) with i by lia.
  - cbn [seq fold_left]. apply IH; [lia|].
    intros i' j' Hi' Hj' Hc. unfold lev_cell.
    assert (Hv : P a b (S i) j =
      if N.eqb (nth (S i - 1) a 0%N) (nth (j - 1) b 0%N) then m (S i - 1) (j - 1)
      else Nat.min (m (S i - 1) j + 1) (Nat.min (m (S i) (j - 1) + 1) (m (S i - 1) (j - 1) + 1))).
    { rewrite P_step by lia.
      rewrite (Hg (S i - 1) (j - 1)) by lia.
      rewrite (Hg (S i - 1) j) by lia.
      rewrite (Hg (S i) (j - 1)) by lia. reflexivity. }
    destruct (N.eqb (nth (S i - 1) a 0%N) (nth (j - 1) b 0%N)); unfold set_cell;
      destruct (Nat.eqb i' (S i)) eqn:E1; destruct (Nat.eqb j' j) eqn:E2; cbn [andb];
      try (apply Hg; lia);
      apply Nat.eqb_eq in E1, E2; subst; symmetry; exact Hv.
Qed.

Lemma fill_good a b n : forall m j, j + n = length b -> good a b m (length a) j ->
  good a b (fold_left (lev_column a b) (seq (S j) n) m) (length a) (length b).
Proof.
  induction n as [|n IH]; intros m j Hj Hg.
  - cbn. now replace (length b) with j by lia.
  - cbn [seq fold_left]. apply IH; [lia|]. unfold lev_column. apply column_good; [lia|lia|].
    intros i' j' Hi' Hj' Hc. apply Hg; lia.
Qed.

Lemma levenshtein_lev a b : levenshtein a b = lev (rev a) (rev b).
Proof.
  unfold levenshtein, lev_fill.
  rewrite (fill_good a b (length b) lev_init 0 ltac:(lia)); try lia.
  - unfold P. now rewrite !firstn_all.
  - intros i j Hi Hj Hc. unfold lev_init. destruct i as [|i]; [now rewrite P_0_l|].
    destruct j as [|j]; [now rewrite P_0_r | lia].
Qed.

Lemma levenshtein_distance a b : edit_distance a b (levenshtein a b).
Proof. rewrite levenshtein_lev. apply lev_rev_distance. Qed.

Lemma levenshtein_sym a b : levenshtein a b = levenshtein b a.
Proof. rewrite !levenshtein_lev. apply lev_sym. Qed.

Lemma levenshtein_zero a b : levenshtein a b = 0 <-> a = b.
Proof.
  destruct (levenshtein_distance a b) as [H1 H2]. split.
  - intros E. rewrite E in H1. now inversion H1.
  - intros ->. rewrite levenshtein_lev. apply lev_refl.
Qed.

Lemma lev_le_max a : forall b, lev a b <= Nat.max (length a) (length b).
Proof.
  induction a as [|x a IH]; intros b; [cbn; lia|].
  destruct b as [|y b]; [cbn; lia|].
  rewrite lev_cons. pose proof (IH b). cbn [length]. destruct (N.eqb x y); lia.
Qed.

Lemma levenshtein_le_max a b : levenshtein a b <= Nat.max (length a) (length b).
Proof. rewrite levenshtein_lev. pose proof (lev_le_max (rev a) (rev b)). now rewrite !rev_length in H. Qed.
