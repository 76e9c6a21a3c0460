(** Lemmas about the permutation iterator (C130). *)
From Coq Require Import List ZArith Bool Arith Lia Permutation Factorial.
From Verif Require Import Base Vec SpecSeq SpecVec VecProofs Permute.
Import ListNotations.

Section P.
Context {X : Type} (zero : X).

Lemma swap_position (v : vec X) a b : vec_wf v -> (Z.of_nat (num v) < 2 ^ 31)%Z -> a < num v -> b < num v ->
  exists v', vec_swap v (Z.of_nat a) (Z.of_nat b) = (v', true) /\ vec_wf v' /\ num v' = num v /\ contents v' = swap_at a b (contents v).
Proof.
  intros W B A C.
  destruct (vec_step_refines zero v (VSwap (Z.of_nat a) (Z.of_nat b)) W) as (v' & R & W' & E); [lia| |].
  { repeat constructor; unfold ptrdiff_ok; lia. }
  assert (P : forall k, k < num v -> position (num v) (Z.of_nat k) = Some k).
  { intros k K. unfold position. destruct (_ && _)%bool eqn:Q.
    - now rewrite Nat2Z.id.
    - apply andb_false_iff in Q. rewrite Z.leb_gt, Z.ltb_ge in Q. lia. }
  cbn [vec_step spec_vec_step] in R, E. rewrite contents_length, !P in * by assumption. cbn [fst snd] in *.
  injection R as R. exists v'. split; [exact R|]. split; [exact W'|]. split; [|exact E].
  unfold vec_swap in R. destruct (norm_index _ _); [|congruence]. destruct (norm_index _ _); [|congruence].
  destruct (nth_error _ _); [|congruence]. destruct (nth_error _ _); [|congruence]. injection R as R. now subst v'.
Qed.

Fixpoint rank (j : nat) (c : list nat) : nat :=
  match c with [] => 0 | x :: r => x * fact j + rank (S j) r end.

Fixpoint below (j : nat) (c : list nat) : Prop :=
  match c with [] => True | x :: r => x <= j /\ below (S j) r end.

Lemma below_slot c : forall j i x, below j c -> x <= j + i -> i < length c -> below j (set_slot i x c).
Proof.
  induction c as [|y r IH]; intros j i x B L I; cbn in I; [lia|]. destruct B as (B1 & B2).
  destruct i as [|i]; unfold set_slot; cbn.
  - split; [lia|exact B2].
  - split; [exact B1|]. apply (IH (S j) i x); [exact B2|lia|lia].
Qed.
Lemma rank_slot c : forall j i x y, nth_error c i = Some y -> rank j (set_slot i x c) + y * fact (j + i) = rank j c + x * fact (j + i).
Proof.
  induction c as [|z r IH]; intros j i x y N; destruct i as [|i]; cbn in N; try discriminate.
  - injection N as ->. unfold set_slot; cbn. rewrite Nat.add_0_r. lia.
  - specialize (IH (S j) i x y N). unfold set_slot in *. cbn [firstn skipn app rank].
    replace (j + S i) with (S j + i) by lia. change (match r with [] => [] | _ :: l => skipn i l end) with (skipn (S i) r). lia.
Qed.
Lemma rank_bound c : forall j, below j c -> rank j c + fact j <= fact (j + length c).
Proof.
  induction c as [|x r IH]; intros j B.
  - cbn. rewrite Nat.add_0_r. lia.
  - destruct B as (B1 & B2). specialize (IH (S j) B2). cbn [rank length]. replace (j + S (length r)) with (S j + length r) by lia.
    cbn [fact] in IH |- *. nia.
Qed.
Lemma below_nth c : forall j i y, below j c -> nth_error c i = Some y -> y <= j + i.
Proof.
  induction c as [|x r IH]; intros j [|i] y B N; cbn in N; try discriminate; destruct B as (B1 & B2).
  - injection N as ->. lia.
  - specialize (IH _ _ _ B2 N). lia.
Qed.

(** A state of the iterator between two calls, [r] true calls after the beginning. *)
Definition between (n r : nat) (p : perm X) : Prop :=
  vec_wf (pvec p) /\ num (pvec p) = n /\ length (counts p) = n /\ below 0 (counts p) /\ rank 0 (counts p) = r /\ at_i p = 1.

Lemma loop_ok n : (Z.of_nat n < 2 ^ 31)%Z -> forall fuel v c i r,
  vec_wf v -> num v = n -> length c = n -> below 0 c -> 1 <= i -> n <= fuel + i -> i <= n ->
  rank 0 c + fact i = S r -> r < fact n ->
  (S r < fact n /\ exists p a b, perm_loop fuel v c i = Ret (p, true) /\ between n (S r) p /\ a < b < n /\ contents (pvec p) = swap_at a b (contents v))
  \/ (S r = fact n /\ exists p, perm_loop fuel v c i = Ret (p, false) /\ pvec p = v /\ length (counts p) = n /\ n <= at_i p).
Proof.
  intros LN. induction fuel as [|f IH]; intros v c i r W N LC B I1 F IN R RN.
  - assert (Q : i <? num v = false) by (apply Nat.ltb_ge; lia). right. cbn [perm_loop]. rewrite Q.
    assert (H : rank 0 c + fact 0 <= fact (0 + length c)) by now apply rank_bound. cbn [fact Nat.add] in H. rewrite LC in H.
    assert (fact n <= fact i) by (apply fact_le; lia).
    assert (i = n) by lia. subst i. split; [lia|]. eexists; split; [reflexivity|]. cbn [pvec counts at_i]. split; [reflexivity|]. split; lia.
  - cbn [perm_loop]. rewrite N. destruct (i <? n) eqn:Q.
    + apply Nat.ltb_lt in Q. destruct (nth_error c i) as [ci|] eqn:E; [|apply nth_error_None in E; lia].
      pose proof (below_nth _ _ _ _ B E) as Bc. cbn in Bc.
      destruct (ci <? i) eqn:L.
      * apply Nat.ltb_lt in L. left.
        assert (S1 : exists a, a < i /\ (if i mod 2 =? 0 then 0%Z else Z.of_nat ci) = Z.of_nat a).
        { destruct (i mod 2 =? 0); [exists 0|exists ci]; split; lia. }
        destruct S1 as (a & A & ->). destruct (swap_position v a i W) as (v' & SW & W' & N' & C'); try lia. rewrite SW.
        pose proof (rank_slot c 0 i (S ci) ci E) as RS. cbn [Nat.add] in RS.
        assert (B' : below 0 (set_slot i (S ci) c)) by (apply below_slot; [exact B|lia|lia]).
        assert (L' : length (set_slot i (S ci) c) = n) by (rewrite set_slot_length; lia).
        assert (R' : rank 0 (set_slot i (S ci) c) = S r) by lia.
        pose proof (rank_bound _ 0 B') as RB. rewrite L', R' in RB. cbn in RB. split; [lia|].
        exists (mkPerm v' (set_slot i (S ci) c) 1), a, i. split; [reflexivity|]. unfold between; cbn [pvec counts at_i].
        split; [|split; [lia|exact C']]. split; [exact W'|]. split; [lia|]. split; [exact L'|]. split; [exact B'|]. split; [exact R'|reflexivity].
      * apply Nat.ltb_ge in L. assert (ci = i) by lia. subst ci.
        pose proof (rank_slot c 0 i 0 i E) as RS. cbn [Nat.add] in RS.
        apply IH; try assumption; try lia.
        -- rewrite set_slot_length; lia.
        -- apply below_slot; [exact B|lia|lia].
        -- change (fact (S i)) with (fact i + i * fact i). lia.
    + apply Nat.ltb_ge in Q. right.
      assert (H : rank 0 c + fact 0 <= fact (0 + length c)) by now apply rank_bound. cbn [fact Nat.add] in H. rewrite LC in H.
      assert (i = n) by lia. subst i. split; [lia|]. eexists; split; [reflexivity|]. cbn [pvec counts at_i]. split; [reflexivity|]. split; lia.
Qed.

Lemma next_ok n r p : (Z.of_nat n < 2 ^ 31)%Z -> between n r p ->
  (S r < fact n /\ exists q a b, perm_next p = Ret (q, true) /\ between n (S r) q /\ a < b < n /\ contents (pvec q) = swap_at a b (contents (pvec p)))
  \/ (S r = fact n /\ exists q, perm_next p = Ret (q, false) /\ pvec q = pvec p /\ length (counts q) = n /\ n <= at_i q).
Proof.
  intros LN (W & N & LC & B & R & I). unfold perm_next. rewrite LC, N, Nat.eqb_refl, I.
  assert (RB : rank 0 (counts p) + fact 0 <= fact (0 + length (counts p))) by now apply rank_bound.
  rewrite LC in RB. cbn [fact Nat.add] in RB.
  destruct n as [|n].
  - right. cbn [fact] in *. split; [lia|]. cbn [perm_loop]. rewrite N. cbn. eexists; split; [reflexivity|]. cbn. auto with arith.
  - apply loop_ok; try assumption; try lia. change (fact 1) with 1. lia.
Qed.

Lemma ended_ok n (p : perm X) : num (pvec p) = n -> length (counts p) = n -> n <= at_i p -> perm_next p = Ret (p, false).
Proof.
  intros N L I. unfold perm_next. rewrite N, L, Nat.eqb_refl.
  destruct n; cbn [perm_loop]; rewrite N; replace (at_i p <? _) with false by (symmetry; apply Nat.ltb_ge; lia); now destruct p.
Qed.

Lemma calls_ended n k (p : perm X) : num (pvec p) = n -> length (counts p) = n -> n <= at_i p -> perm_calls k p = Ret (p, repeat false k).
Proof.
  intros N L I. induction k as [|k IH]; [reflexivity|]. cbn [perm_calls]. rewrite (ended_ok n) by assumption. cbn [obind fst snd]. rewrite IH. reflexivity.
Qed.

Lemma map_const_false k : forall s, map (fun _ : nat => false) (seq s k) = repeat false k.
Proof. induction k as [|k IH]; intros s; cbn; [reflexivity|]. now rewrite IH. Qed.

(** The vectors after each call. *)
Inductive trail (n : nat) : list X -> nat -> list X -> Prop :=
| trail_here l : trail n l 0 l
| trail_swap l a b k l' : a < b < n -> trail n (swap_at a b l) k l' -> trail n l (S k) l'.

Lemma calls_ok n : (Z.of_nat n < 2 ^ 31)%Z -> forall k r p, between n r p ->
  exists q, perm_calls k p = Ret (q, map (fun j => r + S j <? fact n) (seq 0 k))
    /\ vec_wf (pvec q) /\ num (pvec q) = n /\ trail n (contents (pvec p)) (Nat.min k (fact n - 1 - r)) (contents (pvec q)).
Proof.
  intros LN. induction k as [|k IH]; intros r p B.
  - exists p. destruct B as (W & N & _). repeat split; try assumption; try apply W. constructor.
  - cbn [perm_calls seq map].
    destruct (next_ok n r p LN B) as [(L & q & a & b & E & B' & AB & C)|(L & q & E & P & LQ & A)]; rewrite E; cbn [obind fst snd].
    + destruct (IH (S r) q B') as (z & E' & W & N & T). rewrite E'. cbn [obind fst snd]. exists z.
      split; [|split; [exact W|]; split; [exact N|]].
      * f_equal. f_equal. f_equal; [symmetry; apply Nat.ltb_lt; lia|].
        rewrite <- seq_shift, map_map. apply map_ext. intros j. f_equal. lia.
      * replace (Nat.min (S k) (fact n - 1 - r)) with (S (Nat.min k (fact n - 1 - S r))) by lia.
        apply (trail_swap n _ a b); [exact AB|]. now rewrite <- C.
    + destruct B as (W & N & _). rewrite (calls_ended n k q) by (rewrite ?P; assumption). cbn [obind fst snd]. exists q. rewrite P.
      split; [|split; [exact W|]; split; [exact N|]].
      * f_equal. f_equal. f_equal; [symmetry; apply Nat.ltb_ge; lia|].
        rewrite <- (map_const_false k 1). apply map_ext. intros j. symmetry. apply Nat.ltb_ge. lia.
      * replace (Nat.min (S k) (fact n - 1 - r)) with 0 by lia. constructor.
Qed.

Lemma new_between v : vec_wf v -> between (num v) 0 (perm_new v).
Proof.
  intros W. unfold between, perm_new; cbn [pvec counts at_i]. rewrite repeat_length.
  assert (Z : forall m j, rank j (repeat 0 m) = 0 /\ below j (repeat 0 m)).
  { induction m as [|m IH]; intros j; cbn; [auto|]. destruct (IH (S j)). split; [assumption|]. split; [lia|assumption]. }
  destruct (Z (num v) 0). auto 10.
Qed.

Lemma swap_at_perm a b (l : list X) : a < b -> Permutation l (swap_at a b l).
Proof.
  intros L. unfold swap_at. destruct (nth_error l a) as [x|] eqn:A; [|reflexivity]. destruct (nth_error l b) as [y|] eqn:B; [|reflexivity].
  apply nth_error_split in A. destruct A as (l1 & l2 & -> & LA).
  rewrite nth_error_app2 in B by lia. rewrite LA in B. destruct (b - a) as [|m] eqn:M; [lia|]. cbn in B.
  apply nth_error_split in B. destruct B as (l3 & l4 & -> & LB).
  unfold replace_at at 2. rewrite <- LA at 1 2. rewrite firstn_app, firstn_all, Nat.sub_diag, app_nil_r.
  replace (skipn (S (length l1)) (l1 ++ x :: l3 ++ y :: l4)) with (l3 ++ y :: l4)
    by (rewrite skipn_app, skipn_all2, Nat.sub_succ_l, Nat.sub_diag by lia; reflexivity).
  unfold replace_at. replace (l1 ++ y :: l3 ++ y :: l4) with ((l1 ++ y :: l3) ++ y :: l4) by (rewrite <- app_assoc; reflexivity).
  assert (Q : b = length (l1 ++ y :: l3)) by (rewrite app_length; cbn; lia). rewrite Q.
  rewrite firstn_app, firstn_all, Nat.sub_diag, app_nil_r, skipn_app, skipn_all2, Nat.sub_succ_l, Nat.sub_diag by lia. cbn.
  rewrite <- app_assoc. cbn. apply Permutation_app_head.
  rewrite <- !Permutation_middle. apply perm_swap.
Qed.
Lemma trail_perm n l k l' : trail n l k l' -> Permutation l l'.
Proof. induction 1; [reflexivity|]. rewrite <- IHtrail. now apply swap_at_perm. Qed.

(** After any number of calls the iterator is between two calls or at its end. *)
Lemma next_after n r (p : perm X) : (Z.of_nat n < 2 ^ 31)%Z -> between n r p ->
  forall k q rs, perm_calls k p = Ret (q, rs) ->
  (exists r', between n r' q) \/ (num (pvec q) = n /\ length (counts q) = n /\ n <= at_i q).
Proof.
  intros LN B k. revert r p B. induction k as [|k IH]; intros r p B q rs E.
  - injection E as <- <-. eauto.
  - cbn [perm_calls] in E.
    destruct (next_ok n r p LN B) as [(L & z & a & b & E1 & B' & _)|(L & z & E1 & P & LQ & A)]; rewrite E1 in E; cbn [obind fst snd] in E.
    + destruct (perm_calls k z) as [[y ys]| | | | |] eqn:E2; try discriminate. injection E as <- <-. eapply IH; eassumption.
    + destruct B as (W & N & _). rewrite (calls_ended n k z) in E by (rewrite ?P; assumption). injection E as <- <-. right. rewrite P. auto.
Qed.
End P.
