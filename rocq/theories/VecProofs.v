(** Proofs about the vector model. *)
From Coq Require Import List NArith ZArith Bool Lia Arith.
From Coq Require Import ZifyBool ZifyNat.
From Verif Require Import Base ListLemmas Vec SpecSeq SpecVec.
Import ListNotations.


Lemma norm_index_position n i :
  (Z.of_nat n < 2 ^ 63)%Z -> ptrdiff_ok i -> norm_index n i = position n i.
Proof.
  unfold ptrdiff_ok, norm_index, position, size_of_ptrdiff; intros Hn Hi.
  destruct (i <? 0)%Z eqn:En.
  - replace ((0 <=? i) && (i <? Z.of_nat n))%Z with false by lia.
    rewrite <- (Z_mod_plus_full i 1 (2 ^ 64)), Z.mod_small by lia.
    replace (i + 1 * 2 ^ 64 <? Z.of_nat n)%Z with false by lia.
    replace ((- Z.of_nat n <=? i) && true)%Z with (0 <=? Z.of_nat n + i)%Z by lia.
    replace (Z.of_nat n + i <? Z.of_nat n)%Z with true by lia.
    rewrite andb_true_r. reflexivity.
  - rewrite Z.mod_small by lia.
    replace (0 <=? i)%Z with true by lia. cbn [andb].
    destruct (i <? Z.of_nat n)%Z eqn:E; [reflexivity|].
    rewrite andb_false_r. reflexivity.
Qed.

Lemma position_lt n i k : position n i = Some k -> k < n.
Proof.
  unfold position.
  destruct ((0 <=? i) && (i <? Z.of_nat n))%Z eqn:E1.
  - intros H; injection H as <-. lia.
  - destruct ((- Z.of_nat n <=? i) && (i <? 0))%Z eqn:E2; [|discriminate].
    intros H; injection H as <-. lia.
Qed.

Lemma position_last n : 0 < n -> position n (-1) = Some (n - 1).
Proof.
  intros H. unfold position.
  replace ((0 <=? -1) && (-1 <? Z.of_nat n))%Z with false by lia.
  replace ((- Z.of_nat n <=? -1) && (-1 <? 0))%Z with true by lia.
  f_equal; lia.
Qed.

Lemma position_0 n : 0 < n -> position n 0 = Some 0.
Proof.
  intros H. unfold position.
  replace ((0 <=? 0) && (0 <? Z.of_nat n))%Z with true by lia. reflexivity.
Qed.

Section VecProofs.
Context {X : Type} (zero : X).
Notation vec := (vec X).

Definition vec_wf (v : vec) : Prop := num v <= allocated v /\ 1 <= allocated v.



Lemma contents_length v : vec_wf v -> length (contents v) = num v.
Proof. intros [H _]. unfold contents. rewrite firstn_length. unfold allocated in H. lia. Qed.

Lemma vec_new_wf n : vec_wf (vec_new zero n) /\ contents (vec_new zero n) = [].
Proof.
  unfold vec_wf, allocated, contents, vec_new; cbn [slots num].
  rewrite repeat_length. split; [destruct n; lia | reflexivity].
Qed.

Lemma grow_ok v f : vec_wf v ->
  vec_wf (vec_grow zero v f) /\ contents (vec_grow zero v f) = contents v
  /\ 2 * allocated v <= allocated (vec_grow zero v f)
  /\ num (vec_grow zero v f) = num v.
Proof.
  intros [H1 H2]. unfold allocated in *.
  assert (HL : length (slots (vec_grow zero v f)) = length (slots v) * Nat.max 2 f).
  { unfold vec_grow, allocated; cbn [slots].
    rewrite app_length, firstn_length, repeat_length.
    assert (2 <= Nat.max 2 f) by lia. nia. }
  assert (length (slots v) * 2 <= length (slots v) * Nat.max 2 f) by (apply Nat.mul_le_mono_l; lia).
  unfold vec_wf, allocated. rewrite HL. cbn [vec_grow num].
  repeat split; try lia.
  unfold contents, vec_grow; cbn [slots num].
  rewrite firstn_app_exact; [reflexivity | rewrite firstn_length; lia].
Qed.

Lemma grow_until_ok fuel index v : vec_wf v -> index < allocated v + fuel ->
  exists v', grow_until zero fuel index v = Ret v' /\ vec_wf v' /\ contents v' = contents v
             /\ num v' = num v /\ index < allocated v' /\
             (index < allocated v -> v' = v).
Proof.
  revert v; induction fuel as [|fuel IH]; intros v Hv Hf; cbn [grow_until].
  - destruct (index <? allocated v) eqn:E; [|lia].
    exists v; repeat split; try apply Hv; lia.
  - destruct (index <? allocated v) eqn:E.
    + exists v; repeat split; try apply Hv; lia.
    + set (g := vec_grow zero v ((index + allocated v - 1) / allocated v)).
      destruct (grow_ok v ((index + allocated v - 1) / allocated v) Hv) as (W & C & L & N).
      fold g in W, C, L, N.
      destruct Hv as [Hv1 Hv2].
      destruct (IH g W ltac:(lia)) as (v' & R & W' & C' & N' & I' & _).
      exists v'. split; [exact R|]. split; [exact W'|].
      rewrite C', C, N', N. repeat split; try lia.
Qed.

Lemma set_slot_length (s : list X) i x : i < length s -> length (set_slot i x s) = length s.
Proof.
  intro H. unfold set_slot. rewrite app_length, firstn_length. cbn [length].
  rewrite skipn_length. lia.
Qed.

Lemma firstn_set_slot_lt (s : list X) i x n :
  i < n -> n <= length s -> firstn n (set_slot i x s) = replace_at i x (firstn n s).
Proof.
  intros H1 H2. unfold set_slot, replace_at.
  rewrite firstn_app_ge; rewrite firstn_length; [|lia].
  rewrite firstn_firstn. f_equal; [f_equal; lia|].
  replace (n - Nat.min i (length s)) with (S (n - S i)) by lia.
  cbn [firstn]. f_equal.
  rewrite firstn_skipn_comm. f_equal. f_equal; lia.
Qed.

Lemma firstn_set_slot_S (s : list X) i x :
  i < length s -> firstn (S i) (set_slot i x s) = firstn i s ++ [x].
Proof.
  intros H. unfold set_slot.
  rewrite firstn_app_ge; rewrite firstn_length; [|lia].
  replace (S i - Nat.min i (length s)) with 1 by lia. reflexivity.
Qed.

Lemma push_back_ok v x : vec_wf v ->
  exists v', vec_push_back zero v x = Ret v' /\ vec_wf v' /\ contents v' = contents v ++ [x].
Proof.
  intros Hv. unfold vec_push_back, vec_insert_at.
  destruct (grow_until_ok (S (num v)) (num v) v Hv ltac:(lia)) as (v' & R & W & C & N & I & _).
  rewrite R; cbn [obind]. eexists; split; [reflexivity|].
  rewrite N. rewrite Nat.max_id, Nat.leb_refl.
  unfold vec_wf, allocated, contents; cbn [slots num].
  unfold allocated in I. rewrite set_slot_length by exact I.
  repeat split; try lia.
  rewrite firstn_set_slot_S by exact I. f_equal.
  unfold contents in C. rewrite N in C. exact C.
Qed.

Lemma insert_at_inside_ok v x k : vec_wf v -> k < num v ->
  exists v', vec_insert_at zero v x k = Ret v' /\ vec_wf v' /\ contents v' = replace_at k x (contents v).
Proof.
  intros Hv Hk. unfold vec_insert_at. pose proof Hv as [Hv1 Hv2].
  destruct (grow_until_ok (S k) k v Hv ltac:(lia)) as (v' & R & W & C & N & I & E).
  rewrite R; cbn [obind]. specialize (E ltac:(lia)). subst v'.
  eexists; split; [reflexivity|].
  replace (Nat.max (num v) k) with (num v) by lia.
  replace (num v <=? k) with false by lia.
  unfold vec_wf, allocated, contents; cbn [slots num]. unfold allocated in *.
  rewrite set_slot_length by exact I. repeat split; try lia.
  rewrite firstn_set_slot_lt by lia. reflexivity.
Qed.

Lemma insert_before_ok v x i k : vec_wf v -> norm_index (num v) i = Some k -> k < num v ->
  exists v', vec_insert_before zero v x i = Ret (v', true) /\ vec_wf v'
             /\ contents v' = insert_at k x (contents v).
Proof.
  intros Hv Hn Hk. unfold vec_insert_before. rewrite Hn.
  set (v' := if allocated v <=? num v then vec_grow zero v 2 else v).
  assert (HV : vec_wf v' /\ contents v' = contents v /\ num v' = num v /\ num v < allocated v').
  { subst v'. destruct (allocated v <=? num v) eqn:E.
    - destruct (grow_ok v 2 Hv) as (W & C & L & N). destruct Hv as [Hv1 Hv2].
      repeat split; try apply W; try assumption. lia.
    - repeat split; try apply Hv. lia. }
  destruct HV as (W & C & N & A). clearbody v'.
  eexists; split; [reflexivity|].
  unfold allocated in A.
  assert (HL : length (firstn k (slots v') ++ x :: firstn (num v' - k) (skipn k (slots v'))
                       ++ skipn (S (num v')) (slots v')) = length (slots v')).
  { rewrite app_length; cbn [length]; rewrite app_length, !firstn_length, !skipn_length. lia. }
  split.
  - unfold vec_wf, allocated; cbn [slots num]. rewrite HL. lia.
  - unfold contents at 1; cbn [slots num].
    rewrite app_comm_cons, app_assoc.
    rewrite firstn_app_exact.
    2:{ rewrite app_length; cbn [length]; rewrite !firstn_length, skipn_length. lia. }
    unfold insert_at. rewrite <- C. unfold contents. f_equal.
    + rewrite firstn_firstn. f_equal; lia.
    + f_equal. rewrite firstn_skipn_comm. f_equal. f_equal; lia.
Qed.

Lemma remove_ok v i k : vec_wf v -> norm_index (num v) i = Some k -> k < num v ->
  exists v', vec_remove_at v i = (v', true) /\ vec_wf v'
             /\ contents v' = delete_at k (contents v) /\ limit v' = limit v /\ num v' = num v - 1
             /\ allocated v' = allocated v.
Proof.
  intros [H1 H2] Hn Hk. unfold vec_remove_at. rewrite Hn. unfold allocated in *.
  eexists; split; [reflexivity|].
  assert (HL : length (firstn k (slots v) ++ firstn (num v - k - 1) (skipn (S k) (slots v))
                       ++ skipn (num v - 1) (slots v)) = length (slots v)).
  { rewrite !app_length, !firstn_length, !skipn_length. lia. }
  unfold vec_wf, allocated; cbn [slots num limit]. rewrite HL.
  repeat split; try lia.
  unfold contents at 1; cbn [slots num].
  rewrite app_assoc, firstn_app_exact.
  2:{ rewrite app_length, !firstn_length, skipn_length. lia. }
  unfold delete_at, contents. f_equal.
  - rewrite firstn_firstn. f_equal; lia.
  - rewrite firstn_skipn_comm. f_equal. f_equal; lia.
Qed.

Lemma compact_ok v : vec_wf v -> vec_wf (vec_compact v) /\ contents (vec_compact v) = contents v.
Proof.
  intros [H1 H2]. unfold vec_compact.
  destruct (allocated v <=? 1) eqn:E1; [repeat split; lia|].
  destruct (allocated v <=? num v * 3) eqn:E2; [repeat split; lia|].
  destruct (allocated v <=? limit v) eqn:E3; [repeat split; lia|].
  set (n0 := match num v with O => 1 | S _ => num v end).
  assert (Hn0 : num v <= n0 /\ 1 <= n0) by (subst n0; destruct (num v); lia).
  set (n := if n0 <? limit v then limit v else n0).
  assert (Hn : num v <= n /\ 1 <= n) by (subst n; destruct (n0 <? limit v) eqn:E4; lia).
  clearbody n.
  unfold vec_wf, allocated, contents in *; cbn [slots num].
  rewrite firstn_length, firstn_firstn.
  split; [lia|]. f_equal; lia.
Qed.

Lemma remove_last_ok n v : vec_wf v -> num v = n ->
  (Z.of_nat n < 2 ^ 63)%Z -> vec_wf (remove_last n v) /\ num (remove_last n v) = 0.
Proof.
  revert v; induction n as [|n IH]; intros v Hv Hn Hb; cbn [remove_last]; [easy|].
  assert (HI : norm_index (num v) (-1) = Some (num v - 1)).
  { rewrite norm_index_position by (unfold ptrdiff_ok; lia). apply position_last; lia. }
  destruct (remove_ok v (-1) _ Hv HI ltac:(lia)) as (v' & R & W & _ & _ & N & _).
  rewrite R; cbn [fst]. apply IH; [exact W | lia | lia].
Qed.

Lemma clear_ok v : vec_wf v -> (Z.of_nat (num v) < 2 ^ 63)%Z ->
  vec_wf (vec_clear v) /\ contents (vec_clear v) = [].
Proof.
  intros Hv Hb. unfold vec_clear.
  destruct (num v) as [|n] eqn:E.
  - split; [exact Hv|]. unfold contents. rewrite E. reflexivity.
  - destruct (remove_last_ok (S n) v Hv E Hb) as [W N].
    destruct (compact_ok _ W) as [W' C]. split; [exact W'|].
    rewrite C. unfold contents. rewrite N. reflexivity.
Qed.

Lemma nth_error_slots (v : vec) k : k < num v -> nth_error (slots v) k = nth_error (contents v) k.
Proof. intro H. unfold contents. rewrite nth_error_firstn_lt by exact H. reflexivity. Qed.


Lemma delete_last (l : list X) : l <> [] -> delete_at (length l - 1) l = removelast l.
Proof.
  intro H. unfold delete_at.
  replace (S (length l - 1)) with (length l) by (destruct l; [easy|cbn; lia]).
  rewrite skipn_all, app_nil_r.
  rewrite <- (firstn_all l) at 3. rewrite removelast_firstn_pred by lia. reflexivity.
Qed.

Lemma vec_step_refines v o :
  vec_wf v -> (Z.of_nat (num v) < 2 ^ 63)%Z -> Forall ptrdiff_ok (op_indices o) ->
  exists v', vec_step zero v o = Ret (v', snd (spec_vec_step (contents v) o))
             /\ vec_wf v' /\ contents v' = fst (spec_vec_step (contents v) o).
Proof.
  intros Hv Hb Ho.
  pose proof (contents_length v Hv) as HL.
  destruct o as [x|x|x i|i x|x i|i| | | |i j|n]; cbn [vec_step spec_vec_step op_indices] in *.
  - destruct (push_back_ok v x Hv) as (v' & R & W & C). rewrite R; cbn [obind fst snd]. eauto.
  - unfold vec_push_front. destruct (num v) as [|n] eqn:En.
    + destruct (push_back_ok v x Hv) as (v' & R & W & C). rewrite R; cbn [obind fst snd].
      exists v'; repeat split; try apply W. rewrite C.
      destruct (contents v); [reflexivity | discriminate].
    + assert (HI : norm_index (num v) 0 = Some 0).
      { rewrite norm_index_position by (unfold ptrdiff_ok; lia). apply position_0; lia. }
      destruct (insert_before_ok v x 0 0 Hv HI ltac:(lia)) as (v' & R & W & C).
      exists v'; split; [exact R|]. split; [exact W|]. rewrite C. reflexivity.
  - inversion Ho as [|? ? Hi _]; subst. rewrite HL.
    destruct (position (num v) i) as [k|] eqn:P.
    + destruct (insert_before_ok v x i k Hv) as (v' & R & W & C).
      * rewrite norm_index_position; assumption.
      * eapply position_lt; eassumption.
      * exists v'; auto.
    + unfold vec_insert_before. rewrite norm_index_position, P by assumption. eauto.
  - inversion Ho as [|? ? Hi _]; subst. rewrite HL. unfold vec_replace.
    rewrite norm_index_position by assumption.
    destruct (position (num v) i) as [k|] eqn:P; [|eauto].
    destruct (insert_at_inside_ok v x k Hv) as (v' & R & W & C); [eapply position_lt; eassumption|].
    rewrite R; cbn [obind]. eauto.
  - inversion Ho as [|? ? Hi _]; subst. rewrite HL. unfold vec_replace_or_push.
    rewrite norm_index_position by assumption.
    destruct (position (num v) i) as [k|] eqn:P.
    + destruct (insert_at_inside_ok v x k Hv) as (v' & R & W & C); [eapply position_lt; eassumption|].
      rewrite R; cbn [obind]. eauto.
    + destruct (push_back_ok v x Hv) as (v' & R & W & C). rewrite R; cbn [obind]. eauto.
  - inversion Ho as [|? ? Hi _]; subst. rewrite HL.
    destruct (position (num v) i) as [k|] eqn:P.
    + destruct (remove_ok v i k Hv) as (v' & R & W & C & _).
      * rewrite norm_index_position; assumption.
      * eapply position_lt; eassumption.
      * rewrite R. eauto.
    + unfold vec_remove_at. rewrite norm_index_position, P by assumption. eauto.
  - unfold vec_pop_back. destruct (num v) as [|n] eqn:En.
    + destruct (contents v); [|discriminate]. exists v. repeat split; try apply Hv.
      unfold contents. rewrite En. reflexivity.
    + assert (HI : norm_index (num v) (-1) = Some (num v - 1)).
      { rewrite norm_index_position by (unfold ptrdiff_ok; lia). apply position_last; lia. }
      destruct (remove_ok v (-1) _ Hv HI ltac:(lia)) as (v' & R & W & C & _).
      rewrite R. destruct (compact_ok v' W) as [W' C'].
      replace (num v - 1) with (length (contents v) - 1) in C by lia.
      rewrite delete_last in C by (intro E; rewrite E in HL; discriminate).
      destruct (contents v) as [|y l]; [discriminate|].
      cbn [fst snd]. eexists; split; [reflexivity|]. split; [exact W'|]. now rewrite C'.
  - unfold vec_pop_front. destruct (num v) as [|n] eqn:En.
    + destruct (contents v); [|discriminate]. exists v. repeat split; try apply Hv.
      unfold contents. rewrite En. reflexivity.
    + assert (HI : norm_index (num v) 0 = Some 0).
      { rewrite norm_index_position by (unfold ptrdiff_ok; lia). apply position_0; lia. }
      destruct (remove_ok v 0 _ Hv HI ltac:(lia)) as (v' & R & W & C & _).
      rewrite R. destruct (compact_ok v' W) as [W' C'].
      destruct (contents v) as [|y l]; [discriminate|].
      cbn [fst snd]. eexists; split; [reflexivity|]. split; [exact W'|].
      rewrite C', C. reflexivity.
  - destruct (clear_ok v Hv Hb) as [W C]. eauto.
  - inversion Ho as [|? ? Hi Hj]; subst. inversion Hj as [|? ? Hj' _]; subst.
    rewrite HL. unfold vec_swap. rewrite !norm_index_position by assumption.
    destruct (position (num v) i) as [a|] eqn:Pa; [|eauto].
    destruct (position (num v) j) as [b|] eqn:Pb; [|eauto].
    pose proof (position_lt _ _ _ Pa) as La. pose proof (position_lt _ _ _ Pb) as Lb.
    unfold swap_at. rewrite !nth_error_slots by assumption.
    destruct (nth_error (contents v) a) as [xa|] eqn:Xa; [|apply nth_error_None in Xa; lia].
    destruct (nth_error (contents v) b) as [xb|] eqn:Xb; [|apply nth_error_None in Xb; lia].
    cbn [fst snd].
    eexists; split; [reflexivity|]. destruct Hv as [Hv1 Hv2]. unfold allocated in *.
    assert (L1 : length (set_slot a xb (slots v)) = length (slots v)) by (apply set_slot_length; lia).
    split.
    + unfold vec_wf, allocated; cbn [slots num]. rewrite set_slot_length; rewrite L1; lia.
    + unfold contents at 1; cbn [slots num].
      rewrite firstn_set_slot_lt by lia. rewrite firstn_set_slot_lt by lia. reflexivity.
  - eexists; split; [reflexivity|]. split; [exact Hv | reflexivity].
Qed.

Lemma insert_at_length (l : list X) k x : length (insert_at k x l) = S (length l).
Proof.
  unfold insert_at. rewrite app_length. cbn [length].
  rewrite firstn_length, skipn_length. lia.
Qed.
Lemma replace_at_length (l : list X) k x : k < length l -> length (replace_at k x l) = length l.
Proof.
  intro H. unfold replace_at. rewrite app_length. cbn [length].
  rewrite firstn_length, skipn_length. lia.
Qed.
Lemma delete_at_length (l : list X) k : length (delete_at k l) <= length l.
Proof.
  unfold delete_at. rewrite app_length. rewrite firstn_length, skipn_length. lia.
Qed.

Lemma spec_step_length (l : list X) o : length (fst (spec_vec_step l o)) <= S (length l).
Proof.
  destruct o as [x|x|x i|i x|x i|i| | | |i j|n]; cbn [spec_vec_step].
  - cbn [fst]; rewrite app_length; cbn; lia.
  - cbn; lia.
  - destruct (position _ _) eqn:P; cbn [fst]; [rewrite insert_at_length|]; lia.
  - destruct (position _ _) eqn:P; cbn [fst]; [|lia].
    rewrite replace_at_length; [lia | eapply position_lt; eassumption].
  - destruct (position _ _) eqn:P; cbn [fst].
    + rewrite replace_at_length; [lia | eapply position_lt; eassumption].
    + rewrite app_length; cbn; lia.
  - destruct (position _ _) eqn:P; cbn [fst]; [|lia].
    pose proof (delete_at_length l n); lia.
  - destruct l as [|y l]; cbn [fst]; [lia|].
    rewrite <- delete_last by discriminate.
    pose proof (delete_at_length (y :: l) (length (y :: l) - 1)); lia.
  - destruct l; cbn; lia.
  - cbn; lia.
  - destruct (position (length l) i) as [a|] eqn:P; [|cbn [fst]; lia].
    destruct (position (length l) j) as [b|] eqn:Q; cbn [fst]; [|lia].
    unfold swap_at. destruct (nth_error l a) eqn:A; [|lia]. destruct (nth_error l b) eqn:B; [|lia].
    pose proof (position_lt _ _ _ P); pose proof (position_lt _ _ _ Q).
    rewrite replace_at_length; rewrite replace_at_length; lia.
  - cbn; lia.
Qed.

Lemma vec_run_refines ops v :
  vec_wf v -> (Z.of_nat (num v) + Z.of_nat (length ops) < 2 ^ 63)%Z ->
  Forall ptrdiff_ok (flat_map op_indices ops) ->
  exists v', vec_run zero v ops = Ret (v', snd (spec_vec_run (contents v) ops))
             /\ vec_wf v' /\ contents v' = fst (spec_vec_run (contents v) ops).
Proof.
  revert v; induction ops as [|o ops IH]; intros v Hv Hb Ho; cbn [vec_run spec_vec_run].
  - exists v; auto.
  - cbn [flat_map] in Ho. apply Forall_app in Ho as [Ho1 Ho2]. cbn [length] in Hb.
    destruct (vec_step_refines v o Hv ltac:(lia) Ho1) as (v1 & R1 & W1 & C1).
    rewrite R1; cbn [obind fst snd].
    pose proof (spec_step_length (contents v) o) as HS.
    rewrite <- C1 in HS. rewrite !contents_length in HS by assumption.
    destruct (IH v1 W1 ltac:(lia) Ho2) as (v2 & R2 & W2 & C2).
    rewrite R2; cbn [obind fst snd].
    destruct (spec_vec_step (contents v) o) as [l1 b1] eqn:S1. cbn [fst snd] in *. rewrite C1 in *.
    destruct (spec_vec_run l1 ops) as [l2 bs] eqn:S2. cbn [fst snd] in *.
    exists v2; auto.
Qed.

Lemma vec_get_ok (v : vec) i : vec_wf v -> (Z.of_nat (num v) < 2 ^ 63)%Z -> ptrdiff_ok i ->
  vec_get v i = match position (length (contents v)) i with
                | Some k => nth_error (contents v) k
                | None => None
                end.
Proof.
  intros Hv Hb Hi. unfold vec_get. rewrite norm_index_position by assumption.
  rewrite contents_length by assumption.
  destruct (position (num v) i) as [k|] eqn:P; [|reflexivity].
  apply nth_error_slots. eapply position_lt; eassumption.
Qed.

(** Inserting past the end. *)
Lemma insert_at_gap v x index : vec_wf v -> num v <= index ->
  exists v' gap, vec_insert_at zero v x index = Ret v' /\ vec_wf v'
    /\ contents v' = contents v ++ gap ++ [x] /\ length gap = index - num v
    /\ (allocated v <= index -> gap = repeat zero (index - num v)).
Proof.
  intros Hv Hi. unfold vec_insert_at.
  destruct (grow_until_ok (S index) index v Hv ltac:(lia)) as (v' & R & W & C & N & I & _).
  rewrite R; cbn [obind].
  eexists; exists (skipn (num v) (firstn index (slots v'))).
  split; [reflexivity|].
  rewrite N. replace (Nat.max (num v) index) with index by lia. rewrite Nat.leb_refl.
  unfold allocated in *.
  assert (HL : length (skipn (num v) (firstn index (slots v'))) = index - num v)
    by (rewrite skipn_length, firstn_length; lia).
  split.
  { unfold vec_wf, allocated; cbn [slots num]. rewrite set_slot_length by lia. lia. }
  split.
  { unfold contents at 1; cbn [slots num]. rewrite firstn_set_slot_S by exact I.
    rewrite app_assoc. f_equal. rewrite <- C. unfold contents. rewrite N.
    rewrite <- (firstn_skipn (num v) (firstn index (slots v'))) at 1.
    f_equal. rewrite firstn_firstn. f_equal; lia. }
  split; [exact HL|].
  intros HA.
  (* after at least one growth, everything from num on is zero *)
  assert (Z : forall fuel u u', grow_until zero fuel index u = Ret u' -> num u = num v ->
             num u <= length (slots u) ->
             (skipn (num v) (slots u) = repeat zero (length (slots u) - num v) \/ length (slots u) <= index) ->
             skipn (num v) (slots u') = repeat zero (length (slots u') - num v)).
  { clear. induction fuel as [|fuel IH]; intros u u' R Hn Hle HZ; cbn [grow_until] in R.
    - destruct (index <? allocated u) eqn:E; [|discriminate]. injection R as <-.
      unfold allocated in E. destruct HZ as [HZ|HZ]; [exact HZ | lia].
    - destruct (index <? allocated u) eqn:E.
      + injection R as <-. unfold allocated in E. destruct HZ as [HZ|HZ]; [exact HZ | lia].
      + assert (Es : slots (vec_grow zero u ((index + allocated u - 1) / allocated u)) =
          firstn (num v) (slots u) ++ repeat zero (allocated u * Nat.max 2 ((index + allocated u - 1) / allocated u) - num v))
          by (unfold vec_grow; cbn [slots]; rewrite Hn; reflexivity).
        assert (Lf : length (firstn (num v) (slots u)) = num v) by (rewrite firstn_length; lia).
        apply IH in R; [exact R | exact Hn | |].
        * rewrite Es, app_length, Lf. cbn [vec_grow num]. rewrite Hn. lia.
        * left. rewrite Es.
          rewrite skipn_app_exact by (rewrite Lf; reflexivity).
          rewrite app_length, Lf, repeat_length. f_equal; lia. }
  specialize (Z _ _ _ R eq_refl (proj1 Hv) (or_intror HA)).
  rewrite <- firstn_skipn_comm' with (a := index - num v) (b := num v) at 1 || idtac.
  replace index with (num v + (index - num v)) at 1 by lia.
  rewrite <- firstn_skipn_comm, Z.
  replace (length (slots v') - num v) with ((index - num v) + (length (slots v') - index)) by lia.
  rewrite repeat_app. apply firstn_app_exact. rewrite repeat_length. reflexivity.
Qed.

End VecProofs.
