(** = does what SpecSet.v says. *)
From Coq Require Import NArith ZArith Bool Lia Arith List String Permutation.
From Coq Require Import ZifyBool ZifyNat ZifyN.
From Verif Require Import Base ListLemmas Vec OString HMap HMapProofs Heap SpecHeap GcProofs VmProofs ValueOps Env Copy Builtins Specials Eval Boot Semver SafeBase SafeRead SafeLib SafeBuiltins SafeSpecials SafeEval SpecTrace SpecSpecial SpecForm SpecCall SpecDefine SpecEval SpecCopy SpecBuiltin SpecWrite SpecSet SpecSeq SpecVec SpecStr OStringProofs VecProofs TraceProofs SpecialProofs SpecialEval CallProofs CopyProofs DefineProofs BuiltinProofs WriteProofs.
Import ListNotations.
Local Open Scope N_scope.
Local Open Scope list_scope.

Lemma put_fresh_data x d s s' : put_fresh x d s = Ret (tt, s') -> data_at s' x = Some d /\ forall y, y <> x -> lookup (all s') y = lookup (all s) y.
Proof.
  unfold put_fresh, put_cell, get_cell, bind. destruct (lookup (all s) x) as [c|] eqn:L; [|discriminate]. cbn. rewrite L. intros [= <-]. unfold data_at. cbn. split.
  - rewrite lookup_update, N.eqb_refl, L. reflexivity.
  - intros y NE. rewrite lookup_update. now rewrite (proj2 (N.eqb_neq _ _) (not_eq_sym NE)).
Qed.
Lemma set_docs_data x d dv s s' : set_docs x d dv s = Ret (tt, s') -> data_at s' x = data_at s x /\ forall y, y <> x -> lookup (all s') y = lookup (all s) y.
Proof.
  unfold set_docs, put_cell, get_cell, bind. destruct (lookup (all s) x) as [c|] eqn:L; [|discriminate]. cbn. rewrite L. intros [= <-]. unfold data_at. cbn. split.
  - rewrite lookup_update, N.eqb_refl, L. reflexivity.
  - intros y NE. rewrite lookup_update. now rewrite (proj2 (N.eqb_neq _ _) (not_eq_sym NE)).
Qed.

(** ** Maps *)
Lemma never_removed hk (k : ref) (m : hmap ref ref) : fst (map_remove (fun _ _ => false) m hk k) = m.
Proof.
  unfold map_remove. replace (remove_elem (fun _ _ : ref => false) k _) with (@None (list (element ref ref))); [reflexivity|].
  generalize (nth (bucket_index hk (List.length (buckets m))) (buckets m) []). clear. induction l as [|x l IH]; cbn; [reflexivity|]. now rewrite <- IH.
Qed.
Lemma removed_entry (keq : ref -> ref -> bool) (m : hmap ref ref) hk (k k0 : ref) e : (forall x y, keq x y = (y =? k0)) -> proper m -> In e (nth (bucket_index hk (List.length (buckets m))) (buckets m) []) -> ekey e = k0 ->
  exists e' m1 rest, fst (map_remove keq m hk k) = m1 /\ ekey e' = k0 /\ proper m1 /\ Permutation (List.concat (buckets m)) (e' :: rest) /\ List.concat (buckets m1) = rest.
Proof.
  intros KE (PL & PN) J EK. unfold map_remove. cbv zeta. set (i := bucket_index hk (List.length (buckets m))) in *.
  assert (LI : (i < List.length (buckets m))%nat) by now apply bucket_index_lt.
  pose proof (@remove_elem_spec ref ref keq k (nth i (buckets m) [])) as RS. destruct (remove_elem keq k (nth i (buckets m) [])) as [b'|].
  - destruct RS as (p & e' & q & EB & -> & EE). rewrite KE in EE. apply N.eqb_eq in EE. destruct (bucket_split (buckets m) i LI) as (bp & bq & EM & LP & SB).
    cbn [fst]. eexists e', _, _. split; [reflexivity|]. split; [exact EE|].
    assert (PM : Permutation (List.concat (buckets m)) (e' :: List.concat (buckets (mkMap (set_bucket i (p ++ q) (buckets m)) (inUse m) (numElements m - 1))))).
    { cbn [buckets]. rewrite SB. rewrite EM at 1. rewrite EB. rewrite !concat_mid. rewrite <- !app_assoc. cbn [app]. rewrite (app_assoc (List.concat bp) p), (app_assoc (List.concat bp) p). symmetry. apply Permutation_middle. }
    split; [|split; [exact PM|reflexivity]]. split.
    + cbn [buckets]. rewrite SB, app_length. cbn. lia.
    + pose proof (Permutation_length PM) as PL2. cbn [List.length buckets] in PL2. cbn [numElements buckets]. rewrite PN. lia.
  - specialize (RS e J). rewrite KE in RS. apply N.eqb_neq in RS. congruence.
Qed.
Lemma assigned_of n m hk k v m1 m' s s1 s2 : vmap_remove n m hk k s = Ret (m1, s1) -> s1 = s -> vmap_put n m1 hk k v s = Ret (m', s2) -> assigned s m hk k v m'.
Proof.
  intros E1 -> E2 PR. unfold vmap_remove, vmap_find, heap_op, bind, obind in E1.
  destruct (find_o (vcompare n (all s)) k (nth (bucket_index hk (List.length (buckets m))) (buckets m) [])) as [o| | | | |] eqn:EF; try discriminate.
  assert (PUT : forall m1, proper m1 -> vmap_put n m1 hk k v s = Ret (m', s2) -> (forall o, find_o (vcompare n (all s)) k (nth (bucket_index hk (List.length (buckets m1))) (buckets m1) []) = Ret o -> o = None) ->
    proper m' /\ Permutation (List.concat (buckets m')) (mkElem hk k [v] :: List.concat (buckets m1))).
  { clear. intros m1 (PL & PN) EQ NF. unfold vmap_put, vmap_find, heap_op, bind, obind in EQ.
    destruct (find_o (vcompare n (all s)) k (nth (bucket_index hk (List.length (buckets m1))) (buckets m1) [])) as [o| | | | |] eqn:EF; try discriminate. specialize (NF o eq_refl). subst o.
    unfold lift in EQ. cbn [no_stack fst snd] in EQ. destruct (map_put (fun _ _ : N => false) m1 hk k v) as [m2| | | | |] eqn:EM; try discriminate. cbn in EQ. injection EQ as <- _.
    pose proof (map_put_num m1 hk k v m2 PL EM PN) as NUM. apply map_put_perm in EM as (PM & LB); [|exact PL]. split; [|exact PM].
    split; [exact LB|]. rewrite NUM, PN. rewrite (Permutation_length PM). reflexivity. }
  destruct o as [e|].
  - destruct (find_equal _ _ _ EF) as (J & C0). cbn in E1. unfold ret in E1. injection E1 as E1. destruct (removed_entry (fun _ k' => k' =? ekey e) m hk k (ekey e) e (fun _ _ => eq_refl) PR J eq_refl) as (e' & mm & rest & EM & EK & PM1 & PE & EC).
    assert (Emm : mm = m1) by (rewrite <- EM, <- E1; reflexivity). clear EM. subst mm. right. exists e', n, (entries m1). split; [|split].
    + unfold entries. rewrite EC, PE. reflexivity.
    + now rewrite EK.
    + intros NK. destruct (PUT m1 PM1 E2) as (P' & PP).
      * intros o EO. eapply find_none; [|exact EO]. intros e1 J1. apply (NK (ekey e1) (evals e1)). unfold entries. apply in_map_iff. exists e1. split; [reflexivity|]. apply in_concat. eexists. split; [apply nth_In; apply bucket_index_lt; apply PM1|exact J1].
      * split; [exact P'|]. unfold entries. rewrite PP. reflexivity.
  - left. exists n. split; [now apply find_all_differ|]. cbn in E1. unfold ret in E1. injection E1 as E1. rewrite never_removed in E1. subst m1.
    destruct (PUT m PR E2) as (P' & PP); [intros o EO; congruence|]. split; [exact P'|]. unfold entries. rewrite PP. reflexivity.
Qed.

Lemma nat_seq_eq k : nat_seq k = seq 0 k.
Proof. induction k as [|k IH]; cbn [nat_seq]; [reflexivity|]. rewrite IH. now rewrite seq_S. Qed.
Lemma nth_firstn {X} (l es : list X) k : Forall2 (fun i e => nth_error l i = Some e) (seq 0 k) es -> es = firstn k l.
Proof.
  revert l es. induction k as [|k IH]; intros l es F; cbn [seq] in F; inversion F as [|i e is es' HE FE]; subst; [reflexivity|]. destruct l as [|q l]; [discriminate|]. injection HE as ->. cbn [firstn]. f_equal. apply IH.
  rewrite <- seq_shift in FE. clear - FE. revert es' FE. induction (seq 0 k) as [|i is IH]; intros es' FE; inversion FE; subst; constructor; auto.
Qed.
Lemma index_nth (m : hmap ref ref) i e : map_get_at_index m (Z.of_nat i) = Some e -> nth_error (List.concat (buckets m)) i = Some e.
Proof. unfold map_get_at_index. destruct (Z.ltb_spec (Z.of_nat i) 0); [lia|]. rewrite at_index_ok by lia. rewrite Nat.sub_0_r. now replace (Z.to_nat (Z.of_nat i)) with i by lia. Qed.

Section Set_.
Context (ev : evaluator) (a : ref) (s0 : vm) (c : cell) (xs : list ref) (A : Inv [a] s0) (L : lookup (all s0) a = Some c) (E : cdata c = DVec xs).
Notation Tr := (Tr ev [a] s0).
Definition F0 : ref -> Prop := fun _ => False.
Lemma tr_reach pre G evs s x : Tr pre G evs s -> In x xs -> reach s x.
Proof using A L E.
  intros H J. destruct (tr_vec _ _ _ _ _ _ _ _ _ _ H (or_introl eq_refl) L E) as (L' & _).
  eapply re_step; [apply re_root; rewrite (a_stack _ _ _ _ _ _ _ (tr_at _ _ _ _ _ _ _ H)); apply in_or_app; right; apply (i_priv _ _ _ A); now left|exact L'|]. apply refers_iff. right. now rewrite E.
Qed.
Lemma reach_part pre G evs s x d y : Tr pre G evs s -> In x xs -> data_at s x = Some d -> dref d y -> reach s y /\ good [a] s y.
Proof using A L E.
  intros H J D R. unfold data_at in D. destruct (lookup (all s) x) as [cx|] eqn:LX; [|discriminate]. injection D as <-. split; [|eapply at_dref; [exact (tr_at _ _ _ _ _ _ _ H)|exact LX|exact R]].
  eapply re_step; [eapply tr_reach; eauto|exact LX|]. apply refers_iff. right. exact R.
Qed.
Lemma tr_renew x d pre evs (Q : unit -> vm -> Prop) s : Tr pre F0 evs s -> good [a] s x -> (forall y, dref d y -> good [a] s y) ->
  (forall s', Tr pre F0 (evs ++ [Renew x d s s']) s' -> data_at s' x = Some d -> (forall y, y <> x -> lookup (all s') y = lookup (all s) y) -> Q tt s') -> wp (put_fresh x d) Q s.
Proof.
  intros H GX GD K. pose proof (any_put_fresh true eq_refl [a] s0 x d pre s (tr_at _ _ _ _ _ _ _ H) GX GD) as W.
  apply wp_record in W. eapply wp_mono; [exact W|]. intros [] s' (A' & EQ). destruct (put_fresh_data _ _ _ _ EQ) as (D & O). apply K; auto. split; [exact A'|].
  exact (trace_snoc ev _ _ _ (Renew x d s s') (tr_tr _ _ _ _ _ _ _ H) EQ).
Qed.
Lemma tr_docs v d dv pre G evs (Q : unit -> vm -> Prop) s : Tr pre G evs s -> ~ In v [a] -> (forall x, d = Some x -> good [a] s x) -> (forall x, dv = Some x -> x < nextId s /\ ~ In x [a]) ->
  (forall s', Tr pre G (evs ++ [Docs v d dv s s']) s' -> data_at s' v = data_at s v -> (forall x, x <> v -> lookup (all s') x = lookup (all s) x) -> Q tt s') -> wp (set_docs v d dv) Q s.
Proof.
  intros H NV GD GV K. assert (W : wp (set_docs v d dv) (fun _ s' => At false [a] s0 pre G s') s).
  { apply (wp_set_docs true [a]); [exact (a_inv _ _ _ _ _ _ _ (tr_at _ _ _ _ _ _ _ H))|discriminate|exact GD|exact GV|discriminate|].
    intros c0 L0 A'. eapply at_write; [exact (tr_at _ _ _ _ _ _ _ H)|split; [exact NV|discriminate]|exact A']. }
  apply wp_record in W. eapply wp_mono; [exact W|]. intros [] s' (A' & EQ). destruct (set_docs_data _ _ _ _ _ EQ) as (D & O). apply K; auto. split; [exact A'|].
  exact (trace_snoc ev _ _ _ (Docs v d dv s s') (tr_tr _ _ _ _ _ _ _ H) EQ).
Qed.
Lemma tr_quiet_data pre G evs {X} (m : M X) (GX : X -> ref -> Prop) (R : X -> vm -> Prop) (Q : X -> vm -> Prop) s : Tr pre G evs s ->
  wp m (fun x s' => At true [a] s [] (GX x) s' /\ R x s') s -> (forall x s', Tr pre (GX x) evs s' -> R x s' -> (forall y, reach s y -> data_at s' y = data_at s y /\ reach s' y) -> Q x s') -> wp m Q s.
Proof.
  intros H W K. eapply wp_mono; [exact W|]. intros x s' (A' & RX). apply K; [split| |].
  - eapply at_call; [exact (tr_at _ _ _ _ _ _ _ H)|exact A'|auto].
  - eapply trace_after; [exact (tr_tr _ _ _ _ _ _ _ H)|]. eapply keeps_incl; [exact (tr_base _ _ _ _ _ _ _ H)|]. eapply keeps_at; exact A'.
  - exact RX.
  - intros y RY. split; [eapply q_data; eauto|]. eapply at_reach; [exact A'|reflexivity|exact RY].
Qed.
Lemma tr_copy n x pre G evs (Q : ref -> vm -> Prop) s : Tr pre G evs s -> good [a] s x -> reach s x ->
  (forall w s', Tr pre (eq w) evs s' -> defined s x w s' -> (forall y, reach s y -> data_at s' y = data_at s y /\ reach s' y) -> Q w s') -> wp (copy_atom n x) Q s.
Proof.
  intros H GX RX K. eapply (tr_quiet_data pre G evs _ (fun w => eq w) (fun w s' => defined s x w s')); [exact H| |intros; apply K; auto].
  eapply wp_mono; [eapply copy_atom_new; [exact (a_inv _ _ _ _ _ _ _ (tr_at _ _ _ _ _ _ _ H))|exact GX|exact RX]|]. intros w s' (A1 & DF & _). auto.
Qed.

Lemma f0_weaken pre G evs s : Tr pre G evs s -> Tr pre F0 evs s. Proof. intros H. eapply tr_weaken; [exact H|intros x []]. Qed.
Lemma same_data s s' : all s' = all s -> forall x, data_at s' x = data_at s x. Proof. intros EQ x. unfold data_at. now rewrite EQ. Qed.
Lemma same_defined s s' x w t : all s' = all s -> defined s x w t -> defined s' x w t.
Proof. intros EQ [d D AT N D'|d D AT N D']; [eapply def_copy|eapply def_same]; eauto; unfold data_at in *; rewrite EQ; auto. Qed.
Lemma same_defined_end s x w t t' : all t' = all t -> defined s x w t -> defined s x w t'.
Proof. intros EQ D. eapply defined_stays; [exact D|]. now rewrite EQ. Qed.
Lemma same_fills self s s' t evs : all s' = all s -> fills self s t evs -> fills self s' t evs.
Proof. intros EQ F. destruct F; econstructor; eauto. eapply same_defined; eauto. Qed.
Lemma same_map_fills self s s' t evs : all s' = all s -> map_fills self s t evs -> map_fills self s' t evs.
Proof. intros EQ F. destruct F; econstructor; eauto. eapply same_defined; eauto. Qed.

(** ** (= x y) *)
Section Two.
Context (x y : ref) (JX : In x xs) (JY : In y xs) (NXY : y <> x) (n : nat).
Lemma other_data pre G evs s s' : Tr pre G evs s -> (forall z, z <> x -> lookup (all s') z = lookup (all s) z) -> data_at s' y = data_at s y.
Proof using NXY. intros _ O. unfold data_at. now rewrite O. Qed.
Lemma fill_spec dy : forall t pre evs s, Tr pre F0 evs s -> data_at s y = Some dy -> (forall z, In z t -> dref dy z) ->
  (exists d, data_at s x = Some d /\ match d with DVec _ | DList _ | DQueue _ None => True | _ => False end) ->
  wp (set_seq n x t) (fun _ s' => exists evs', Tr pre F0 (evs ++ evs') s' /\ fills x s t evs' /\ data_at s' y = Some dy) s.
Proof using A L E JX JY NXY.
  induction t as [|z t IH]; intros pre evs s H DY IT (d & DX & KD); unfold set_seq; cbn [iterM]; [apply wp_ret; exists []; rewrite app_nil_r; split; [exact H|split; [constructor|exact DY]]|].
  destruct (reach_part pre F0 evs s y dy z H JY DY (IT z (or_introl eq_refl))) as (RZ & GZ).
  apply wp_bind, wp_bind. eapply tr_copy; [exact H|exact GZ|exact RZ|]. intros w s1 H1 DF KP.
  destruct (KP x (tr_reach _ _ _ _ _ H JX)) as (DX1 & _). destruct (KP y (tr_reach _ _ _ _ _ H JY)) as (DY1 & _). rewrite DX in DX1. rewrite DY in DY1.
  apply wp_bind. eapply tr_push; [exact H1|has|]. intros s2 H2 E2. rewrite <- (same_data s1 s2 E2) in DX1. rewrite <- (same_data s1 s2 E2) in DY1.
  assert (GW : good [a] s2 w) by (apply (a_good _ _ _ _ _ _ _ (tr_at _ _ _ _ _ _ _ H2)); reflexivity).
  assert (GX : good [a] s2 x) by (eapply wargs_good; [exact L|exact E|exact H2|exact JX]).
  assert (GO : forall d', appended d w d' -> (forall q, dref d' q -> dref d q \/ q = w) -> match d' with DVec _ | DList _ | DQueue _ None => True | _ => False end ->
    wp (put x d') (fun _ s' => wp (pop w) (fun _ s' => wp (set_seq n x t) (fun _ s' => exists evs', Tr pre F0 (evs ++ evs') s' /\ fills x s (z :: t) evs' /\ data_at s' y = Some dy) s') s') s2).
  { intros d' AP DR KD'. eapply tr_write; [exact H2|exact GX| |].
    - intros q R. apply DR in R as [R| ->]; [|exact GW]. eapply reach_part; [exact H2|exact JX|exact DX1|exact R].
    - intros s3 H3 D3 O3. eapply tr_pop; [exact H3|]. intros s4 H4 E4. apply f0_weaken in H4.
      eapply wp_mono; [apply (IH pre (evs ++ [Put x d' s2 s3]) s4 H4)|].
      + rewrite (same_data s3 s4 E4). unfold data_at. rewrite O3 by exact NXY. exact DY1.
      + intros q J. apply IT. now right.
      + exists d'. rewrite (same_data s3 s4 E4). auto.
      + intros [] s5 (evs5 & H5 & K5 & D5). rewrite <- app_assoc in H5. eexists. split; [exact H5|]. split; [|exact D5]. econstructor; [eapply same_defined_end; [exact E2|exact DF]|exact DX1|exact AP|].
        eapply same_fills; [symmetry; exact E4|exact K5]. }
  apply wp_bind. unfold seq_push. apply wp_bind, t_get. intros d2 D2. rewrite DX1 in D2. injection D2 as <-. destruct d as [ | | | | | | | |l| |l [max|]|l| | | | | |]; try contradiction.
  - apply GO; [constructor| |exact I]. intros q R. cbn in *. apply in_app_or in R as [R|[<-|[]]]; auto.
  - apply GO; [apply ap_queue| |exact I]. intros q R. cbn in *. apply in_app_or in R as [R|[<-|[]]]; auto.
  - apply GO; [constructor| |exact I]. intros q R. cbn in *. apply in_app_or in R as [R|[<-|[]]]; auto.
Qed.
Lemma vmap_remove_state k hk m m1 s s1 : vmap_remove n m hk k s = Ret (m1, s1) -> s1 = s.
Proof using. unfold vmap_remove, vmap_find, heap_op, bind, obind. destruct (find_o _ _ _); try discriminate. unfold ret. now intros [= _ <-]. Qed.
Lemma assign_one {X} (rest : M X) k v hk pre G evs s (Q : X -> vm -> Prop) m : Tr pre G evs s -> data_at s x = Some (DMap m) -> good [a] s k -> good [a] s v ->
  (forall m' s', Tr pre G (evs ++ [Put x (DMap m') s s']) s' -> data_at s' x = Some (DMap m') -> (forall z, z <> x -> lookup (all s') z = lookup (all s) z) -> assigned s m hk k v m' -> wp rest Q s') ->
  wp (m1 <- map_of x ;; m2 <- vmap_remove n m1 hk k ;; m3 <- vmap_put n m2 hk k v ;; put x (DMap m3) ;;; rest) Q s.
Proof using A L E JX.
  intros H D GK GV K. pose proof (a_inv _ _ _ _ _ _ _ (tr_at _ _ _ _ _ _ _ H)) as AI. apply wp_bind. unfold map_of. apply wp_bind, t_get. intros d D'. rewrite D in D'. injection D' as <-. apply wp_ret.
  assert (W1 : wp (vmap_remove n m hk k) (fun m1 s1 => s1 = s /\ (forall z, dref (DMap m1) z -> dref (DMap m) z)) s) by (apply (any_vmap_remove true eq_refl [a]); [exact AI|auto]).
  apply wp_record in W1. apply wp_bind. eapply wp_mono; [exact W1|]. clear W1. intros m1 s1 ((-> & DR1) & EQ1).
  assert (W2 : wp (vmap_put n m1 hk k v) (fun m' s1 => s1 = s /\ (forall z, dref (DMap m') z -> z = k \/ z = v \/ dref (DMap m1) z)) s) by (apply (any_vmap_put true eq_refl [a]); [exact AI|auto]).
  apply wp_record in W2. apply wp_bind. eapply wp_mono; [exact W2|]. clear W2. intros m' s1 ((-> & DR2) & EQ2).
  apply wp_bind. eapply tr_write; [exact H|eapply wargs_good; [exact L|exact E|exact H|exact JX]| |].
  - intros z R. apply DR2 in R as [->|[->|R]]; [exact GK|exact GV|]. apply DR1 in R. eapply reach_part; [exact H|exact JX|exact D|exact R].
  - intros s' H' D' O'. apply (K m' s' H' D' O'). eapply assigned_of; [exact EQ1|reflexivity|exact EQ2].
Qed.
Lemma map_fill_spec my : forall is pre evs s, Tr pre F0 evs s -> data_at s y = Some (DMap my) -> (exists m, data_at s x = Some (DMap m)) ->
  wp (iterM (fun i =>
           m <- map_of y ;;
           match map_get_at_index m (Z.of_nat i) with
           | None => undef
           | Some e =>
               v <- lift (single e) ;;
               k <- copy_atom n (ekey e) ;; push k ;;;
               v <- copy_atom n v ;; push v ;;;
               m1 <- map_of x ;; m2 <- vmap_remove n m1 (ehash e) k ;;
               m3 <- vmap_put n m2 (ehash e) k v ;; put x (DMap m3) ;;;
               pop v ;;; pop k
           end) is) (fun _ s' => exists evs' es, Tr pre F0 (evs ++ evs') s' /\ map_fills x s es evs' /\ data_at s' y = Some (DMap my) /\ Forall2 (fun i e => nth_error (List.concat (buckets my)) i = Some e) is es) s.
Proof using A L E JX JY NXY.
  induction is as [|i is IH]; intros pre evs s H DY (mx & DX); cbn [iterM]; [apply wp_ret; exists [], []; rewrite app_nil_r; split; [exact H|split; [constructor|split; [exact DY|constructor]]]|].
  apply wp_bind, wp_bind. unfold map_of at 1. apply wp_bind, t_get. intros d D'. rewrite DY in D'. injection D' as <-. apply wp_ret.
  destruct (map_get_at_index my (Z.of_nat i)) as [e|] eqn:EI; [|apply wp_undef]. apply index_nth in EI. pose proof (nth_error_In _ _ EI) as JE.
  apply wp_bind, wp_lift; [discriminate|]. intros v SV. assert (EV : evals e = [v]) by (unfold single in SV; destruct (evals e) as [|? [|]]; congruence).
  assert (DK : dref (DMap my) (ekey e)) by (exists e; auto). assert (DV : dref (DMap my) v) by (exists e; split; [exact JE|right; rewrite EV; now left]).
  destruct (reach_part pre F0 evs s y _ (ekey e) H JY DY DK) as (RK & GK).
  apply wp_bind. eapply tr_copy; [exact H|exact GK|exact RK|]. intros k s1 H1 DF1 KP1.
  destruct (KP1 x (tr_reach _ _ _ _ _ H JX)) as (DX1 & _). destruct (KP1 y (tr_reach _ _ _ _ _ H JY)) as (DY1 & _). rewrite DX in DX1. rewrite DY in DY1.
  apply wp_bind. eapply tr_push; [exact H1|has|]. intros s2 H2 E2. rewrite <- (same_data s1 s2 E2) in DX1. rewrite <- (same_data s1 s2 E2) in DY1.
  destruct (reach_part (k :: pre) (eq k) evs s2 y _ v H2 JY DY1 DV) as (RV & GV).
  apply wp_bind. eapply tr_copy; [exact H2|exact GV|exact RV|]. intros v' s3 H3 DF3 KP3.
  destruct (KP3 x (tr_reach _ _ _ _ _ H2 JX)) as (DX3 & _). destruct (KP3 y (tr_reach _ _ _ _ _ H2 JY)) as (DY3 & _). rewrite DX1 in DX3. rewrite DY1 in DY3.
  apply wp_bind. eapply tr_push; [exact H3|has|]. intros s4 H4 E4. rewrite <- (same_data s3 s4 E4) in DX3. rewrite <- (same_data s3 s4 E4) in DY3.
  assert (GV' : good [a] s4 v') by (apply (a_good _ _ _ _ _ _ _ (tr_at _ _ _ _ _ _ _ H4)); reflexivity).
  assert (NK : good [a] s1 k) by (apply (a_good _ _ _ _ _ _ _ (tr_at _ _ _ _ _ _ _ H1)); reflexivity).
  assert (GK' : good [a] s4 k).
  { split; [|split; [apply NK|discriminate]]. assert (LT : k < nextId s4); [|exact LT]. apply (i_stack _ _ _ (a_inv _ _ _ _ _ _ _ (tr_at _ _ _ _ _ _ _ H4))). rewrite (a_stack _ _ _ _ _ _ _ (tr_at _ _ _ _ _ _ _ H4)). right. now left. }
  eapply assign_one; [exact H4|exact DX3|exact GK'|exact GV'|]. intros m' s5 H5 D5 O5 AS.
  apply wp_bind. eapply tr_pop; [exact H5|]. intros s6 H6 E6. eapply tr_pop; [exact H6|]. intros s7 H7 E7. apply f0_weaken in H7.
  assert (E75 : all s7 = all s5) by congruence.
  eapply wp_mono; [apply (IH pre _ s7 H7)|].
  - rewrite (same_data s5 s7 E75). unfold data_at. rewrite O5 by exact NXY. exact DY3.
  - exists m'. now rewrite (same_data s5 s7 E75).
  - intros [] s8 (evs8 & es & H8 & K8 & D8 & F8). rewrite <- app_assoc in H8. exists (Put x (DMap m') s4 s5 :: evs8), (e :: es). split; [exact H8|]. split; [|split; [exact D8|constructor; auto]].
    eapply mf_next; [exact EV|exact DF1|eapply same_defined_end; [exact E4|]; eapply same_defined; [symmetry; exact E2|exact DF3]|exact DX3|exact AS|]. eapply same_map_fills; [symmetry; exact E75|exact K8].
Qed.

Lemma copy_doc d pre G evs (Q : ref -> vm -> Prop) s : Tr pre G evs s -> reach s d ->
  (forall d' s', Tr pre (eq d') evs s' -> copies s d d' s' -> (forall z, reach s z -> data_at s' z = data_at s z /\ reach s' z) -> Q d' s') -> wp (copy n d) Q s.
Proof using.
  intros H RD K. pose proof (a_inv _ _ _ _ _ _ _ (tr_at _ _ _ _ _ _ _ H)) as AI. eapply (tr_quiet_data pre G evs _ (fun w => eq w) (fun w s' => copies s d w s')); [exact H| |intros; apply K; auto].
  pose proof (copy_ok true n [a] s d AI (or_introl eq_refl)) as W1. pose proof (copy_spec n [a] s d AI RD) as W2. revert W1 W2. unfold SafeBase.wp. destruct (copy n d s) as [[w s']| | | | |]; try (intros W _; exact W).
  intros (W1 & _) W2. split; [exact W1|]. intros PM. destruct (W2 PM) as (_ & _ & C & _). exact C.
Qed.
Lemma copy_any_doc d pre G evs (Q : ref -> vm -> Prop) s : Tr pre G evs s ->
  (forall d' s', Tr pre (eq d') evs s' -> (forall z, reach s z -> data_at s' z = data_at s z /\ reach s' z) -> Q d' s') -> wp (copy n d) Q s.
Proof using.
  intros H K. pose proof (a_inv _ _ _ _ _ _ _ (tr_at _ _ _ _ _ _ _ H)) as AI. eapply (tr_quiet_data pre G evs _ (fun w => eq w) (fun _ _ => True)); [exact H| |intros; apply K; auto].
  eapply wp_mono; [exact (copy_ok true n [a] s d AI (or_introl eq_refl))|]. intros w s' (W1 & _). auto.
Qed.
Lemma docs_spec pre evs s : Tr pre F0 evs s ->
  wp (c <- get_cell y ;;
        match cdoc c with
        | Some d => d' <- copy n d ;; c <- get_cell x ;; set_docs x (Some d') (cdocvec c)
        | None => ret tt
        end ;;;
        c <- get_cell y ;;
        match cdocvec c with
        | Some d => d' <- copy n d ;; c <- get_cell x ;; set_docs x (cdoc c) (Some d')
        | None => ret tt
        end) (fun _ s' => exists evd evv s1, Tr pre F0 (evs ++ evd ++ evv) s' /\ doc_copied x y s evd s1 /\ docvec_copied x y s1 evv) s.
Proof using A L E JX JY.
  intros H. assert (NX : forall pre G evs s, Tr pre G evs s -> ~ In x [a]) by (intros ? ? ? ? H'; eapply wargs_good; [exact L|exact E|exact H'|exact JX]).
  apply wp_bind, wp_get_cell; [discriminate|]. intros cy LY. apply wp_bind.
  apply (wp_mono true _ (fun _ s' => exists evd, Tr pre F0 (evs ++ evd) s' /\ doc_copied x y s evd s')).
  - destruct (cdoc cy) as [d|] eqn:ED; [|apply wp_ret; exists []; rewrite app_nil_r; split; [exact H|]; constructor; unfold doc_of; now rewrite LY].
    apply wp_bind. eapply copy_doc; [exact H| |].
    + eapply re_step; [eapply tr_reach; [exact H|exact JY]|exact LY|]. apply refers_iff. auto.
    + intros d' s1 H1 C1 _. apply wp_bind, wp_get_cell; [discriminate|]. intros cx LX. eapply tr_docs; [exact H1|eapply NX; exact H1| | |].
      * intros q [= <-]. apply (a_good _ _ _ _ _ _ _ (tr_at _ _ _ _ _ _ _ H1)). reflexivity.
      * intros q EQ. eapply at_docvec; [exact (tr_at _ _ _ _ _ _ _ H1)|exact LX|exact EQ].
      * intros s2 H2 _ _. eexists. split; [eapply f0_weaken; exact H2|]. replace (cdocvec cx) with (docvec_of s1 x) by (unfold docvec_of; now rewrite LX). eapply dc_some; [|exact C1]. unfold doc_of. now rewrite LY.
  - clear H cy LY. intros [] s1 (evd & H & DC). apply wp_bind, wp_get_cell; [discriminate|]. intros cy LY.
    destruct (cdocvec cy) as [d|] eqn:ED; [|apply wp_ret; exists evd, [], s1; rewrite app_nil_r; split; [exact H|]; split; [exact DC|]; constructor; unfold docvec_of; now rewrite LY].
    apply wp_bind. eapply copy_any_doc; [exact H|].
    intros d' s2 H1 _. apply wp_bind, wp_get_cell; [discriminate|]. intros cx LX. eapply tr_docs; [exact H1|eapply NX; exact H1| | |].
    * intros q EQ. eapply at_doc; [exact (tr_at _ _ _ _ _ _ _ H1)|exact LX|exact EQ].
    * intros q [= <-]. assert (GD : good [a] s2 d') by (apply (a_good _ _ _ _ _ _ _ (tr_at _ _ _ _ _ _ _ H1)); reflexivity). split; [apply GD|apply GD].
    * intros s3 H2 _ _. eexists evd, _, s1. rewrite app_assoc. split; [eapply f0_weaken; exact H2|]. split; [exact DC|]. replace (cdoc cx) with (doc_of s2 x) by (unfold doc_of; now rewrite LX). eapply (dv_some _ _ _ d). unfold docvec_of. now rewrite LY.
Qed.
End Two.
Lemma emptied_like d : match d with DEnv _ _ | DFun _ | DMac _ | DSpecial _ | DBuiltin _ => False | _ => True end -> emptied d (empty_like d).
Proof using.
  destruct d; intros K; try contradiction; cbn [empty_like]; try (constructor; exact I). constructor; [split; [cbn; lia|reflexivity]|reflexivity].
Qed.
Lemma value_set_spec n x y pre s : In x xs -> In y xs -> Tr pre F0 [] s -> all s = all s0 ->
  wp (value_set n x y) (fun _ s' => exists evs, Tr pre F0 evs s' /\ set_run s0 x y evs) s.
Proof using A L E.
  intros JX JY H EQ. unfold value_set. destruct (N.eqb_spec x y) as [->|N]; [apply wp_ret; exists []; split; [exact H|now constructor]|].
  assert (NXY : y <> x) by congruence.
  apply wp_bind, t_get. intros d D. assert (D0 : data_at s0 y = Some d) by (rewrite (same_data s s0); [exact D|congruence]).
  assert (GX : good [a] s x) by (eapply wargs_good; [exact L|exact E|exact H|exact JX]).
  match goal with |- wp (match d with DNil => ?t | _ => _ end) _ _ => idtac | _ => idtac end.
  assert (B : forall (m : M unit), match d with DEnv _ _ | DFun _ | DMac _ | DSpecial _ | DBuiltin _ => False | _ => True end ->
    (forall s1, Tr pre F0 [Renew x (empty_like d) s s1] s1 -> data_at s1 x = Some (empty_like d) -> data_at s1 y = Some d ->
      wp m (fun _ s' => exists evs', Tr pre F0 (Renew x (empty_like d) s s1 :: evs') s' /\ match d with DVec l | DList l | DQueue l _ => fills x s1 l evs' | DMap m => map_fills x s1 (firstn (numElements m) (List.concat (buckets m))) evs' | _ => evs' = [] end) s1) ->
    wp (put_fresh x (empty_like d) ;;; m ;;; c <- get_cell y ;;
        match cdoc c with
        | Some d => d' <- copy n d ;; c <- get_cell x ;; set_docs x (Some d') (cdocvec c)
        | None => ret tt
        end ;;;
        c <- get_cell y ;;
        match cdocvec c with
        | Some d => d' <- copy n d ;; c <- get_cell x ;; set_docs x (cdoc c) (Some d')
        | None => ret tt
        end) (fun _ s' => exists evs, Tr pre F0 evs s' /\ set_run s0 x y evs) s).
  { intros m KD W. apply wp_bind. eapply tr_renew; [exact H|exact GX| |].
    - intros z R. apply empty_like_ref in R; [destruct R|destruct d; auto].
    - intros s1 H1 D1 O1. apply wp_bind. eapply wp_mono; [apply (W s1 H1 D1)|].
      + unfold data_at. rewrite O1 by exact NXY. exact D.
      + intros [] s2 (evs' & H2 & K2). eapply wp_mono; [exact (docs_spec x y JX JY n pre _ s2 H2)|]. intros [] s3 (evd & evv & s4 & H3 & DC & DV). eexists. split; [exact H3|].
        cbn [app]. eapply set_other; [exact N|exact D0|apply emptied_like; exact KD|exact K2|exact DC|exact DV]. }
  destruct d as [ |db|dz|df|dt|dt|dt|dmsg dline|l|m|l max|l|db denc|df|df|dp|dp|dv]; try apply wp_abort; apply (B _ I); intros s1 H1 D1 DY1; try (apply wp_ret; exists []; split; [exact H1|reflexivity]).
  - eapply wp_mono; [eapply (fill_spec x y JX JY NXY n (DVec l) l); [exact H1|exact DY1|auto|exists (DVec []); split; [exact D1|exact I]]|]. intros [] s2 (evs' & H2 & K2 & _). exists evs'. auto.
  - unfold set_map. eapply wp_mono; [eapply (map_fill_spec x y JX JY NXY n m); [exact H1|exact DY1|eexists; exact D1]|]. intros [] s2 (evs' & es & H2 & K2 & _ & F2). exists evs'. split; [exact H2|]. rewrite nat_seq_eq in F2. apply nth_firstn in F2. now subst es.
  - eapply wp_mono; [eapply (fill_spec x y JX JY NXY n (DQueue l max) l); [exact H1|exact DY1|auto|exists (DQueue [] None); split; [exact D1|exact I]]|]. intros [] s2 (evs' & H2 & K2 & _). exists evs'. auto.
  - eapply wp_mono; [eapply (fill_spec x y JX JY NXY n (DList l) l); [exact H1|exact DY1|auto|exists (DList []); split; [exact D1|exact I]]|]. intros [] s2 (evs' & H2 & K2 & _). exists evs'. auto.
Qed.

(** ** (= x k y) *)
Lemma overwrite_spec t u i : size_ok t u i -> let (s', ok) := str_overwrite (text_str t) u i in
  match position (List.length t) i with
  | Some p => ucs s' = firstn p t ++ u ++ skipn (p + List.length u) t /\ ok = true
  | None => if (i <? 0)%Z then ucs s' = t /\ ok = false else ucs s' = t ++ u /\ ok = true
  end.
Proof using.
  intros (SZ & SI). unfold str_overwrite. rewrite str_index_position by (unfold str_length, ptrdiff_ok; cbn [ucs text_str]; lia). unfold str_length. cbn [ucs text_str].
  destruct (position (List.length t) i) as [p|] eqn:P.
  - apply position_lt in P. cbn [negb andb]. rewrite overwrite_chars_spec by lia. split; reflexivity.
  - cbn [negb andb]. destruct (i <? 0)%Z eqn:En; [split; reflexivity|]. split; [|reflexivity]. cbn [ucs].
    unfold position in P. destruct ((0 <=? i) && (i <? Z.of_nat (List.length t)))%Z eqn:E1; [discriminate|].
    assert (Es : size_of_ptrdiff i = i) by (unfold size_of_ptrdiff; apply Z.mod_small; lia). rewrite Es. apply overwrite_chars_past; lia.
Qed.
Lemma pads_earlier x k s s' evs : nextId s' <= nextId s -> pads x k s evs -> pads x k s' evs.
Proof using. intros LE P. destruct P; econstructor; eauto. destruct H. split; [lia|assumption]. Qed.
Lemma pads_spec x : In x xs -> forall k pre evs s l, Tr pre F0 evs s -> data_at s x = Some (DVec l) ->
  wp (pad_nils k x) (fun _ s' => exists evs' l', Tr pre F0 (evs ++ evs') s' /\ pads x k s evs' /\ data_at s' x = Some (DVec l') /\ s' = last_after s evs') s.
Proof using A L E.
  intros JX. induction k as [|k IH]; intros pre evs s l H D; cbn [pad_nils]; [apply wp_ret; exists [], l; rewrite app_nil_r; split; [exact H|split; [constructor|split; [exact D|reflexivity]]]|].
  apply wp_bind. eapply (tr_quiet_data pre F0 evs _ (fun w => eq w) (fun w s' => makes s s' w DNil)); [exact H| |].
  { unfold value_nil. eapply q_const; [apply at_start; exact (a_inv _ _ _ _ _ _ _ (tr_at _ _ _ _ _ _ _ H))|intros q []|]. intros w s1 _ B2 M _. split; [exact B2|exact M]. }
  intros w s1 H1 M KP. destruct (KP x (tr_reach _ _ _ _ _ H JX)) as (D1 & _). rewrite D in D1.
  apply wp_bind. unfold vec_push. apply wp_bind, t_get. intros d D'. rewrite D1 in D'. injection D' as <-.
  eapply tr_write; [exact H1|eapply wargs_good; [exact L|exact E|exact H1|exact JX]| |].
  - intros q J. cbn in J. apply in_app_or in J as [J|[<-|[]]]; [eapply reach_part; [exact H1|exact JX|exact D1|exact J]|]. apply (a_good _ _ _ _ _ _ _ (tr_at _ _ _ _ _ _ _ H1)). reflexivity.
  - intros s2 H2 D2 _. apply f0_weaken in H2. eapply wp_mono; [eapply (IH pre _ s2 (l ++ [w]) H2 D2)|]. intros [] s3 (evs3 & l3 & H3 & K3 & D3 & EL). rewrite <- app_assoc in H3. eexists (_ :: evs3), l3. split; [exact H3|]. split; [eapply pad_next; [exact M|exact D1|exact K3]|]. split; [exact D3|].
    subst s3. unfold last_after. cbn [map]. destruct evs3 as [|e evs3]; [reflexivity|]. cbn [map]. generalize (after e). clear. intros q. revert q. induction (map after evs3) as [|b lq IHq]; intros q; [reflexivity|]. apply (IHq b).
Qed.

Definition part_done x k y (r : ref) (s' : vm) : Prop := exists evs, trace ev (stack s0) s0 evs s' /\ part_run s0 x k y evs s' r.
Lemma part_spec n x k y s : In x xs -> In k xs -> In y xs -> Tr [a] F0 [] s -> all s = all s0 ->
  wp (ok <- set_collection n x k y ;; pop a ;;; if (ok : bool) then ret x else new_error) (part_done x k y) s.
Proof using A L E.
  intros JX JK JY H EQ.
  assert (YES : forall evs s', Tr [a] F0 evs s' -> (forall s', part_run s0 x k y evs s' x) -> wp (ret true) (fun ok s' => wp (pop a ;;; if (ok : bool) then ret x else new_error) (part_done x k y) s') s').
  { intros evs s' H' K. apply wp_ret. apply wp_bind. eapply tr_pop; [exact H'|]. intros s2 H2 _. apply wp_ret. exists evs. split; [exact (tr_tr _ _ _ _ _ _ _ H2)|apply K]. }
  assert (NO : forall evs s', Tr [a] F0 evs s' -> (forall s' r, complains s0 s' r -> part_run s0 x k y evs s' r) -> wp (ret false) (fun ok s' => wp (pop a ;;; if (ok : bool) then ret x else new_error) (part_done x k y) s') s').
  { intros evs s' H' K. apply wp_ret. apply wp_bind. eapply tr_pop; [exact H'|]. intros s2 H2 _. eapply tr_complain; [exact H2|]. intros r s3 T C. exists evs. split; [exact T|now apply K]. }
  assert (D0 : forall z, data_at s0 z = data_at s z) by (intros z; apply same_data; congruence).
  assert (GX : good [a] s x) by (eapply wargs_good; [exact L|exact E|exact H|exact JX]).
  assert (GK : good [a] s k) by (eapply wargs_good; [exact L|exact E|exact H|exact JK]).
  assert (GY : good [a] s y) by (eapply wargs_good; [exact L|exact E|exact H|exact JY]).
  assert (NX : nextId s0 <= nextId s) by (exact (a_next _ _ _ _ _ _ _ (tr_at _ _ _ _ _ _ _ H))).
  apply wp_bind. unfold set_collection. apply wp_bind, t_get. intros d D. apply wp_bind, t_get. intros dk DK. apply wp_bind, t_get. intros dy DY.
  assert (PR : forall evs s' r, match d with
  | DStr t =>
      match dk, dy with
      | DInt i, DChar u => exists t' s1 s2, evs = [Put x (DStr t') s1 s2] /\
          (size_ok t u i ->
           match position (List.length t) i with
           | Some p => t' = firstn p t ++ u ++ skipn (p + List.length u) t /\ r = x
           | None => if (i <? 0)%Z then t' = t /\ complains s0 s' r else t' = t ++ u /\ r = x
           end)
      | _, _ => evs = [] /\ complains s0 s' r
      end
  | DVec l =>
      match dk with
      | DInt i =>
          if (i <? 0)%Z then evs = [] /\ complains s0 s' r
          else if (i <? Z.of_nat (List.length l))%Z then
            exists w s1 s2, evs = [Put x (DVec (firstn (Z.to_nat i) l ++ w :: skipn (S (Z.to_nat i)) l)) s1 s2] /\ defined s0 y w s1 /\ r = x
          else exists evp s1 w s2 s3 l', evs = evp ++ [Put x (DVec (l' ++ [w])) s2 s3] /\
            pads x (Z.to_nat i - List.length l) s0 evp /\ s1 = last_after s0 evp /\ defined s1 y w s2 /\ data_at s2 x = Some (DVec l') /\ r = x
      | _ => evs = [] /\ complains s0 s' r
      end
  | DMap _ => exists w hk m m' s1 s2, evs = [Put x (DMap m') s1 s2] /\ defined s0 y w s1 /\ data_at s1 x = Some (DMap m) /\ vhash (all s1) k = Ret hk /\ assigned s1 m hk k w m' /\ r = x
  | DEnv _ _ => exists s1 s2, evs = [Bind x k y s1 s2] /\ r = x
  | DList _ | DQueue _ _ => False
  | _ => evs = [] /\ complains s0 s' r
  end -> part_run s0 x k y evs s' r).
  { intros evs s' r K. exists d, dk, dy. rewrite !D0. split; [exact D|]. split; [exact DK|]. split; [exact DY|exact K]. }
  destruct d as [ |db|dz|df|dt|dt|dt|dmsg dline|l|m|l max|l|db denc|df|df|dp|dp|dv]; try (eapply NO; [exact H|]; intros s' r C; apply PR; split; [reflexivity|exact C]); try apply wp_abort.
  - destruct dy as [ | | | | |u| | | | | | | | | | | |]; try (eapply NO; [exact H|]; intros s' r C; apply PR; destruct dk; (split; [reflexivity|exact C])).
    destruct dk as [ | |i| | | | | | | | | | | | | | |]; try (eapply NO; [exact H|]; intros s' r C; apply PR; split; [reflexivity|exact C]).
    pose proof (overwrite_spec dt u i) as OS. destruct (str_overwrite (text_str dt) u i) as [t' ok]. apply wp_bind. eapply tr_write; [exact H|exact GX|easy|]. intros s1 H1 _ _. cbn [app] in H1.
    destruct ok; [eapply YES; [exact H1|]; intros s'|eapply NO; [exact H1|]; intros s' r C]; apply PR; eexists _, _, _; (split; [reflexivity|]); intros SZ; specialize (OS SZ);
      (destruct (position (List.length dt) i); [destruct OS as (O1 & O2); try discriminate; auto|destruct (i <? 0)%Z; destruct OS as (O1 & O2); try discriminate; auto]).
  - destruct dk as [ | |i| | | | | | | | | | | | | | |]; try (eapply NO; [exact H|]; intros s' r C; apply PR; split; [reflexivity|exact C]).
    destruct (i <? 0)%Z eqn:EI; [eapply NO; [exact H|]; intros s' r C; apply PR; split; [reflexivity|exact C]|].
    destruct (Z.of_nat (List.length l) <=? i)%Z eqn:EL.
    + apply wp_bind. eapply wp_mono; [eapply pads_spec; [exact JX|exact H|exact D]|]. intros [] s1 (evp & l' & H1 & KP & D1 & LA). cbn [app] in H1.
      assert (DY1 : reach s1 y) by (eapply tr_reach; [exact H1|exact JY]).
      apply wp_bind. eapply tr_copy; [exact H1|eapply wargs_good; [exact L|exact E|exact H1|exact JY]|exact DY1|]. intros w s2 H2 DF KE.
      destruct (KE x (tr_reach _ _ _ _ _ H1 JX)) as (D2 & _). rewrite D1 in D2.
      apply wp_bind. unfold vec_push. apply wp_bind, t_get. intros d' D'. rewrite D2 in D'. injection D' as <-.
      eapply tr_write; [exact H2|eapply wargs_good; [exact L|exact E|exact H2|exact JX]| |].
      * intros q J. cbn in J. apply in_app_or in J as [J|[<-|[]]]; [eapply reach_part; [exact H2|exact JX|exact D2|exact J]|]. apply (a_good _ _ _ _ _ _ _ (tr_at _ _ _ _ _ _ _ H2)). reflexivity.
      * intros s3 H3 _ _. apply f0_weaken in H3. eapply YES; [exact H3|]. intros s'. apply PR. replace (i <? Z.of_nat (List.length l))%Z with false by (symmetry; apply Z.ltb_ge; apply Z.leb_le; exact EL).
        exists evp, (last_after s0 evp), w, s2, s3, l'. split; [reflexivity|]. split; [eapply pads_earlier; [exact NX|exact KP]|]. split; [reflexivity|]. split; [|split; [exact D2|reflexivity]].
        eapply same_defined; [|exact DF]. subst s1. destruct evp as [|e evp]; [unfold last_after; cbn; congruence|]. unfold last_after. cbn [map]. clear. generalize (map after evp) (after e). intros ql. induction ql as [|b ql IHq]; intros q; [reflexivity|]. apply (IHq b).
    + apply wp_bind. eapply tr_copy; [exact H|exact GY|eapply tr_reach; [exact H|exact JY]|]. intros w s2 H2 DF KE.
      destruct (KE x (tr_reach _ _ _ _ _ H JX)) as (D2 & _). rewrite D in D2.
      apply wp_bind. unfold vec_of. apply wp_bind, t_get. intros d' D'. rewrite D2 in D'. injection D' as <-. apply wp_ret. apply wp_bind.
      eapply tr_write; [exact H2|eapply wargs_good; [exact L|exact E|exact H2|exact JX]| |].
      * intros q J. cbn in J. assert (J' : q = w \/ In q l). { apply in_app_or in J as [J|[J|J]]; [right; now apply in_firstn in J|auto|right; destruct l; [destruct J|cbn in J; apply in_skipn in J; now right]]. }
        destruct J' as [->|J']; [apply (a_good _ _ _ _ _ _ _ (tr_at _ _ _ _ _ _ _ H2)); reflexivity|]. eapply reach_part; [exact H2|exact JX|exact D2|exact J'].
      * intros s3 H3 _ _. apply f0_weaken in H3. eapply YES; [exact H3|]. intros s'. apply PR. replace (i <? Z.of_nat (List.length l))%Z with true by (symmetry; apply Z.ltb_lt; apply Z.leb_gt; exact EL).
        exists w, s2, s3. split; [reflexivity|]. split; [|reflexivity]. eapply same_defined; [|exact DF]. congruence.
  - apply wp_bind. eapply tr_copy; [exact H|exact GY|eapply tr_reach; [exact H|exact JY]|]. intros w s2 H2 DF KE.
    destruct (KE x (tr_reach _ _ _ _ _ H JX)) as (D2 & _). rewrite D in D2.
    apply wp_bind. unfold hash_of. apply wp_heap; [discriminate|]. intros hk EH.
    eapply assign_one; [exact JX|exact H2|exact D2|eapply wargs_good; [exact L|exact E|exact H2|exact JK]|apply (a_good _ _ _ _ _ _ _ (tr_at _ _ _ _ _ _ _ H2)); reflexivity|].
    intros m' s3 H3 _ _ AS. apply f0_weaken in H3. eapply YES; [exact H3|]. intros s'. apply PR. exists w, hk, m, m', s2, s3. split; [reflexivity|]. split; [eapply same_defined; [|exact DF]; congruence|]. auto.
  - apply wp_bind. eapply tr_bind; [exact H|apply GX|exact GK|exact GY|]. intros s1 H1. cbn [app] in H1. eapply YES; [exact H1|]. intros s'. apply PR. eauto.
Qed.
End Set_.
Lemma set_writer : writer BiSet set_result.
Proof.
  apply writer_intro. intros n m a env xs s c A IE L E. cbn [builtin_call]. unfold b_set. pose proof (tr_start (Eval.eval m) [a] s A) as H.
  apply wp_bind. unfold nargs. apply wp_bind. eapply args_vec; [exact L|exact E|exact (args_start a s A)|]. apply wp_ret.
  assert (ER : (List.length xs < 2 \/ 3 < List.length xs)%nat -> wp new_error (fun r s' => exists evs, trace (Eval.eval m) (stack s) s evs s' /\ set_result s xs evs s' r) s).
  { intros LN. eapply tr_complain; [exact H|]. intros r s' T C. exists []. split; [exact T|]. destruct xs as [|x [|y [|k [|]]]]; cbn in LN; try lia; split; auto. }
  destruct (Nat.ltb (List.length xs) 2 || Nat.ltb 3 (List.length xs))%bool eqn:EN; [apply ER; lia|].
  apply wp_bind. eapply tr_push; [exact H|right; right; left; apply (i_priv _ _ _ A); now left|]. intros s1 H1 E1.
  assert (ARG : forall i x (Q : ref -> vm -> Prop), nth_error xs i = Some x -> Q x s1 -> wp (arg a i) Q s1).
  { intros i x Q NE K. eapply r_arg_later; [exact (tr_at _ _ _ _ _ _ _ H1)|now left|exact L|exact E|]. intros x' NE' _. now replace x' with x by congruence. }
  destruct xs as [|x [|y [|k [|]]]]; try discriminate; cbn [List.length Nat.eqb].
  - apply wp_bind, (ARG 0%nat x); [reflexivity|]. apply wp_bind, t_get. intros d D.
    assert (W : wp (y <- arg a 1 ;; value_set n x y ;;; pop a ;;; ret x) (fun r s' => exists evs, trace (Eval.eval m) (stack s) s evs s' /\ set_result s [x; y] evs s' r) s1).
    { apply wp_bind, (ARG 1%nat y); [reflexivity|]. apply wp_bind. eapply wp_mono; [eapply (value_set_spec (Eval.eval m) a s c [x; y] A L E n x y [a] s1); [now left|right; now left|exact H1|exact E1]|].
      intros [] s2 (evs & H2 & SR). apply wp_bind. eapply tr_pop; [exact H2|]. intros s3 H3 _. apply wp_ret. exists evs. split; [exact (tr_tr _ _ _ _ _ _ _ H3)|]. split; [exact SR|reflexivity]. }
    destruct d; try exact W. apply wp_unmodelled.
  - apply wp_bind, (ARG 0%nat x); [reflexivity|]. apply wp_bind, t_get. intros d D.
    assert (W : wp (k0 <- arg a 1 ;; v <- arg a 2 ;; ok <- set_collection n x k0 v ;; pop a ;;; if (ok : bool) then ret x else new_error) (fun r s' => exists evs, trace (Eval.eval m) (stack s) s evs s' /\ set_result s [x; y; k] evs s' r) s1).
    { apply wp_bind, (ARG 1%nat y); [reflexivity|]. apply wp_bind, (ARG 2%nat k); [reflexivity|]. eapply (part_spec (Eval.eval m) a s c [x; y; k] A L E n x y k s1); [now left|right; now left|right; right; now left|exact H1|exact E1]. }
    destruct d; try exact W. apply wp_unmodelled.
Qed.
