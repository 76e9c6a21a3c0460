(** What -= and -== leave in the machine. *)
From Coq Require Import NArith ZArith Bool Lia Arith List String Permutation.
From Verif Require Import Base ListLemmas OString HMap Heap SpecHeap GcProofs VmProofs ValueOps Env Builtins Eval SafeBase SpecTrace SpecSpecial SpecCall SpecDefine SpecEval SpecValue SpecBuiltin SpecWrite SpecSearch SpecMinus ValueProofs CompareMono TraceProofs SpecialProofs BuiltinProofs WriteProofs WriteFacts.
Import ListNotations.
Local Open Scope N_scope.
Local Open Scope list_scope.

Lemma trace_split ev base l1 : forall l2 s s', trace ev base s (l1 ++ l2) s' -> exists s1, trace ev base s l1 s1 /\ trace ev base s1 l2 s'.
Proof.
  induction l1 as [|e l1 IH]; intros l2 s s' T.
  - exists s. split; [apply t_done, keeps_refl|exact T].
  - cbn [app] in T. inversion T as [|? ? ? ? K H T']; subst. destruct (IH _ _ _ T') as (s1 & T1 & T2). exists s1. split; [econstructor; eauto|exact T2].
Qed.
Lemma put_lookup x d s s' : put x d s = Ret (tt, s') -> forall y, y <> x -> lookup (all s') y = lookup (all s) y.
Proof.
  unfold put, put_cell, get_cell, bind. destruct (lookup (all s) x) as [c|] eqn:L; [|discriminate]. cbn. rewrite L. intros [= <-]. cbn. intros y NE.
  rewrite lookup_update. now rewrite (proj2 (N.eqb_neq _ _) (not_eq_sym NE)).
Qed.
Section Sweep.
Context (ev : evaluator) (base : list ref) (a : ref) (xs : list ref) (x : ref) (NA : forall y, In y xs -> y <> a) (JX : In x xs).
Context (s0 : vm) (l0 t0 : list ref) (like : vm -> ref -> ref -> Prop) (p : ref -> ref -> bool).
Definition elsewhere (st : vm) : Prop := forall y, y <> x -> lookup (all st) y = lookup (all s0) y.
Context (LK : forall st y v, elsewhere st -> In y t0 -> In v l0 -> (like st y v <-> p y v = true)).
Lemma sweep_filter y : In y t0 -> forall st kept rest evs st', sweep (fun s v => like s y v) x st kept rest evs st' ->
  forall s s', elsewhere st -> incl rest l0 -> argued base a xs s -> data_at st x = Some (DVec (kept ++ rest)) -> data_at s x = Some (DVec (kept ++ rest)) -> trace ev base s evs s' ->
  elsewhere st' /\ argued base a xs s' /\ data_at st' x = Some (DVec (kept ++ filter (fun v => negb (p y v)) rest)) /\ data_at s' x = Some (DVec (kept ++ filter (fun v => negb (p y v)) rest)).
Proof using NA JX LK.
  intros JY st kept rest evs st' W. induction W as [st kept|st kept v rest evs st' NP W IH|st kept v rest st1 evs st' PV W IH]; intros s s' EL IN AG DT D T.
  - inversion T as [? ? K|]; subst. split; [exact EL|]. split; [eapply argued_keeps; eauto|]. split; [exact DT|]. eapply argued_data; [exact AG|exact K|exact JX|exact D|easy].
  - assert (PF : p y v = false). { destruct (p y v) eqn:PE; [|reflexivity]. elim NP. apply LK; auto. apply IN. now left. }
    cbn [filter]. rewrite PF. cbn [negb].
    assert (EA : kept ++ v :: filter (fun v => negb (p y v)) rest = (kept ++ [v]) ++ filter (fun v => negb (p y v)) rest) by (rewrite <- app_assoc; reflexivity). rewrite EA.
    apply (IH s s' EL); [intros z J; apply IN; now right|exact AG|rewrite <- app_assoc; exact DT|rewrite <- app_assoc; exact D|exact T].
  - assert (PT : p y v = true) by (apply LK with (st := st); auto; apply IN; now left). cbn [filter]. rewrite PT. cbn [negb].
    inversion T as [|? ? ? ? K H T']; subst. cbn in K, H, T'. pose proof (argued_keeps _ _ _ _ _ AG K) as A1. pose proof (argued_put _ _ _ _ _ _ _ A1 (NA x JX) H) as A2. destruct (put_data _ _ _ _ H) as (D' & O).
    apply (IH st1 s'); [|intros z J; apply IN; now right|exact A2|exact D'|exact D'|exact T'].
    intros z NZ. rewrite (put_lookup _ _ _ _ H z NZ). now apply EL.
Qed.
Lemma filter_filter {X} (f g : X -> bool) l : filter f (filter g l) = filter (fun v => g v && f v)%bool l.
Proof using. induction l as [|v l IH]; [reflexivity|]. cbn [filter]. destruct (g v); cbn [filter andb]; [|exact IH]. destruct (f v); [now rewrite IH|exact IH]. Qed.
Lemma sweeps_filter : forall t evs st, sweeps like x st t evs -> forall s s' l, elsewhere st -> incl t t0 -> incl l l0 -> argued base a xs s -> data_at st x = Some (DVec l) -> data_at s x = Some (DVec l) -> trace ev base s evs s' ->
  data_at s' x = Some (DVec (filter (fun v => negb (existsb (fun y => p y v) t)) l)).
Proof using NA JX LK.
  intros t evs st W. induction W as [st|st y t l1 evs st1 evs' D1 SW W IH]; intros s s' l EL IT IL AG DT D T.
  - inversion T as [? ? K|]; subst. rewrite (argued_data _ _ _ _ _ _ _ AG K JX D) by easy. do 2 f_equal. clear. cbn [existsb negb]. induction l as [|v l IH]; [reflexivity|]. cbn [filter]. now rewrite <- IH.
  - rewrite DT in D1. injection D1 as <-. apply trace_split in T as (s1 & T1 & T2).
    destruct (sweep_filter y (IT y (or_introl eq_refl)) _ _ _ _ _ SW s s1 EL IL AG DT D T1) as (EL1 & AG1 & DT1 & D1). cbn [app] in DT1, D1.
    rewrite (IH s1 s' _ EL1 (fun z J => IT z (or_intror J)) (fun z J => IL z (proj1 (proj1 (filter_In _ _ _) J))) AG1 DT1 D1 T2).
    do 2 f_equal. rewrite filter_filter. apply filter_ext. intros v. cbn [existsb]. now rewrite negb_orb.
Qed.
End Sweep.

(** Trees that do not depend on [x]. *)
Lemma denotes_elsewhere s st x : (forall y, y <> x -> lookup (all st) y = lookup (all s) y) -> forall t v, denotes (all s) v t -> ~ inside s x v -> denotes (all st) v t.
Proof.
  intros EL. assert (G : forall n t v, (height t < n)%nat -> denotes (all s) v t -> ~ inside s x v -> denotes (all st) v t).
  { induction n as [|n IH]; intros t v HT D NI; [lia|]. assert (NX : v <> x) by (intros ->; apply NI, in_self).
    assert (KID : forall c l ts, lookup (all s) v = Some c -> items_of (cdata c) = l -> (list_max (map height ts) < n)%nat -> Forall2 (denotes (all s)) l ts -> Forall2 (denotes (all st)) l ts).
    { intros c l ts LC IC HL F. assert (HF : Forall (fun t => height t < n)%nat ts). { clear - HL. induction ts as [|t ts IH]; constructor; unfold list_max in *; cbn in HL; [lia|]. apply IH. lia. }
      assert (NF : forall w, In w l -> ~ inside s x w). { intros w J I. apply NI. eapply in_item; [unfold data_at; rewrite LC; reflexivity|rewrite IC; exact J|exact I]. }
      clear - F HF NF IH. induction F as [|w t l ts D F IHF]; constructor; inversion HF; subst.
      - apply IH; auto. apply NF. now left.
      - apply IHF; auto. intros z J. apply NF. now right. }
    destruct D as [v c L1 E1|v c b L1 E1|v c z L1 E1|v c t L1 E1|v c t L1 E1|v c t L1 E1|v c t k L1 E1|v c l ts L1 E1 F|v c l m ts L1 E1 F|v c l ts L1 E1 F]; cbn [height] in HT; pose proof L1 as L0; rewrite <- EL in L1 by exact NX.
    - eapply den_nil; eauto.
    - eapply den_bool; eauto.
    - eapply den_int; eauto.
    - eapply den_str; eauto.
    - eapply den_char; eauto.
    - eapply den_sym; eauto.
    - eapply den_err; eauto.
    - eapply den_vec; eauto. eapply KID; [exact L0|now rewrite E1|lia|exact F].
    - eapply den_queue; eauto. eapply KID; [exact L0|now rewrite E1|lia|exact F].
    - eapply den_list; eauto. eapply KID; [exact L0|now rewrite E1|lia|exact F]. }
  intros t v. apply (G (S (height t))). lia.
Qed.
Lemma inside_denotes s x : forall v, inside s x v -> forall t, denotes (all s) v t -> exists t', denotes (all s) x t' /\ (height t' <= height t)%nat.
Proof.
  intros v I. induction I as [|v d w DV JW I IH]; intros t D; [exists t; split; [exact D|lia]|].
  assert (K : forall l ts, In w l -> Forall2 (denotes (all s)) l ts -> exists t1, denotes (all s) w t1 /\ (height t1 <= list_max (map height ts))%nat).
  { clear. intros l ts J F. induction F as [|v t l ts D F IH]; [contradiction|]. cbn [map list_max fold_right]. destruct J as [->|J]; [exists t; split; [exact D|]; unfold list_max; cbn; lia|]. destruct (IH J) as (t1 & D1 & H1). exists t1. split; [exact D1|]. unfold list_max in *. cbn. lia. }
  unfold data_at in DV. destruct D as [v c L1 E1|v c b L1 E1|v c z L1 E1|v c t L1 E1|v c t L1 E1|v c t L1 E1|v c t k L1 E1|v c l ts L1 E1 F|v c l m ts L1 E1 F|v c l ts L1 E1 F]; rewrite L1 in DV; cbn in DV; injection DV as <-; rewrite E1 in JW; cbn in JW; try contradiction;
  destruct (K _ _ JW F) as (t1 & D1 & H1); destruct (IH t1 D1) as (t2 & D2 & H2); exists t2; (split; [exact D2|]); cbn [height]; lia.
Qed.
(** No element of [x] contains it, if they have trees. *)
Lemma elements_apart s x l us : data_at s x = Some (DVec l) -> Forall2 (denotes (all s)) l us -> forall v, In v l -> ~ inside s x v.
Proof.
  intros D F v J I. assert (exists t, denotes (all s) v t /\ (height t < height (TVec us))%nat) as (t & DT & HT).
  { clear - F J. cbn [height]. induction F as [|w t l ts D F IH]; [contradiction|]. destruct J as [->|J]; [exists t; split; [exact D|]; unfold list_max; cbn; lia|]. destruct (IH J) as (t1 & D1 & H1). exists t1. split; [exact D1|]. unfold list_max in *. cbn. lia. }
  destruct (inside_denotes s x v I t DT) as (t' & D' & H'). unfold data_at in D. destruct (lookup (all s) x) as [c|] eqn:LX; [|discriminate]. injection D as D.
  pose proof (denotes_fun _ _ _ _ D' (den_vec _ _ _ _ _ LX D F)). subst t'. lia.
Qed.
