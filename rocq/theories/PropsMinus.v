(** C95: what -= and -== do.  See SpecMinus.v. *)
From Coq Require Import NArith ZArith Bool Lia Arith String List Permutation.
From Verif Require Import Base HMap Heap SpecHeap ValueOps Env Builtins Eval Read Boot Run Checks SafeBase SpecText SpecStr SpecTrace SpecSpecial SpecForm SpecCall SpecDefine SpecEval SpecValue SpecBuiltin SpecWrite SpecSearch SpecMinus SpecFrame TraceProofs SpecialForms ValueProofs SearchProofs BuiltinProofs BuiltinCases WriteProofs WriteFacts SetFacts CompareMono MinusProofs MinusFacts PropsValue PropsBuiltin PropsWrite PropsSet.
Import ListNotations.
Local Open Scope N_scope.
Local Open Scope string_scope.
Local Open Scope list_scope.

Theorem C95_minus_equals : exists p, named "-=" p /\ writer p minus_eq_result.
Proof. exists BiMinusEq. split; [library_name|exact minus_eq_writer]. Qed.
Print Assumptions C95_minus_equals.
Theorem C95_minus_equals_equals : exists p, named "-==" p /\ writer p minus_eq_eq_result.
Proof. exists BiMinusEqEq. split; [library_name|exact minus_eq_eq_writer]. Qed.
Print Assumptions C95_minus_equals_equals.
(** (-== x y ...) leaves the elements that are none of the y. *)
Theorem C95_identity : forall s x t l s' r, data_at s x = Some (DVec l) -> is_call "-==" s (x :: t) s' r ->
  r = x /\ data_at s' x = Some (DVec (filter (fun v => negb (existsb (N.eqb v) t)) l)).
Proof.
  intros s x t l s' r D C. eapply (call_writes "-==" BiMinusEqEq) in C as (ev & a & evs & AG & NA & T & R); [|library_name|exact minus_eq_eq_writer]. destruct R as (d & D' & R).
  rewrite D in D'. injection D' as <-. destruct R as (SW & ->). split; [reflexivity|].
  rewrite (sweeps_filter ev (stack s) a (x :: t) x NA (or_introl eq_refl) s l t (fun _ y v => y = v) N.eqb) with (t := t) (evs := evs) (st := s) (s := s) (l := l); auto.
  - do 2 f_equal. apply filter_ext. intros v. f_equal. induction t as [|y u IH]; [reflexivity|]. cbn [existsb]. rewrite N.eqb_sym. f_equal. clear. induction u as [|z u IH]; [reflexivity|]. cbn [existsb]. now rewrite N.eqb_sym, IH.
  - intros st y v _ _ _. split; intros; [now apply N.eqb_eq|now apply N.eqb_eq].
  - intros y _. reflexivity.
  - apply incl_refl.
  - apply incl_refl.
Qed.
Print Assumptions C95_identity.
(** (-= x y ...) leaves the elements that are equal to none of the y, if [x] is
    not inside any of these. *)
Theorem C95_vector : forall s x t l us ts lo s' r, data_at s x = Some (DVec l) -> is_call "-=" s (x :: t) s' r ->
  Forall2 (denotes (all s)) l us -> Forall2 (denotes (all s)) t ts -> Forall (ordinary lo) us -> Forall (ordinary lo) ts -> (forall y, In y t -> ~ inside s x y) ->
  r = x /\ exists l', data_at s' x = Some (DVec l') /\ unlike ts l us l'.
Proof.
  intros s x t l us ts lo s' r D C FU FT OU OT NI. eapply (call_writes "-=" BiMinusEq) in C as (ev & a & evs & AG & NA & T & R); [|library_name|exact minus_eq_writer]. destruct R as (d & D' & R).
  rewrite D in D'. injection D' as <-. destruct R as (SW & ->). split; [reflexivity|].
  set (N0 := S (list_max (map height us) + list_max (map height ts))).
  set (p := fun y v => match vcompare N0 (all s) y v with Ret 0%Z => true | _ => false end).
  assert (TU : forall v, In v l -> exists u, In u us /\ denotes (all s) v u /\ ordinary lo u /\ (height u < N0)%nat).
  { assert (G : forall k, (list_max (map height us) <= k)%nat -> forall v, In v l -> exists u, In u us /\ denotes (all s) v u /\ ordinary lo u /\ (height u <= k)%nat).
    { clear - FU OU. induction FU as [|v u l us DV F IH]; intros k HK w J; [contradiction|]. inversion OU; subst. unfold list_max in *. cbn in HK. destruct J as [<-|J]; [exists u; split; [now left|]; split; [exact DV|]; split; [assumption|lia]|].
      destruct (IH H2 k ltac:(lia) w J) as (u' & J' & Q). exists u'. split; [now right|exact Q]. }
    intros v J. destruct (G _ (Nat.le_refl _) v J) as (u & J' & DU & OU' & HU). exists u. unfold N0. repeat split; auto. lia. }
  assert (TT : forall v, In v t -> exists u, In u ts /\ denotes (all s) v u /\ ordinary lo u /\ (height u < N0)%nat).
  { assert (G : forall k, (list_max (map height ts) <= k)%nat -> forall v, In v t -> exists u, In u ts /\ denotes (all s) v u /\ ordinary lo u /\ (height u <= k)%nat).
    { clear - FT OT. induction FT as [|v u l us DV F IH]; intros k HK w J; [contradiction|]. inversion OT; subst. unfold list_max in *. cbn in HK. destruct J as [<-|J]; [exists u; split; [now left|]; split; [exact DV|]; split; [assumption|lia]|].
      destruct (IH H2 k ltac:(lia) w J) as (u' & J' & Q). exists u'. split; [now right|exact Q]. }
    intros v J. destruct (G _ (Nat.le_refl _) v J) as (u & J' & DU & OU' & HU). exists u. unfold N0. repeat split; auto. lia. }
  assert (PQ : forall y v ty tv, In y t -> In v l -> denotes (all s) y ty -> denotes (all s) v tv -> (p y v = true <-> ty = tv)).
  { intros y v ty tv JY JV DY DV. destruct (TT y JY) as (ty' & _ & DY' & OY & HY). destruct (TU v JV) as (tv' & _ & DV' & OV & HV). rewrite (denotes_fun _ _ _ _ DY DY'), (denotes_fun _ _ _ _ DV DV').
    destruct (C36_equality_is_structural_partial (all s) lo y v ty' tv' N0 DY' DV' OY OV HY) as (b & E & B). unfold p. unfold vequal in E. destruct (vcompare N0 (all s) y v) as [z| | | | |]; try discriminate. cbn in E. injection E as <-. rewrite <- B. destruct z; cbn; split; congruence. }
  exists (filter (fun v => negb (existsb (fun y => p y v) t)) l). split.
  - apply (sweeps_filter ev (stack s) a (x :: t) x NA (or_introl eq_refl) s l t same p) with (t := t) (evs := evs) (st := s) (s := s) (l := l); auto; try apply incl_refl; [|intros y _; reflexivity].
    intros st y v EL JY JV. destruct (TT y JY) as (ty & _ & DY & OY & HY). destruct (TU v JV) as (tv & _ & DV & OV & HV).
    rewrite (PQ y v ty tv JY JV DY DV).
    pose proof (denotes_elsewhere s st x EL ty y DY (NI y JY)) as DY'. pose proof (denotes_elsewhere s st x EL tv v DV (elements_apart s x l us D FU v JV)) as DV'.
    destruct (C36_equality_is_structural_partial (all st) lo y v ty tv N0 DY' DV' OY OV HY) as (b & E & B). rewrite <- B. symmetry. eapply vequal_same. exact E.
  - assert (IL : incl l l) by apply incl_refl. revert IL PQ. clearbody p. clear - FU FT. generalize l at 2 3. intros l0 IL PQ.
    assert (IU : forall v u, In v l0 -> denotes (all s) v u -> (existsb (fun y => p y v) t = true <-> In u ts)).
    { intros v u JV DV. rewrite existsb_exists. split.
      - intros (y & JY & PY). assert (G : forall t ts, Forall2 (denotes (all s)) t ts -> In y t -> exists ty, In ty ts /\ denotes (all s) y ty).
        { clear. intros t ts F. induction F as [|v u t ts D F IH]; intros J; [contradiction|]. destruct J as [->|J]; [exists u; split; [now left|exact D]|]. destruct (IH J) as (w & J' & D'). exists w. split; [now right|exact D']. }
        destruct (G t ts FT JY) as (ty & JT & DY). rewrite (PQ y v ty u JY JV DY DV) in PY. now subst.
      - intros JU. assert (G : forall t ts, Forall2 (denotes (all s)) t ts -> In u ts -> exists y, In y t /\ denotes (all s) y u).
        { clear. intros t ts F. induction F as [|v w t ts D F IH]; intros J; [contradiction|]. destruct J as [->|J]; [exists v; split; [now left|exact D]|]. destruct (IH J) as (y & J' & D'). exists y. split; [now right|exact D']. }
        destruct (G t ts FT JU) as (y & JY & DY). exists y. split; [exact JY|]. now apply (PQ y v u u JY JV DY DV). }
    clear PQ. induction FU as [|v u l us DV F IH]; cbn [filter]; [constructor|]. specialize (IU v u (IL v (or_introl eq_refl)) DV) as IV.
    assert (IL' : incl l l0) by (intros z J; apply IL; now right).
    destruct (existsb (fun y => p y v) t); cbn [negb].
    + apply un_drop; [now apply IV|now apply IH].
    + apply un_keep; [intros F'; apply IV in F'; discriminate|now apply IH].
Qed.
Print Assumptions C95_vector.
(** Integers. *)
Theorem C95_integers : forall s x t z zs s' r, data_at s x = Some (DInt z) -> Forall2 (fun y i => data_at s y = Some (DInt i)) t zs -> ~ In x t -> is_call "-=" s (x :: t) s' r ->
  r = x /\ data_at s' x = Some (DInt (fold_left Z.sub zs z)).
Proof.
  intros s x t z zs s' r D F NX C. eapply (call_writes "-=" BiMinusEq) in C as (ev & a & evs & AG & NA & T & R); [|library_name|exact minus_eq_writer]. destruct R as (d & D' & R).
  rewrite D in D'. injection D' as <-. destruct R as (AD & ->). split; [reflexivity|].
  destruct (added_end ev (stack s) a (x :: t) x difference skip (fun e => exists i, e = DInt i) NA (or_introl eq_refl)) with (t := t) (evs := evs) (s0 := s) (s := s) (s' := s') (d := DInt z) (es := map DInt zs) as (d' & E & RU); auto.
  - intros e (i & ->). split; [easy|]. split; [easy|]. exists (DReal (of_int 0)). eexists. apply diff_real_int.
  - intros d e d' []; easy.
  - intros y J. now right.
  - clear - F. induction F as [|y i t zs H F IH]; constructor; eauto.
  - rewrite E. clear - RU. revert z RU. induction zs as [|i zs IH]; intros z RU; inversion RU as [|d e d1 es d2 S RU']; subst; [reflexivity|]. cbn [fold_left]. inversion S; subst. now apply IH.
Qed.
Print Assumptions C95_integers.
(** A text is removed from a string until it does not occur there. *)
Theorem C95_string : forall s x y v u s' r, data_at s x = Some (DStr v) -> data_at s y = Some (DStr u) \/ data_at s y = Some (DChar u) -> u <> [] ->
  (Z.of_nat (List.length v) + Z.of_nat (List.length u) < 2 ^ 62)%Z -> is_call "-=" s [x; y] s' r ->
  r = x /\ exists v' n, data_at s' x = Some (DStr v') /\ ~ occurs u v' /\ removals u v n v'.
Proof.
  intros s x y v u s' r D DY NU LN C. eapply (call_writes "-=" BiMinusEq) in C as (ev & a & evs & AG & NA & T & R); [|library_name|exact minus_eq_writer]. destruct R as (d & D' & R).
  rewrite D in D'. injection D' as <-. destruct R as [(CU & ->)|(l & y1 & u1 & e & EL & CU & DE & NE & _)].
  - split; [reflexivity|]. inversion CU as [|y_ t_ u1 v1 v' s1 s2 evs' D1 DY1 CO CU']; subst. inversion CU'; subst.
    assert (K : keeps (stack s) s s1) by (inversion T; subst; assumption).
    assert (data_at s1 x = Some (DStr v)) as X1 by (eapply argued_data; [exact AG|exact K|now left|exact D|easy]). rewrite X1 in D1. injection D1 as <-.
    assert (u1 = u) as ->. { destruct DY as [DY|DY]; pose proof (argued_data _ _ _ _ _ y _ AG K (or_intror (or_introl eq_refl)) DY (fun F => F)) as X2; destruct DY1 as [DY1|DY1]; congruence. }
    destruct (CO NU LN) as (NO & n & RM). exists v', n. split; [|now split]. apply (one_put _ _ _ _ _ x _ s1 s2 s' AG NA) in T as (DE & _); [exact DE|now left|easy].
  - exfalso. destruct l as [|? [|]]; [|discriminate|discriminate]. injection EL as <- <-. inversion CU; subst. cbn in DE. destruct DY as [DY|DY]; rewrite DY in DE; injection DE as <-; now apply NE.
Qed.
Print Assumptions C95_string.
(** A key of a hash map. *)
Theorem C95_key : forall s x k m t s' r, data_at s x = Some (DMap m) -> string_map s m -> data_at s k = Some (DStr t) -> sound_text t -> is_call "-=" s [x; k] s' r ->
  (r = x /\ exists m' e, data_at s' x = Some (DMap m') /\ proper m' /\ data_at s (ekey e) = Some (DStr t) /\ Permutation (List.concat (buckets m)) (e :: List.concat (buckets m')) /\
     forall e', In e' (List.concat (buckets m')) -> data_at s (ekey e') <> Some (DStr t)) \/
  (complains s s' r /\ data_at s' x = Some (DMap m) /\ forall e, In e (List.concat (buckets m)) -> data_at s (ekey e) <> Some (DStr t)).
Proof.
  intros s x k m t s' r D SM DK SK C. eapply (call_writes "-=" BiMinusEq) in C as (ev & a & evs & AG & NA & T & R); [|library_name|exact minus_eq_writer]. destruct R as (d & D' & R).
  rewrite D in D'. injection D' as <-. assert (PR : proper m) by (split; [apply SM|apply SM]).
  assert (RK : forall q, In q (List.concat (buckets m)) -> reachable (all s) (stack s) (ekey q)). { intros q J. pose proof D as D3. unfold data_at in D3. destruct (lookup (all s) x) as [c|] eqn:L; [|discriminate]. injection D3 as D3.
    eapply re_step; [exact (argued_reach _ _ _ _ _ AG (or_introl eq_refl))|exact L|]. apply refers_iff. right. rewrite D3. exists q. split; [exact J|now left]. }
  assert (CM : forall s1, keeps (stack s) s s1 -> forall n q z, In q (List.concat (buckets m)) -> vcompare n (all s1) k (ekey q) = Ret z -> (z = 0%Z <-> data_at s (ekey q) = Some (DStr t))).
  { intros s1 K n q z J E. destruct (sm_keys _ _ SM q J) as (tq & Q1 & Q3 & _). assert (Q2 : data_at s1 (ekey q) = Some (DStr tq)) by (eapply keeps_data; [exact K|now apply RK|exact Q1|easy]).
    assert (DK1 : data_at s1 k = Some (DStr t)) by (eapply argued_data; [exact AG|exact K|right; now left|exact DK|easy]).
    unfold data_at in DK1, Q2. destruct (lookup (all s1) k) as [c|] eqn:L; [|discriminate]. destruct (lookup (all s1) (ekey q)) as [c'|] eqn:L'; [|discriminate].
    injection DK1 as C1. injection Q2 as C2. rewrite (sound_cmp n (all s1) k (ekey q) c c' t tq L C1 L' C2 SK Q3 z E). rewrite Q1. split; congruence. }
  assert (ND : NoDup (map (fun e => data_at s (ekey e)) (List.concat (buckets m)))) by exact (sm_distinct _ _ SM).
  destruct R as [(RM & ->)|(l & y1 & u1 & m1 & EL & RM & D1 & AB & CO)].
  - left. split; [reflexivity|]. inversion RM as [|k_ t_ m0 m' s1 s2 evs' D1 W RM']; subst. inversion RM'; subst.
    assert (K : keeps (stack s) s s1) by (inversion T; subst; assumption).
    assert (data_at s1 x = Some (DMap m)) as X1 by (eapply argued_data; [exact AG|exact K|now left|exact D|easy]). rewrite X1 in D1. injection D1 as <-.
    destruct (W PR) as (PM & e & JE & (n & CE) & PE). exists m', e. pose proof (proj1 (CM s1 K n e 0%Z JE CE) eq_refl) as DE.
    split; [apply (one_put _ _ _ _ _ x _ s1 s2 s' AG NA) in T as (TE & _); [exact TE|now left|easy]|]. split; [exact PM|]. split; [exact DE|]. split; [exact PE|].
    intros e' J' DE'. apply (Permutation_map (fun e => data_at s (ekey e))) in PE. eapply (Permutation_NoDup PE) in ND. cbn [map] in ND. inversion ND as [|? ? NI _]; subst. apply NI. rewrite DE, <- DE'. exact (in_map (fun e => data_at s (ekey e)) _ e' J').
  - right. destruct l as [|? [|]]; [|discriminate|discriminate]. injection EL as <- <-. inversion RM; subst. cbn in D1, AB. rewrite D in D1. injection D1 as <-. split; [exact CO|].
    assert (K : keeps (stack s) s s') by (inversion T; subst; assumption). split; [eapply argued_data; [exact AG|exact K|now left|exact D|easy]|].
    intros q JQ DE. destruct AB as (n & hk & EH & NK). destruct (sm_keys _ _ SM q JQ) as (tq & Q1 & Q3 & Q4). rewrite DE in Q1. injection Q1 as <-.
    assert (HH : ehash q = hk). { unfold vhash in EH, Q4. pose proof DE as DE1. unfold data_at in DE1, DK. destruct (lookup (all s) (ekey q)) as [c|]; [|discriminate]. destruct (lookup (all s) k) as [c1|]; [|discriminate]. injection DE1 as C1. injection DK as C2. unfold cell_hash in *. rewrite C1 in Q4. rewrite C2 in EH. congruence. }
    pose proof JQ as JQ0. apply in_concat in JQ as (b & JB & JQ). apply (In_nth _ _ []) in JB as (i & LI & EB). assert (JI : In q (nth i (buckets m) [])) by (rewrite EB; exact JQ). pose proof (sm_placed _ _ SM i q JI) as EI. rewrite HH in EI. subst i.
    destruct (NK q JI) as (z & EZ & NZ). apply NZ. now apply (CM s (keeps_refl _ _) n q z).
Qed.
Print Assumptions C95_key.
(** Nothing else changes. *)
Lemma sweep_only P x st kept rest evs st' : sweep P x st kept rest evs st' -> forall e, In e evs -> only x e.
Proof. intros W. induction W as [st kept|st kept v rest evs st' NP W IH|st kept v rest st1 evs st' PV W IH]; intros e J; [contradiction|auto|]. destruct J as [<-|J]; [reflexivity|auto]. Qed.
Lemma sweeps_only like x st t evs : sweeps like x st t evs -> forall e, In e evs -> only x e.
Proof. intros W. induction W as [st|st y t l1 evs st1 evs' D1 SW W IH]; intros e J; [contradiction|]. apply in_app_or in J as [J|J]; [eapply sweep_only; eauto|auto]. Qed.
Lemma cuts_only x t evs : cuts x t evs -> forall e, In e evs -> only x e.
Proof. intros W. induction W as [|y t u v v' s1 s2 evs D1 DY CO W IH]; intros e J; [contradiction|]. destruct J as [<-|J]; [reflexivity|auto]. Qed.
Lemma removes_only x t evs : removes x t evs -> forall e, In e evs -> only x e.
Proof. intros W. induction W as [|k t m m' s1 s2 evs D1 N W IH]; intros e J; [contradiction|]. destruct J as [<-|J]; [reflexivity|auto]. Qed.
Lemma lowers_only x t evs : lowers x t evs -> forall e, In e evs -> only x e.
Proof. intros W. induction W as [|k t v w v' s1 s2 evs NS D1 N VC W IH|t v p v' s1 s2 evs D1 VC W IH]; intros e J; [contradiction| |]; (destruct J as [<-|J]; [reflexivity|auto]). Qed.
Theorem C95_nothing_else : forall s x t s' r, is_call "-=" s (x :: t) s' r -> changes_only x s s'.
Proof.
  intros s x t s' r C. eapply (call_writes "-=" BiMinusEq) in C as (ev & a & evs & AG & NA & T & R); [|library_name|exact minus_eq_writer]. destruct R as (d & D & R).
  intros z c P L. eapply only_apart; [exact T| |exact P|exact L]. clear - R. intros e J.
  destruct d as [ |db|dz|df|dt|dt|dt|dmsg dline|l|m|l max|l|db denc|df|df|dp|dp|dv]; try (destruct R as (R & Q); rewrite R in J; contradiction).
  - destruct R as (R & Q). exact (added_all_only _ _ _ _ _ _ R e J).
  - destruct R as (R & Q). exact (added_all_only _ _ _ _ _ _ R e J).
  - destruct R as [(R & _)|(p & y & u & e0 & _ & R & _)]; exact (cuts_only _ _ _ R e J).
  - destruct R as (_ & R). destruct t as [|y [|]]; [subst; contradiction| |contradiction]. destruct R as (e0 & _ & R).
    destruct e0; try (subst; contradiction); [destruct R as (u & s1 & s2 & _ & ->)|destruct R as (c0 & w & u & s1 & s2 & _ & _ & ->)]; destruct J as [<-|[]]; reflexivity.
  - destruct R as (R & Q). exact (sweeps_only _ _ _ _ _ R e J).
  - destruct R as [(R & _)|(p & y & u & e0 & _ & R & _)]; exact (removes_only _ _ _ R e J).
  - destruct R as [(R & _)|(p & y & u & evs1 & evs2 & _ & -> & R & RF & _)]; [exact (lowers_only _ _ _ R e J)|]. apply in_app_or in J as [J|J]; [exact (lowers_only _ _ _ R e J)|].
    destruct RF as [(d & -> & _)|(v & w & v' & s1 & s2 & -> & _)]; [contradiction|]. destruct J as [<-|[]]. reflexivity.
Qed.
Print Assumptions C95_nothing_else.
(** The same of +=, for all but symbols. *)
Lemma shares_only x t evs : shares x t evs -> forall e, In e evs -> only x e.
Proof. intros W. induction W as [|y t l s1 s2 evs D1 W IH]; intros e J; [contradiction|]. destruct J as [<-|J]; [reflexivity|auto]. Qed.
Lemma pushes_only x s t evs : pushes x s t evs -> forall e, In e evs -> only x e.
Proof. intros W. induction W as [|s y t w d d' s1 s2 evs D1 DD PB W IH]; intros e J; [contradiction|]. destruct J as [<-|J]; [reflexivity|auto]. Qed.
Lemma enters_only x t evs : enters x t evs -> forall e, In e evs -> only x e.
Proof. intros W. induction W as [|k v t m m' s1 s2 evs D1 EN W IH]; intros e J; [contradiction|]. destruct J as [<-|J]; [reflexivity|auto]. Qed.
Lemma raises_only s x t evs : raises s x t evs -> forall e, In e evs -> only x e.
Proof. intros W. induction W as [|y t v w v' ok s1 s2 evs D1 DD VC W IH|y t d evs D N W IH]; intros e J; [contradiction| |auto]. destruct J as [<-|J]; [reflexivity|auto]. Qed.
Theorem C84_nothing_else_partial : forall s x t d s' r, data_at s x = Some d -> (forall u, d <> DSym u) -> is_call "+=" s (x :: t) s' r -> changes_only x s s'.
Proof.
  intros s x t d s' r D NS C. eapply (call_writes "+=" BiPlusEq) in C as (ev & a & evs & AG & NA & T & R); [|library_name|exact plus_eq_writer]. destruct R as (d1 & D' & R). rewrite D in D'. injection D' as <-.
  intros z c P L. eapply only_apart; [exact T| |exact P|exact L]. clear - NS R. intros e J.
  destruct d as [ |db|dz|df|dt|dt|dt|dmsg dline|l|m|l max|l|db denc|df|df|dp|dp|dv]; try (destruct R as (R & Q); rewrite R in J; contradiction); try (now elim (NS dt)).
  - destruct R as (R & Q). exact (added_all_only _ _ _ _ _ _ R e J).
  - destruct R as (R & Q). exact (added_all_only _ _ _ _ _ _ R e J).
  - destruct R as (R & Q). exact (added_all_only _ _ _ _ _ _ R e J).
  - destruct R as (_ & R). destruct t as [|y t]; [subst; contradiction|]. destruct R as (e0 & _ & R).
    destruct e0; try (destruct R as (_ & ->); contradiction).
    + destruct R as (_ & u & s1 & s2 & _ & ->). destruct J as [<-|[]]. reflexivity.
    + destruct R as (s1 & s2 & evs' & R & ->). destruct J as [<-|J]; [reflexivity|]. exact (added_all_only _ _ _ _ _ _ R e J).
  - destruct R as (R & Q). exact (shares_only _ _ _ R e J).
  - destruct t as [|k [|v [|]]]; try (destruct R as (R & Q); rewrite R in J; contradiction).
    + destruct R as (dk & _ & R). destruct dk; try (destruct R as (R & Q); rewrite R in J; contradiction).
      * destruct (in_pairs l); [|destruct R as (R & Q); rewrite R in J; contradiction]. destruct R as (R & Q). exact (enters_only _ _ _ R e J).
      * destruct R as (R & Q). exact (enters_only _ _ _ R e J).
    + destruct R as (dk & _ & _ & _ & R & _). exact (enters_only _ _ _ R e J).
  - destruct R as (R & Q). exact (pushes_only _ _ _ _ R e J).
  - destruct R as (R & Q). exact (pushes_only _ _ _ _ R e J).
  - destruct R as (R & Q). exact (raises_only _ _ _ _ R e J).
Qed.
Print Assumptions C84_nothing_else_partial.
Theorem C95_identity_nothing_else : forall s x t s' r, is_call "-==" s (x :: t) s' r -> changes_only x s s'.
Proof.
  intros s x t s' r C. eapply (call_writes "-==" BiMinusEqEq) in C as (ev & a & evs & AG & NA & T & R); [|library_name|exact minus_eq_eq_writer]. destruct R as (d & D' & R).
  intros z c P L. eapply only_apart; [exact T| |exact P|exact L]. clear - R. intros e J.
  destruct d; try (destruct R as (R & Q); rewrite R in J; contradiction). destruct R as (R & Q). exact (sweeps_only _ _ _ _ _ R e J).
Qed.
Print Assumptions C95_identity_nothing_else.

(** ** Concrete calls *)
Example C95_integer_case : a_case BiMinusEq (fun s xs s' r => match xs with x :: _ => match ints_of s xs, ints_of s' [x] with [5; -3; 9]%Z, [-1]%Z => (r =? x)%N | _, _ => false end | _ => false end).
Proof. apply (arg_case _ _ "(define x as {D+5} [x]) (define y as {D-3} [y]) (define z as {D+9} [z])" ["x"; "y"; "z"]). vm_compute. reflexivity. Qed.
Example C95_vector_case : a_case BiMinusEq (fun s xs s' r => match data_at s' r with Some (DVec l) => match ints_of s' l with [7]%Z => Nat.eqb (List.length l) 1 | _ => false end | _ => false end).
Proof. apply (arg_case _ _ "(define v as '({D+5} ({D+6}) {D+5} {D+7} ({D+6})) [v]) (define y as {D+5} [y]) (define z as '({D+6}) [z])" ["v"; "y"; "z"]). vm_compute. reflexivity. Qed.
Example C95_identity_case : a_case BiMinusEqEq (fun s xs s' r => match data_at s' r with Some (DVec l) => match ints_of s' l with [5; 6]%Z => true | _ => false end | _ => false end).
Proof. apply (arg_case _ _ "(define y as '({D+6}) [y]) (define v as '({D+5} {D+6}) [v]) (+= v y)" ["v"; "y"]). vm_compute. reflexivity. Qed.
Example C95_string_case : a_case BiMinusEq (fun s xs s' r => match data_at s' r with Some (DStr [99]%N) => true | _ => false end).
Proof. apply (arg_case _ _ "(define v as [aabbc] [v]) (define y as [ab] [y])" ["v"; "y"]). vm_compute. reflexivity. Qed.
Example C95_key_case : a_case BiMinusEq (fun s xs s' r => match xs with [x; k] => match data_at s x, data_at s' x with Some (DMap m), Some (DMap m') => string_map_b s m && Nat.eqb (List.length (List.concat (buckets m'))) 0 && (r =? x)%N | _, _ => false end | _ => false end).
Proof. apply (arg_case _ _ "(define a as [abc] [a]) (define k as [abc] [k]) (define v as {D+7} [v]) (define m as (hash-map a v) [m])" ["m"; "k"]). vm_compute. reflexivity. Qed.
Example C95_character_case : a_case BiMinusEq (fun s xs s' r => match data_at s' r with Some (DChar [97]%N) => true | _ => false end).
Proof. apply (arg_case _ _ "(define x as |d| [x]) (define y as {D+3} [y])" ["x"; "y"]). vm_compute. reflexivity. Qed.
Example C95_version_case : a_case BiMinusEq (fun s xs s' r => match data_at s' r with Some (DSemver (Semver.mkSemver 1 0 3 [] [])) => true | _ => false end).
Proof. apply (arg_case _ _ "(define x as 1.2.3 [x]) (define y as 0.2.0 [y])" ["x"; "y"]). vm_compute. reflexivity. Qed.
Example C95_refused_case : a_case BiMinusEq (fun s xs s' r => match xs with [x; _; _] => match data_at s' r, data_at s' x with Some (DErr _ _), Some (DSemver (Semver.mkSemver 1 0 3 [] [])) => true | _, _ => false end | _ => false end).
Proof. apply (arg_case _ _ "(define x as 1.2.3 [x]) (define y as 0.2.0 [y])" ["x"; "y"; "y"]). vm_compute. reflexivity. Qed.
