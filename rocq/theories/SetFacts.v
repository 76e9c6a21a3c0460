(** What the events of SpecSet.v leave in the machine. *)
From Coq Require Import NArith ZArith Bool Lia Arith List String Permutation.
From Verif Require Import Base OString HMap Heap SpecHeap GcProofs VmProofs ValueOps Env Builtins Eval SafeBase SpecTrace SpecSpecial SpecCall SpecDefine SpecEval SpecBuiltin SpecWrite SpecSet SpecFrame TraceProofs SpecialProofs BuiltinProofs WriteProofs WriteFacts SetProofs.
Import ListNotations.
Local Open Scope N_scope.
Local Open Scope list_scope.

Lemma apart_not x h base z : apart x h base z -> z <> x.
Proof. now intros []. Qed.
Lemma apart_reach x h base z : apart x h base z -> reachable h base z.
Proof. intros P. induction P as [z I NE|y c z P IH L R NE]; [now apply re_root|]. eapply re_step; eauto. Qed.
(** A change that keeps what is reachable. *)
Lemma alike_refers c c' z : alike c c' -> refers c z -> refers c' z.
Proof. intros [->|(E & E' & Q & _)] R; [exact R|]. apply refers_iff in R as [R|R]; apply refers_iff; [left; congruence|]. destruct (cdata c); try contradiction. Qed.
Lemma apart_keeps x base s s' z : keeps base s s' -> apart x (all s) base z -> apart x (all s') base z.
Proof.
  intros (K & _) P. induction P as [z I NE|y c z P IH L R NE]; [now apply ap_root|]. destruct (K y c (apart_reach _ _ _ _ P) L) as (c' & L' & AL).
  eapply ap_step; [exact IH|exact L'|eapply alike_refers; eauto|exact NE].
Qed.
Lemma apart_other x h h' base z : (forall y, y <> x -> lookup h' y = lookup h y) -> apart x h base z -> apart x h' base z.
Proof. intros O P. induction P as [z I NE|y c z P IH L R NE]; [now apply ap_root|]. eapply ap_step; [exact IH|rewrite O; [exact L|eapply apart_not; eauto]|exact R|exact NE]. Qed.
Lemma alike_trans c c' c'' : alike c c' -> alike c' c'' -> alike c c''.
Proof. intros [->|(A1 & A2 & A3 & A4)] [->|(B1 & B2 & B3 & B4)]; [now left|right; auto|right; auto|]. right. repeat split; auto; congruence. Qed.
Lemma only_effect x ev e : only x e -> happens ev e -> forall z, z <> x -> lookup (all (after e)) z = lookup (all (before e)) z.
Proof.
  destruct e; cbn; intros O H; try contradiction; subst; intros z NE.
  - unfold put, put_cell, get_cell, bind in H. destruct (lookup (all before) x) as [c|] eqn:L; [|discriminate]. cbn in H. rewrite L in H. injection H as <-. cbn. rewrite lookup_update. now rewrite (proj2 (N.eqb_neq _ _) (not_eq_sym NE)).
  - apply put_fresh_data in H as (_ & H). auto.
  - apply set_docs_data in H as (_ & H). auto.
Qed.
(** Changes of [x] only. *)
Lemma only_apart x ev base s evs s' : trace ev base s evs s' -> (forall e, In e evs -> only x e) ->
  forall z, apart x (all s) base z -> apart x (all s') base z /\ forall c, lookup (all s) z = Some c -> exists c', lookup (all s') z = Some c' /\ alike c c'.
Proof.
  intros T. induction T as [s s' K|s e evs s' K H T IH]; intros OE z P.
  - split; [eapply apart_keeps; eauto|]. intros c L. destruct K as (K & _). eapply K; [eapply apart_reach; eauto|exact L].
  - pose proof (only_effect x ev e (OE e (or_introl eq_refl)) H) as O. pose proof (apart_keeps _ _ _ _ _ K P) as P1. pose proof (apart_other _ _ _ _ _ O P1) as P2.
    destruct (IH (fun e J => OE e (or_intror J)) z P2) as (P3 & C3). split; [exact P3|]. intros c L. destruct K as (K & _). destruct (K z c (apart_reach _ _ _ _ P) L) as (c1 & L1 & A1).
    rewrite <- (O z (apart_not _ _ _ _ P)) in L1. destruct (C3 c1 L1) as (c2 & L2 & A2). exists c2. split; [exact L2|eapply alike_trans; eauto].
Qed.
Lemma alike_data c c' d : alike c c' -> cdata c = d -> ~ is_err d -> cdata c' = d.
Proof. intros [->|(E & _)] <- NE; [reflexivity|contradiction]. Qed.
Lemma only_data x ev base s evs s' z d : trace ev base s evs s' -> (forall e, In e evs -> only x e) -> apart x (all s) base z -> data_at s z = Some d -> ~ is_err d -> data_at s' z = Some d.
Proof.
  intros T O P D NE. unfold data_at in *. destruct (lookup (all s) z) as [c|] eqn:L; [|discriminate]. injection D as D. destruct (only_apart _ _ _ _ _ _ T O z P) as (_ & C). destruct (C c L) as (c' & -> & A).
  cbn. f_equal. eapply alike_data; eauto.
Qed.
Lemma trace_app ev base s evs1 evs2 s' : trace ev base s (evs1 ++ evs2) s' -> exists s1, trace ev base s evs1 s1 /\ trace ev base s1 evs2 s'.
Proof.
  revert s. induction evs1 as [|e evs1 IH]; intros s T; cbn [app] in T.
  - exists s. split; [|exact T]. apply t_done. split; [|auto 9]. intros y c _ L. exists c. split; [exact L|now left].
  - inversion T as [|s_ e_ evs_ s'_ K H T']; subst. destruct (IH _ T') as (s1 & T1 & T2). exists s1. split; [econstructor; eauto|exact T2].
Qed.
Lemma trace_last ev base s evs1 e s' : trace ev base s (evs1 ++ [e]) s' -> trace ev base s evs1 (last_after s evs1) /\ trace ev base (last_after s evs1) [e] s'.
Proof.
  revert s. induction evs1 as [|e1 evs1 IH]; intros s T; cbn [app] in T.
  - split; [|exact T]. apply t_done. split; [|auto 9]. intros y c _ L. exists c. split; [exact L|now left].
  - inversion T as [|s_ e_ evs_ s'_ K H T']; subst. destruct (IH _ T') as (T1 & T2).
    assert (EL : last_after s (e1 :: evs1) = last_after (after e1) evs1). { unfold last_after. cbn [map]. destruct (map after evs1) as [|y t]; [reflexivity|]. cbn [List.last]. clear. revert y. induction t; intros y; [reflexivity|]. cbn [List.last]. apply IHt. }
    rewrite EL. split; [econstructor; eauto|exact T2].
Qed.
Lemma argued_apart base a xs s x z : argued base a xs s -> x <> a -> In z xs -> z <> x -> apart x (all s) base z.
Proof.
  intros [I D] NA J NE. unfold data_at in D. destruct (lookup (all s) a) as [c|] eqn:L; [|discriminate]. injection D as D.
  apply (ap_step _ _ _ a c z); [apply ap_root; [exact I|now apply not_eq_sym]|exact L| |exact NE]. apply refers_iff. right. rewrite D. exact J.
Qed.
Lemma part_apart base a xs s x y d z : argued base a xs s -> x <> a -> In y xs -> y <> x -> data_at s y = Some d -> dref d z -> z <> x -> apart x (all s) base z.
Proof.
  intros A NA J NE D R NZ. unfold data_at in D. destruct (lookup (all s) y) as [c|] eqn:L; [|discriminate]. injection D as D.
  apply (ap_step _ _ _ y c z); [eapply argued_apart; eauto|exact L| |exact NZ]. apply refers_iff. right. rewrite D. exact R.
Qed.
Lemma argued_only base a xs ev s evs s' x : argued base a xs s -> x <> a -> trace ev base s evs s' -> (forall e, In e evs -> only x e) -> argued base a xs s'.
Proof. intros A NA T O. destruct A as [I D]. split; [exact I|]. eapply only_data; [exact T|exact O|apply ap_root; [exact I|now apply not_eq_sym]|exact D|easy]. Qed.
(** Changes of the documentation of [x] keep what [x] holds, and its parts. *)
Definition a_doc (x : ref) (e : event) : Prop := match e with Docs v _ _ _ _ => v = x | _ => False end.
Lemma a_doc_only x e : a_doc x e -> only x e. Proof. destruct e; cbn; tauto. Qed.
Lemma docs_data ev base a xs s evs s' x d : argued base a xs s -> x <> a -> In x xs -> trace ev base s evs s' -> (forall e, In e evs -> a_doc x e) -> data_at s x = Some d -> ~ is_err d ->
  data_at s' x = Some d /\ forall z dz, dref d z -> data_at s z = Some dz -> ~ is_err dz -> data_at s' z = Some dz.
Proof.
  intros A NA J T. revert A. induction T as [s s' K|s e evs s' K H T IH]; intros A OE D NE.
  - split; [eapply argued_data; eauto|]. intros z dz R DZ NZ. eapply keeps_data; [exact K| |exact DZ|exact NZ]. unfold data_at in D. destruct (lookup (all s) x) as [c|] eqn:L; [|discriminate]. injection D as D.
    eapply re_step; [eapply argued_reach; eauto|exact L|]. apply refers_iff. right. now rewrite D.
  - pose proof (OE e (or_introl eq_refl)) as OD. destruct e; cbn in OD; try contradiction. subst value. cbn in K, H, T, IH. destruct (set_docs_data _ _ _ _ _ H) as (HD & HO).
    pose proof (argued_data _ _ _ _ _ _ _ A K J D NE) as D1. pose proof (argued_keeps _ _ _ _ _ A K) as A1.
    assert (A2 : argued base a xs after). { destruct A1 as [I1 V1]. split; [exact I1|]. unfold data_at in *. now rewrite HO by (now apply not_eq_sym). }
    rewrite <- HD in D1. destruct (IH A2 (fun e J => OE e (or_intror J)) D1 NE) as (D2 & P2). split; [exact D2|]. intros z dz R DZ NZ. apply P2; [exact R| |exact NZ].
    assert (DZ1 : data_at before z = Some dz). { eapply keeps_data; [exact K| |exact DZ|exact NZ]. unfold data_at in D. destruct (lookup (all s) x) as [c|] eqn:L; [|discriminate]. injection D as D.
      eapply re_step; [eapply argued_reach; eauto|exact L|]. apply refers_iff. right. now rewrite D. }
    destruct (N.eq_dec z x) as [->|NX]; [rewrite HD; exact DZ1|]. unfold data_at in *. rewrite HO by exact NX. exact DZ1.
Qed.
Lemma docs_of x y s evd s4 evv : doc_copied x y s evd s4 -> docvec_copied x y s4 evv -> forall e, In e (evd ++ evv) -> a_doc x e.
Proof. intros D V e J. apply in_app_or in J as [J|J]; [inversion D; subst|inversion V; subst]; try contradiction; destruct J as [<-|[]]; reflexivity. Qed.
Lemma fills_only x s t evs : fills x s t evs -> forall e, In e evs -> only x e.
Proof. intros F. induction F as [|s z t w d d' s1 s2 evs DF DX AP F IH]; intros e J; [contradiction|]. destruct J as [<-|J]; [reflexivity|auto]. Qed.
Lemma map_fills_only x s t evs : map_fills x s t evs -> forall e, In e evs -> only x e.
Proof. intros F. induction F as [|s el v t k' v' m m' s1 s2 s3 evs EV DK DV DX AS F IH]; intros e J; [contradiction|]. destruct J as [<-|J]; [reflexivity|auto]. Qed.
Lemma set_only s x y evs : set_run s x y evs -> forall e, In e evs -> only x e.
Proof.
  intros R e J. inversion R as [|d d0 s1 s2 s3 s4 evs' evd evv NE DY EM FI DC DV]; subst; [contradiction|]. destruct J as [<-|J]; [reflexivity|]. apply in_app_or in J as [J|J].
  - destruct d; subst; try contradiction; first [exact (fills_only _ _ _ _ FI e J)|exact (map_fills_only _ _ _ _ FI e J)].
  - eapply a_doc_only, docs_of; eauto.
Qed.
Lemma pads_only x n s evs : pads x n s evs -> forall e, In e evs -> only x e.
Proof. intros F. induction F as [|n s y l s1 s2 evs M D F IH]; intros e J; [contradiction|]. destruct J as [<-|J]; [reflexivity|auto]. Qed.

(** ** Filling a sequence *)
Section Fill.
Context (ev : ref -> ref -> M (option ref)) (base : list ref) (a : ref) (xs : list ref) (x : ref) (NA : x <> a) (J : In x xs).
(** The ways of holding a sequence. *)
Context (mk : list ref -> data) (NMK : forall l, ~ is_err (mk l)) (AMK : forall l w d, appended (mk l) w d -> d = mk (l ++ [w])) (RMK : forall l z, dref (mk l) z <-> In z l).
Lemma fills_end : forall t evs s s' l0, argued base a xs s -> trace ev base s evs s' -> fills x s t evs -> data_at s x = Some (mk l0) ->
  (forall z, In z t -> apart x (all s) base z /\ exists d, data_at s z = Some d /\ ~ is_err d) ->
  exists ws, data_at s' x = Some (mk (l0 ++ ws)) /\ Forall2 (taken x base s s') t ws /\ forall w d, In w l0 -> w <> x -> data_at s w = Some d -> ~ is_err d -> data_at s' w = Some d.
Proof using NA J NMK AMK RMK.
  intros t. induction t as [|z t IH]; intros evs s s' l0 A T F D IN.
  - inversion F; subst. inversion T as [s_ s'_ K|]; subst. exists []. rewrite app_nil_r. split; [eapply argued_data; [exact A|exact K|exact J|exact D|apply NMK]|]. split; [constructor|].
    intros w d W NW DW NE. eapply keeps_data; [exact K| |exact DW|exact NE]. unfold data_at in D. destruct (lookup (all s) x) as [c|] eqn:L; [|discriminate]. injection D as D.
    eapply re_step; [eapply argued_reach; eauto|exact L|]. apply refers_iff. right. rewrite D. now apply RMK.
  - inversion F as [|s_ z_ t_ w dx dx' s1 s2 evs' DF DX AP F']; subst. inversion T as [|s_ e_ evs_ s'_ K H T']; subst. cbn in K, H, T'.
    pose proof (argued_data _ _ _ _ _ _ _ A K J D (NMK _)) as D1. rewrite D1 in DX. injection DX as <-. apply AMK in AP. subst dx'.
    pose proof (argued_keeps _ _ _ _ _ A K) as A1. pose proof (argued_put _ _ _ _ _ _ _ A1 NA H) as A2. destruct (put_data _ _ _ _ H) as (D2 & O2).
    assert (OL : forall q, q <> x -> lookup (all s2) q = lookup (all s1) q) by (apply (only_effect x ev (Put x (mk (l0 ++ [w])) s1 s2)); [reflexivity|exact H]).
    assert (KA : forall q, apart x (all s) base q -> apart x (all s2) base q) by (intros q P; eapply apart_other; [exact OL|eapply apart_keeps; eauto]).
    assert (KD : forall q d, apart x (all s) base q -> data_at s q = Some d -> ~ is_err d -> data_at s2 q = Some d). { intros q d P DQ NE. rewrite O2 by (eapply apart_not; eauto). eapply keeps_data; [exact K|eapply apart_reach; eauto|exact DQ|exact NE]. }
    destruct (IN z (or_introl eq_refl)) as (PZ & dz & DZ & NZ).
    assert (TW : w <> x /\ data_at s2 w = Some dz /\ (atomic dz -> apart x (all s) base w -> lookup (all s) w = None) /\ (~ atomic dz -> w = z)).
    { destruct DF as [d DV AT LN DW|d DV AT -> DW]; rewrite DZ in DV; injection DV as <-.
      - assert (NWX : w <> x) by (intros ->; unfold data_at in D; rewrite LN in D; discriminate). split; [exact NWX|]. split; [rewrite O2; auto|]. split; [auto|contradiction].
      - split; [eapply apart_not; eauto|]. split; [now apply KD|]. split; [contradiction|auto]. }
    destruct TW as (NWX & DW & W1 & W2).
    destruct (IH evs' s2 s' (l0 ++ [w]) A2 T' F' D2) as (ws & E1 & E2 & E3).
    { intros q JQ. destruct (IN q (or_intror JQ)) as (PQ & dq & DQ & NQ). split; [now apply KA|]. exists dq. split; [now apply KD|exact NQ]. }
    exists (w :: ws). rewrite <- app_assoc in E1. split; [exact E1|]. split.
    + constructor.
      * exists dz. split; [exact DZ|]. split; [apply E3; auto; apply in_or_app; right; now left|]. split; auto.
      * clear - E2 IN KA KD K OL. revert IN. induction E2 as [|q w t ws (d & Q1 & Q2 & Q3 & Q4) F2 IHF]; intros IN; constructor.
        -- destruct (IN q (or_intror (or_introl eq_refl))) as (PQ & dq & DQ & NQ). rewrite (KD q dq PQ DQ NQ) in Q1. injection Q1 as <-. exists dq. split; [exact DQ|]. split; [exact Q2|]. split; [|exact Q4].
           intros AT. destruct (Q3 AT) as (X1 & X2). split; [exact X1|]. intros P. destruct (lookup (all s) w) as [c|] eqn:LW; [|reflexivity]. destruct K as (K & _). destruct (K w c (apart_reach _ _ _ _ P) LW) as (c' & L' & _). rewrite <- (OL w X1) in L'. rewrite (X2 (KA w P)) in L'. discriminate.
        -- apply IHF. intros q' [<-|JQ]; apply IN; [now left|right; now right].
    + intros q d JQ NQ DQ NE. apply E3; [apply in_or_app; now left|exact NQ| |exact NE]. rewrite O2 by exact NQ. eapply keeps_data; [exact K| |exact DQ|exact NE].
      unfold data_at in D. destruct (lookup (all s) x) as [c|] eqn:L; [|discriminate]. injection D as D. eapply re_step; [eapply argued_reach; eauto|exact L|]. apply refers_iff. right. rewrite D. now apply RMK.
Qed.
End Fill.

(** ** Nils at the end of a vector *)
Lemma pads_end ev base a xs x : x <> a -> In x xs -> forall n evs s s' l0, argued base a xs s -> trace ev base s evs s' -> pads x n s evs -> data_at s x = Some (DVec l0) ->
  exists ws, data_at s' x = Some (DVec (l0 ++ ws)) /\ List.length ws = n /\ (forall w, In w ws -> w <> x /\ data_at s' w = Some DNil) /\ forall w d, In w l0 -> w <> x -> data_at s w = Some d -> ~ is_err d -> data_at s' w = Some d.
Proof.
  intros NA J n. induction n as [|n IH]; intros evs s s' l0 A T F D.
  - inversion F; subst. inversion T as [s_ s'_ K|]; subst. exists []. rewrite app_nil_r. split; [eapply argued_data; [exact A|exact K|exact J|exact D|easy]|]. split; [reflexivity|]. split; [contradiction|].
    intros w d W NW DW NE. eapply keeps_data; [exact K| |exact DW|exact NE]. unfold data_at in D. destruct (lookup (all s) x) as [c|] eqn:L; [|discriminate]. injection D as D.
    eapply re_step; [eapply argued_reach; eauto|exact L|]. apply refers_iff. right. rewrite D. exact W.
  - inversion F as [|n_ s_ w l s1 s2 evs' MK DX F']; subst. inversion T as [|s_ e_ evs_ s'_ K H T']; subst. cbn in K, H, T'.
    assert (D1 : data_at s1 x = Some (DVec l0)) by (eapply argued_data; [exact A|exact K|exact J|exact D|easy]). rewrite D1 in DX. injection DX as <-.
    pose proof (argued_keeps _ _ _ _ _ A K) as A1. pose proof (argued_put _ _ _ _ _ _ _ A1 NA H) as A2. destruct (put_data _ _ _ _ H) as (D2 & O2). destruct MK as (_ & DW).
    assert (NWX : w <> x) by (intros ->; rewrite D1 in DW; discriminate).
    destruct (IH evs' s2 s' (l0 ++ [w]) A2 T' F' D2) as (ws & E1 & E2 & E3 & E4). exists (w :: ws). rewrite <- app_assoc in E1. split; [exact E1|]. split; [cbn; congruence|]. split.
    + intros q [<-|JQ]; [|auto]. split; [exact NWX|]. apply E4; [apply in_or_app; right; now left|exact NWX| |easy]. rewrite O2; auto.
    + intros q d JQ NQ DQ NE. apply E4; [apply in_or_app; now left|exact NQ| |exact NE]. rewrite O2 by exact NQ. eapply keeps_data; [exact K| |exact DQ|exact NE].
      unfold data_at in D. destruct (lookup (all s) x) as [c|] eqn:L; [|discriminate]. injection D as D. eapply re_step; [eapply argued_reach; eauto|exact L|]. apply refers_iff. right. now rewrite D.
Qed.
(** What an argument becomes when one change follows. *)
Lemma taken_put ev base a xs x y w d s s1 s2 s' : argued base a xs s -> x <> a -> In x xs -> In y xs -> y <> x -> (exists e, data_at s y = Some e /\ ~ is_err e) -> (exists e, data_at s x = Some e /\ ~ is_err e) ->
  defined s y w s1 -> trace ev base s [Put x d s1 s2] s' -> dref d w -> ~ is_err d -> data_at s' x = Some d /\ taken x base s s' y w.
Proof.
  intros A NA J JY NE (e & DY & NR) (ex & DX & NRX) DF T RD ND. inversion T as [|s_ e_ evs_ s'_ K H T']; subst. cbn in K, H, T'. inversion T' as [s_ s'_ K'|]; subst.
  pose proof (argued_keeps _ _ _ _ _ A K) as A1. pose proof (argued_put _ _ _ _ _ _ _ A1 NA H) as A2. destruct (put_data _ _ _ _ H) as (D2 & O2).
  split; [eapply argued_data; [exact A2|exact K'|exact J|exact D2|exact ND]|].
  assert (KW : forall q dq, dref d q -> data_at s2 q = Some dq -> ~ is_err dq -> data_at s' q = Some dq). { intros q dq RQ DQ NQ. eapply keeps_data; [exact K'| |exact DQ|exact NQ]. pose proof D2 as D3. unfold data_at in D3. destruct (lookup (all s2) x) as [c|] eqn:L; [|discriminate]. injection D3 as D3.
    eapply re_step; [exact (argued_reach _ _ _ _ _ A2 J)|exact L|]. apply refers_iff. right. now rewrite D3. }
  exists e. split; [exact DY|]. destruct DF as [d0 DV AT LN DW|d0 DV AT -> DW]; rewrite DY in DV; injection DV as <-.
  - assert (NWX : w <> x) by (intros ->; unfold data_at in DX; rewrite LN in DX; discriminate). split; [apply KW; [exact RD|rewrite O2; auto|exact NR]|]. split; [auto|contradiction].
  - split; [apply KW; [exact RD|rewrite O2; auto|exact NR]|]. split; [contradiction|auto].
Qed.
