(** Procedures with a trace that own values the program cannot reach: what these
    hold is not changed by an evaluation, and changing it is not visible. *)
From Coq Require Import NArith ZArith Bool Lia Arith List String.
From Coq Require Import ZifyBool ZifyNat ZifyN.
From Verif Require Import Base OString HMap Heap SpecHeap GcProofs VmProofs ValueOps Env Copy Builtins Specials Eval SafeBase SafeRead SafeLib SafeBuiltins SafeSpecials SafeEval SpecTrace SpecSpecial EnvProofs TraceProofs SpecialProofs.
Import ListNotations.
Local Open Scope N_scope.

Section Private.
Context (ev : evaluator) (EV : ev_ok true ev) (P : list ref) (s0 : vm).
Notation Tr := (Tr ev P s0).
Implicit Types (H pre : list ref) (G : ref -> Prop) (s : vm) (evs : list event).

(** [H]: the values owned. *)
Record Pt H pre G evs s : Prop := {
  p_tr : Tr pre G evs s;
  p_inv : Inv (H ++ P) s;
  p_good : forall x, G x -> good (H ++ P) s x;
  p_new : forall h, In h H -> nextId s0 <= h;
  p_nodup : NoDup H
}.
Lemma pt_start pre G evs s : Tr pre G evs s -> Pt [] pre G evs s.
Proof. intros T. constructor; auto; [apply (tr_at _ _ _ _ _ _ _ T)|exact (a_good _ _ _ _ _ _ _ (tr_at _ _ _ _ _ _ _ T))|easy|constructor]. Qed.
Lemma pt_weaken H pre G (G' : ref -> Prop) evs s : Pt H pre G evs s -> (forall x, G' x -> good (H ++ P) s x) -> Pt H pre G' evs s.
Proof.
  intros [A B C D E] W. constructor; auto. eapply tr_weaken; [exact A|]. intros x K. destruct (W x K) as (W1 & W2 & W3). repeat split; auto. intros J. apply W2, in_or_app. auto.
Qed.
Lemma pt_frame H pre G evs s : Pt H pre G evs s -> At false (H ++ P) s [] G s.
Proof. intros [A B C D E]. eapply at_weaken; [apply at_start; exact B|exact C]. Qed.
Lemma pt_stack H pre G evs s : Pt H pre G evs s -> stack s = pre ++ stack s0.
Proof. intros T. exact (a_stack _ _ _ _ _ _ _ (tr_at _ _ _ _ _ _ _ (p_tr _ _ _ _ _ T))). Qed.
Lemma pt_inv0 H pre G evs s : Pt H pre G evs s -> Inv P s0.
Proof. intros T. exact (a_inv0 _ _ _ _ _ _ _ (tr_at _ _ _ _ _ _ _ (p_tr _ _ _ _ _ T))). Qed.
(** Values the stack held at the start, and pushed values not owned. *)
Lemma pt_old H pre G evs s x : Pt H pre G evs s -> x < nextId s0 -> ~ In x P -> good (H ++ P) s x.
Proof.
  intros T L N. split; [|split; [|discriminate]].
  - pose proof (a_next _ _ _ _ _ _ _ (tr_at _ _ _ _ _ _ _ (p_tr _ _ _ _ _ T))). lia.
  - intros [J|J]%in_app_or; [|auto]. apply (p_new _ _ _ _ _ T) in J. lia.
Qed.
Lemma pt_pre H pre G evs s x : Pt H pre G evs s -> In x pre -> ~ In x P -> ~ In x H -> good (H ++ P) s x.
Proof.
  intros T J N1 N2. apply good_stack; [apply T|rewrite (pt_stack _ _ _ _ _ T); apply in_or_app; auto|]. intros [K|K]%in_app_or; auto.
Qed.
Lemma pt_unreach H pre G evs s h x : Pt H pre G evs s -> In h H -> reachable (all s) (stack s0) x -> x <> h.
Proof.
  intros T J R. destruct R as [x K|r c x R L F].
  - intros ->. apply (i_stack _ _ _ (pt_inv0 _ _ _ _ _ T)) in K. apply (p_new _ _ _ _ _ T) in J. lia.
  - intros ->. apply (i_refs _ _ _ (p_inv _ _ _ _ _ T) r c h L (or_introl F)). apply in_or_app. auto.
Qed.
(** Evaluation. *)
Lemma pt_eval H x env pre G evs (Q : option ref -> vm -> Prop) s : Pt H pre G evs s -> good (H ++ P) s x -> good (H ++ P) s env ->
  (forall o s', Pt H pre (fun r => o = Some r) (evs ++ [SpecTrace.Eval x env s o s']) s' -> (forall h, In h H -> lookup (all s') h = lookup (all s) h) -> Q o s') -> wp (ev x env) Q s.
Proof.
  intros T GX GE K. pose proof (EV (H ++ P) s x env (p_inv _ _ _ _ _ T) GX GE ltac:(discriminate)) as W.
  apply wp_record in W. eapply wp_mono; [exact W|]. intros o s' (A & E). apply K.
  - constructor; [|apply A|exact (a_good _ _ _ _ _ _ _ A)|apply T|apply T]. split.
    + eapply (at_call true false false); [exact (tr_at _ _ _ _ _ _ _ (p_tr _ _ _ _ _ T))| |auto]. eapply at_unpriv; [exact A|]. intros z J. apply in_or_app. auto.
    + exact (trace_snoc ev _ _ _ (SpecTrace.Eval x env s o s') (tr_tr _ _ _ _ _ _ _ (p_tr _ _ _ _ _ T)) E).
  - intros h J. apply (a_same _ _ _ _ _ _ _ A). left. apply in_or_app. auto.
Qed.
(** A quiet procedure. *)
Lemma pt_quiet H pre G evs s pre' G' s' : Pt H pre G evs s -> At true (H ++ P) s pre' G' s' -> Pt H (pre' ++ pre) G' evs s'.
Proof.
  intros T A. assert (A' : At true P s pre' G' s') by (eapply at_unpriv; [exact A|]; intros z J; apply in_or_app; auto).
  constructor; [|apply A|exact (a_good _ _ _ _ _ _ _ A)|apply T|apply T]. split.
  - eapply (at_call_pre true); [exact (tr_at _ _ _ _ _ _ _ (p_tr _ _ _ _ _ T))|exact A'|discriminate].
  - eapply trace_after; [exact (tr_tr _ _ _ _ _ _ _ (p_tr _ _ _ _ _ T))|]. eapply keeps_incl; [exact (tr_base _ _ _ _ _ _ _ (p_tr _ _ _ _ _ T))|]. eapply keeps_at; exact A'.
Qed.
Lemma good_of_stack (Q : list ref) s st x : good Q s x -> good Q (with_stack s st) x.
Proof. intros (A & B & C). repeat split; auto. Qed.
Lemma pt_push H r pre G evs (Q : unit -> vm -> Prop) s : Pt H pre G evs s -> has false s0 pre G r ->
  (forall s', Pt H (r :: pre) G evs s' -> all s' = all s -> Q tt s') -> wp (push r) Q s.
Proof.
  intros T HR K. pose proof (p_tr _ _ _ _ _ T) as TT.
  assert (LR : r < nextId s) by (eapply at_lt; [exact (tr_at _ _ _ _ _ _ _ TT)|exact HR]).
  pose proof (tr_push ev P s0 r pre G evs (fun _ s' => Tr (r :: pre) G evs s') s TT HR (fun s' T' _ => T')) as W.
  unfold SafeBase.wp, push in *. apply K; [|reflexivity]. constructor; [exact W| | |apply T|apply T].
  - apply inv_push; [apply T|exact LR|discriminate].
  - intros x J. apply good_of_stack. now apply (p_good _ _ _ _ _ T).
Qed.
Lemma pt_pop H r pre G evs (Q : unit -> vm -> Prop) s : Pt H (r :: pre) G evs s -> incl H pre ->
  (forall s', Pt H pre (fun x => (x = r /\ ~ In r P /\ ~ In r H) \/ G x) evs s' -> all s' = all s -> Q tt s') -> wp (pop r) Q s.
Proof.
  intros T IH K. pose proof (p_tr _ _ _ _ _ T) as TT. pose proof (pt_stack _ _ _ _ _ T) as ES. cbn [app] in ES.
  pose proof (tr_pop ev P s0 r pre G evs (fun _ s' => Tr pre (fun x => (x = r /\ ~ In r P) \/ G x) evs s') s TT (fun s' T' _ => T')) as W.
  assert (W2 : wp (pop r) (fun _ s' => Inv (H ++ P) s') s).
  { pose proof (at_start true false (H ++ P) s (p_inv _ _ _ _ _ T)) as A. unfold SafeBase.wp, pop in *. rewrite ES in *. rewrite N.eqb_refl in *.
    pose proof (p_inv _ _ _ _ _ T) as I. destruct I as [I1 I2 I3 I4 I5 I6 I7 I8]. rewrite ES in *. constructor; auto; cbn.
    - intros x J. apply I4. now right.
    - intros x [J|J]%in_app_or; [apply in_or_app; left; apply IH, J|]. apply in_or_app. right. exact (i_priv _ _ _ (pt_inv0 _ _ _ _ _ T) x J).
    - destruct I6 as (X1 & X2 & X3). split; [exact X1|]. split; [exact X2|discriminate]. }
  unfold SafeBase.wp, pop in *. rewrite ES in *. rewrite N.eqb_refl in *. apply K; [|reflexivity]. constructor; [|exact W2| |apply T|apply T].
  - eapply tr_weaken; [exact W|]. intros x [(-> & N & _)|J]; apply (a_good _ _ _ _ _ _ _ (tr_at _ _ _ _ _ _ _ W)); auto.
  - intros x [(-> & N1 & N2)|J]; apply good_of_stack; [|now apply (p_good _ _ _ _ _ T)]. eapply pt_pre; [exact T|now left|exact N1|exact N2].
Qed.
(** Allocation. *)
Lemma pt_alloc H d pre G evs (Q : ref -> vm -> Prop) s : Pt H pre G evs s -> (forall x, dref d x -> ~ In x (H ++ P) /\ reach s x) ->
  (forall r s', Pt H pre (eq r) evs s' -> ~ In r (H ++ P) -> data_at s' r = Some d -> (forall x, reach s x -> lookup (all s') x = lookup (all s) x) -> nextId s <= r -> Q r s') -> wp (alloc d) Q s.
Proof.
  intros T ND K.
  assert (W : wp (alloc d) (fun r s' => At true (H ++ P) s [] (eq r) s' /\ (~ In r (H ++ P)) /\ data_at s' r = Some d /\ nextId s <= r) s).
  { apply (r_alloc true true (H ++ P) s d [] (fun _ => False)); [apply at_start, T|intros x R; destruct (ND x R); auto|discriminate|]. intros r s' H' AL M. split; [exact H'|]. split; [apply M|].
    destruct (al_cell _ _ _ _ _ _ AL) as (ad & L). split; [unfold data_at; now rewrite L|now apply M]. }
  eapply wp_mono; [exact W|]. intros r s' (A' & N & C & NX). apply K; auto; [exact (pt_quiet _ _ _ _ _ [] _ _ T A')|].
  intros x R. apply (a_same _ _ _ _ _ _ _ A'). auto.
Qed.
(** A new value of our own. *)
Lemma pt_own H d pre G evs {X} (k : ref -> M X) (Q : X -> vm -> Prop) s : Pt H pre G evs s -> (forall x, ~ dref d x) ->
  (forall r s', Pt (r :: H) (r :: pre) (fun _ => False) evs s' -> ~ In r (H ++ P) -> data_at s' r = Some d -> nextId s <= r ->
     (forall x, reach s x -> lookup (all s') x = lookup (all s) x) -> (forall x c, x <> r -> lookup (all s') x = Some c -> lookup (all s) x = Some c) -> wp (k r) Q s') -> wp (r <- alloc d ;; push r ;;; k r) Q s.
Proof.
  intros T ND K. apply wp_bind.
  assert (W : wp (alloc d) (fun r s' => At true (H ++ P) s [] (eq r) s' /\ allocated true (H ++ P) s d r s' /\ ~ In r (H ++ P)) s).
  { apply (r_alloc true true (H ++ P) s d [] (fun _ => False)); [apply at_start, T|intros x R; now apply ND in R|discriminate|]. intros r s' H' AL M. split; [exact H'|]. split; [exact AL|apply M]. }
  apply wp_record in W. eapply wp_mono; [exact W|]. clear W. intros r s' ((A' & AL & N) & EA). apply wp_bind. unfold SafeBase.wp at 1, push.
  pose proof (make_private true (H ++ P) s d r s [] _ s' (at_start true false (H ++ P) s (p_inv _ _ _ _ _ T)) AL) as I1.
  destruct (al_cell _ _ _ _ _ _ AL) as (ad & L). pose proof (al_old _ _ _ _ _ _ AL) as NX.
  pose proof (pt_quiet _ _ _ _ _ [] _ _ T A') as T1. cbn [app] in T1.
  assert (T2 : Pt H (r :: pre) (fun _ => False) evs (with_stack s' (r :: stack s'))).
  { pose proof (pt_push H r pre _ evs (fun _ s2 => Pt H (r :: pre) (eq r) evs s2) s' T1 ltac:(now left) (fun s2 T2 _ => T2)) as W. unfold SafeBase.wp, push in W. eapply pt_weaken; [exact W|easy]. }
  pose proof (EnvProofs.alloc_ret d s r s' (i_ids _ _ _ (p_inv _ _ _ _ _ T)) EA) as AE.
  apply K; auto.
  - constructor; [apply T2|exact I1|easy| |].
    + intros h [<-|J]; [|now apply (p_new _ _ _ _ _ T)]. pose proof (a_next _ _ _ _ _ _ _ (tr_at _ _ _ _ _ _ _ (p_tr _ _ _ _ _ T))). lia.
    + constructor; [|apply T]. intros J. apply N, in_or_app. auto.
  - unfold data_at. cbn. now rewrite L.
  - intros x R. cbn. apply (a_same _ _ _ _ _ _ _ A'). auto.
  - intros x c NE. cbn. now apply (EnvProofs.ae_old _ _ _ _ AE).
Qed.
(** Giving a value up. *)
Lemma pt_open H h pre G evs s : Pt (h :: H) pre G evs s -> ~ In h P -> In h pre -> Pt H pre (fun x => x = h \/ G x) evs s.
Proof.
  intros [A B C D E] N J. inversion E as [|h' H' E1 E2]; subst. assert (I : Inv (H ++ P) s) by (eapply inv_unpriv; [exact B|intros x K; now right]).
  assert (GW : forall x, x = h \/ G x -> good (H ++ P) s x).
  { intros x [->|K].
    - apply good_stack; [exact I|rewrite (a_stack _ _ _ _ _ _ _ (tr_at _ _ _ _ _ _ _ A)); apply in_or_app; auto|]. intros [K|K]%in_app_or; auto.
    - destruct (C x K) as (C1 & C2 & C3). repeat split; auto. intros K'. apply C2. now right. }
  constructor; auto.
  - eapply tr_weaken; [exact A|]. intros x K. destruct (GW x K) as (W1 & W2 & W3). repeat split; auto. intros K'. apply W2, in_or_app. auto.
  - intros x K. apply D. now right.
Qed.
(** Changing one of our own values. *)
Lemma pt_put H h d pre G evs (Q : unit -> vm -> Prop) s : Pt H pre G evs s -> In h H -> (forall y, dref d y -> good (H ++ P) s y) ->
  (forall s', Pt H pre G evs s' -> data_at s' h = Some d -> (forall y, y <> h -> lookup (all s') y = lookup (all s) y) -> nextId s' = nextId s -> Q tt s') -> wp (put h d) Q s.
Proof.
  intros T IH GD K. apply (wp_put true (H ++ P)); [apply T|discriminate|split; [exact GD|discriminate]|discriminate|]. intros c L I.
  assert (OL : forall y, y <> h -> lookup (update (all s) h (mkCell d (cdoc c) (cdocvec c) (cmark c) (caddr c))) y = lookup (all s) y).
  { intros y NE. rewrite lookup_update. destruct (N.eqb_spec h y); congruence. }
  assert (IP : incl P (H ++ P)) by (intros x J; apply in_or_app; auto).
  assert (NP : ~ In h P).
  { intros J. apply (i_priv _ _ _ (pt_inv0 _ _ _ _ _ T)), (i_stack _ _ _ (pt_inv0 _ _ _ _ _ T)) in J. apply (p_new _ _ _ _ _ T) in IH. lia. }
  apply K; [|unfold data_at; cbn; now rewrite lookup_update, N.eqb_refl, L|exact OL|reflexivity].
  pose proof (tr_at _ _ _ _ _ _ _ (p_tr _ _ _ _ _ T)) as A. constructor; [split|exact I| |apply T|apply T].
  - destruct A as [A1 A2 A3 A4 A5 A6 A7 A8]. constructor; auto; cbn.
    + eapply inv_unpriv; [exact I|exact IP].
    + intros x [J|(J & _)]; [|discriminate]. rewrite OL; auto. intros ->. auto.
    + intros x J. destruct (A8 x J) as (X1 & X2 & X3). repeat split; auto. discriminate.
  - eapply trace_after; [exact (tr_tr _ _ _ _ _ _ _ (p_tr _ _ _ _ _ T))|]. split; [|auto 9]. cbn. intros y cy R Ly. exists cy. split; [|apply alike_refl].
    rewrite OL; [exact Ly|]. eapply pt_unreach; eauto.
  - intros x J. destruct (p_good _ _ _ _ _ T x J) as (X1 & X2 & X3). repeat split; auto. discriminate.
Qed.
Lemma pt_vec_push H h x l pre G evs (Q : unit -> vm -> Prop) s : Pt H pre G evs s -> In h H -> data_at s h = Some (DVec l) -> good (H ++ P) s x ->
  (forall s', Pt H pre G evs s' -> data_at s' h = Some (DVec (l ++ [x])) -> (forall y, y <> h -> lookup (all s') y = lookup (all s) y) -> nextId s' = nextId s -> Q tt s') -> wp (vec_push h x) Q s.
Proof.
  intros T IH DH GX K. unfold vec_push. apply wp_bind, t_get. intros d D. rewrite DH in D. injection D as <-.
  eapply pt_put; [exact T|exact IH| |exact K]. intros y [J|[<-|[]]]%in_app_or; [|exact GX]. unfold data_at in DH. destruct (lookup (all s) h) as [c|] eqn:L; [|discriminate]. cbn in DH. injection DH as DH.
  eapply good_dref; [apply T|exact L|now rewrite DH].
Qed.
End Private.
