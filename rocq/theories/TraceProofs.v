(** Proofs about SpecTrace.v, and the rules for procedures with a trace. *)
From Coq Require Import NArith ZArith Bool Lia Arith List String.
From Coq Require Import ZifyBool ZifyNat ZifyN.
From Verif Require Import Base OString HMap Heap SpecHeap GcProofs VmProofs ValueOps Env Copy Builtins Specials Eval SafeBase SafeRead SafeLib SafeBuiltins SafeSpecials SafeEval SpecTrace.
Import ListNotations.
Local Open Scope N_scope.

Lemma alike_refl c : alike c c. Proof. now left. Qed.
Lemma alike_trans a b c : alike a b -> alike b c -> alike a c.
Proof.
  intros [->|(A1 & A2 & A3 & A4)] H; [exact H|]. destruct H as [->|(B1 & B2 & B3 & B4)]; right; [auto|]. repeat split; auto; congruence.
Qed.
Lemma alike_refers c c' x : alike c c' -> refers c x -> refers c' x.
Proof.
  intros [->|(A1 & A2 & A3 & A4)] R; [exact R|]. apply refers_iff. apply refers_iff in R as [R|R]; [left; congruence|].
  destruct (cdata c); cbn in A1; try contradiction; now elim R.
Qed.
Lemma keeps_refl base s : keeps base s s.
Proof. split; [|auto 9]. intros x c _ L. exists c. split; [exact L|apply alike_refl]. Qed.
Lemma reachable_incl h b b' x : incl b b' -> reachable h b x -> reachable h b' x.
Proof. intros I R. induction R as [x J|r c x R IH L F]; [apply re_root; auto|eapply re_step; eauto]. Qed.
Lemma keeps_reach base s s' x : keeps base s s' -> reachable (all s) base x -> reachable (all s') base x.
Proof.
  intros (K & _) R. induction R as [x J|r c x R IH L F]; [now apply re_root|]. destruct (K r c R L) as (c' & L' & A). eapply re_step; [exact IH|exact L'|]. eapply alike_refers; eauto.
Qed.
Lemma keeps_trans base s1 s2 s3 : keeps base s1 s2 -> keeps base s2 s3 -> keeps base s1 s3.
Proof.
  intros A B. pose proof A as (A1 & A2 & A3 & A4 & A5 & A6 & A7). pose proof B as (B1 & B2 & B3 & B4 & B5 & B6 & B7). split; [|repeat split; congruence].
  intros x c R L. destruct (A1 x c R L) as (c' & L' & E). destruct (B1 x c' (keeps_reach _ _ _ _ A R) L') as (c'' & L'' & E'). exists c''. split; [exact L''|]. eapply alike_trans; eauto.
Qed.
Lemma keeps_incl b b' s s' : incl b b' -> keeps b' s s' -> keeps b s s'.
Proof. intros I (A & B). split; [|exact B]. intros x c R. apply A. eapply reachable_incl; eauto. Qed.
(** Steps that do not touch the heap. *)
Lemma keeps_same base s s' : all s' = all s -> genv s' = genv s -> fret s' = fret s -> quit s' = quit s -> exitCode s' = exitCode s -> readably s' = readably s -> output s' = output s -> keeps base s s'.
Proof. intros E. intros. split; [|auto 9]. intros x c _ L. exists c. rewrite E. split; [exact L|apply alike_refl]. Qed.
Lemma trace_before ev base s0 s evs s' : keeps base s0 s -> trace ev base s evs s' -> trace ev base s0 evs s'.
Proof. intros K T. destruct T as [s s' K'|s e evs s' K' E T]; [apply t_done|apply t_event; [|exact E|exact T]]; eapply keeps_trans; eauto. Qed.
Lemma trace_after ev base s evs s' s'' : trace ev base s evs s' -> keeps base s' s'' -> trace ev base s evs s''.
Proof. intros T K. induction T as [s s' K'|s e evs s' K' E T IH]; [apply t_done; eapply keeps_trans; eauto|apply t_event; auto]. Qed.
Lemma trace_snoc ev base s evs e : trace ev base s evs (before e) -> happens ev e -> trace ev base s (evs ++ [e]) (after e).
Proof.
  intros T E. remember (before e) as s1 eqn:ES. induction T as [s s' K'|s e' evs s' K' E' T IH]; cbn [app]; subst.
  - apply t_event; [exact K'|exact E|]. apply t_done, keeps_refl.
  - apply t_event; [exact K'|exact E'|auto].
Qed.
Lemma trace_app ev base s evs s1 evs' s2 : trace ev base s evs s1 -> trace ev base s1 evs' s2 -> trace ev base s (evs ++ evs') s2.
Proof. intros T T'. induction T as [s s' K'|s e evs s' K' E' T IH]; cbn [app]; [eapply trace_before; eauto|apply t_event; eauto]. Qed.
Lemma trace_incl ev b b' s evs s' : incl b b' -> trace ev b' s evs s' -> trace ev b s evs s'.
Proof. intros I T. induction T as [s s' K'|s e evs s' K' E' T IH]; [apply t_done|apply t_event; [|exact E'|exact IH]]; eapply keeps_incl; eauto. Qed.

(** ** Procedures with a trace *)
Notation wp := (SafeBase.wp true).
Notation Inv := (SafeBase.Inv true).
Notation At := (SafeBase.At true).
Notation good := (SafeBase.good true).
Ltac has := solve [unfold has; cbn [In app]; auto 15].
Ltac eqg H := apply (a_good _ _ _ _ _ _ _ H); reflexivity.
Ltac inc H := apply (a_good _ _ _ _ _ _ _ H); auto.

Lemma keeps_at P s pre G s' : At true P s pre G s' -> keeps (stack s) s s'.
Proof.
  intros H. split.
  - intros x c R L. exists c. split; [|apply alike_refl]. rewrite (a_same _ _ _ _ _ _ _ H); [exact L|]. right. split; [reflexivity|exact R].
  - destruct (a_misc _ _ _ _ _ _ _ H eq_refl) as (-> & -> & -> & -> & ->). split; [apply H|auto 9].
Qed.
Lemma wp_record {X} (m : M X) (Q : X -> vm -> Prop) s : wp m Q s -> wp m (fun x s' => Q x s' /\ m s = Ret (x, s')) s.
Proof. unfold SafeBase.wp. destruct (m s) as [[x s']| | | | |]; auto. Qed.

Section Trace.
Context (ev : evaluator) (EV : ev_ok true ev).
Context (P : list ref) (s0 : vm).
Implicit Types (pre : list ref) (G : ref -> Prop) (s : vm) (evs : list event).
Record Tr pre G evs s : Prop := { tr_at : At false P s0 pre G s; tr_tr : trace ev (stack s0) s0 evs s }.
Lemma tr_start : Inv P s0 -> Tr [] (fun _ => False) [] s0.
Proof. intros A. split; [now apply at_start|apply t_done, keeps_refl]. Qed.
Lemma tr_weaken pre G (G' : ref -> Prop) evs s : Tr pre G evs s -> (forall x, G' x -> good P s x) -> Tr pre G' evs s.
Proof. intros [A B] K. split; [|exact B]. eapply at_weaken; eauto. Qed.
Lemma tr_base pre G evs s : Tr pre G evs s -> incl (stack s0) (stack s).
Proof. intros [A _] x J. rewrite (a_stack _ _ _ _ _ _ _ A). apply in_or_app. auto. Qed.
Lemma tr_push r pre G evs (Q : unit -> vm -> Prop) s : Tr pre G evs s -> has false s0 pre G r ->
  (forall s', Tr (r :: pre) G evs s' -> all s' = all s -> Q tt s') -> wp (push r) Q s.
Proof.
  intros [A B] R K. assert (W : At false P s0 (r :: pre) G (with_stack s (r :: stack s))).
  { exact (r_push true false P s0 r pre G (fun _ s' => At false P s0 (r :: pre) G s') s A R (fun s' H' => H')). }
  unfold SafeBase.wp, push. apply K; [|reflexivity]. split; [exact W|]. eapply trace_after; [exact B|]. apply keeps_same; reflexivity.
Qed.
Lemma tr_pop r pre G evs (Q : unit -> vm -> Prop) s : Tr (r :: pre) G evs s ->
  (forall s', Tr pre (fun x => (x = r /\ ~ In r P) \/ G x) evs s' -> all s' = all s -> Q tt s') -> wp (pop r) Q s.
Proof.
  intros [A B] K. pose proof (r_pop true false P s0 r pre G (fun _ s' => At false P s0 pre (fun x => (x = r /\ ~ In r P) \/ G x) s') s A (fun s' H' => H')) as W.
  unfold SafeBase.wp, pop in *. destruct (stack s) as [|x st]; [exact W|]. destruct (x =? r); [|exact W]. apply K; [|reflexivity]. split; [exact W|].
  eapply trace_after; [exact B|]. apply keeps_same; reflexivity.
Qed.
Lemma tr_pops l : forall pre G evs (Q : unit -> vm -> Prop) s, Tr (l ++ pre) G evs s ->
  (forall s', Tr pre (fun x => (In x l /\ ~ In x P) \/ G x) evs s' -> all s' = all s -> Q tt s') -> wp (pops l) Q s.
Proof.
  induction l as [|r l IH]; intros pre G evs Q s H K.
  - apply wp_ret. apply K; [|reflexivity]. eapply tr_weaken; [exact H|]. intros x [([] & _)|W]. now apply (a_good _ _ _ _ _ _ _ (tr_at _ _ _ _ H)).
  - unfold pops. cbn [iterM]. apply wp_bind. cbn [app] in H. eapply tr_pop; [exact H|]. clear H. intros s1 H E1.
    eapply (IH pre); [exact H|]. intros s2 H2 E2. apply K; [|congruence]. eapply tr_weaken; [exact H2|]. intros x [([<-|I] & N)|W]; apply (a_good _ _ _ _ _ _ _ (tr_at _ _ _ _ H2)); auto.
Qed.
(** A quiet procedure. *)
Lemma tr_quiet pre G evs {X} (m : M X) (GX : X -> ref -> Prop) (Q : X -> vm -> Prop) s : Tr pre G evs s ->
  wp m (fun x s' => At true P s [] (GX x) s') s -> (forall x s', Tr pre (GX x) evs s' -> At true P s [] (GX x) s' -> Q x s') -> wp m Q s.
Proof.
  intros H W K. eapply wp_mono; [exact W|]. intros x s' A. apply K; [|exact A]. split.
  - eapply at_call; [exact (tr_at _ _ _ _ H)|exact A|auto].
  - eapply trace_after; [exact (tr_tr _ _ _ _ H)|]. eapply keeps_incl; [exact (tr_base _ _ _ _ H)|]. eapply keeps_at; exact A.
Qed.
Lemma tr_alloc d pre G evs (Q : ref -> vm -> Prop) s : Tr pre G evs s -> (forall x, dref d x -> ~ In x P /\ reach s x) ->
  (forall r s', Tr pre (eq r) evs s' -> ~ In r P -> (exists addr, lookup (all s') r = Some (mkCell d None None false addr)) -> (forall x, reach s x -> lookup (all s') x = lookup (all s) x) -> nextId s <= r -> Q r s') -> wp (alloc d) Q s.
Proof.
  intros H ND K. pose proof (a_inv _ _ _ _ _ _ _ (tr_at _ _ _ _ H)) as A.
  assert (W : wp (alloc d) (fun r s' => At true P s [] (eq r) s' /\ (~ In r P) /\ (exists addr, lookup (all s') r = Some (mkCell d None None false addr)) /\ nextId s <= r) s).
  { apply (r_alloc true true P s d [] (fun _ => False)); [now apply at_start|intros x R; destruct (ND x R); auto|discriminate|]. intros r s' H' AL M. split; [exact H'|]. split; [apply M|]. split; [apply AL|now apply M]. }
  eapply wp_mono; [exact W|]. intros r s' (A' & N & C & NX). apply K; auto.
  - split; [eapply at_call; [exact (tr_at _ _ _ _ H)|exact A'|auto]|]. eapply trace_after; [exact (tr_tr _ _ _ _ H)|]. eapply keeps_incl; [exact (tr_base _ _ _ _ H)|]. eapply keeps_at; exact A'.
  - intros x R. rewrite (a_same _ _ _ _ _ _ _ A'); auto.
Qed.
Lemma tr_error pre G evs (Q : ref -> vm -> Prop) s : Tr pre G evs s -> (forall r s' d, Tr pre (eq r) evs s' -> data_at s' r = Some d -> is_err d -> Q r s') -> wp new_error Q s.
Proof.
  intros H K. pose proof (a_inv _ _ _ _ _ _ _ (tr_at _ _ _ _ H)) as A. unfold new_error.
  assert (W : wp (maybe_gc ;;; (fun s => fresh (DErr (msgs s (nextAddr s)) 0) s)) (fun r s' => At true P s [] (eq r) s' /\ exists d, data_at s' r = Some d /\ is_err d) s).
  { apply (r_alloc_gen true true P s (fun s => DErr (msgs s (nextAddr s)) 0) [] (fun _ => False)); [now apply at_start|easy|discriminate|].
    intros r s' s1 H' AL M. split; [exact H'|]. destruct (al_cell _ _ _ _ _ _ AL) as (addr & L). unfold data_at. rewrite L. eexists. split; [reflexivity|exact I]. }
  eapply wp_mono; [exact W|]. intros r s' (A' & d & E & R). eapply K; [|exact E|exact R].
  split; [eapply at_call; [exact (tr_at _ _ _ _ H)|exact A'|auto]|]. eapply trace_after; [exact (tr_tr _ _ _ _ H)|]. eapply keeps_incl; [exact (tr_base _ _ _ _ H)|]. eapply keeps_at; exact A'.
Qed.
(** Writing a value made since [s0] that nothing on the stack below refers to is
    not observable; here for a vector just allocated in [s1]. *)
Lemma tr_eval x env pre G evs (Q : option ref -> vm -> Prop) s : Tr pre G evs s -> good P s x -> good P s env ->
  (forall o s', Tr pre (fun r => o = Some r) (evs ++ [SpecTrace.Eval x env s o s']) s' -> Q o s') -> wp (ev x env) Q s.
Proof.
  intros H GX GE K. pose proof (EV P s x env (a_inv _ _ _ _ _ _ _ (tr_at _ _ _ _ H)) GX GE ltac:(discriminate)) as W.
  apply wp_record in W. eapply wp_mono; [exact W|]. intros o s' (A & E). apply K. split.
  - eapply at_call; [exact (tr_at _ _ _ _ H)|exact A|auto].
  - exact (trace_snoc ev _ _ _ (SpecTrace.Eval x env s o s') (tr_tr _ _ _ _ H) E).
Qed.
Lemma tr_annotate r pre G evs (Q : unit -> vm -> Prop) s : Tr pre G evs s -> good P s r ->
  (forall s', Tr pre G evs s' -> (forall d, data_at s r = Some d -> exists d', data_at s' r = Some d' /\ (is_err d -> is_err d') /\ (~ is_err d -> d' = d)) -> Q tt s') -> wp (annotate r) Q s.
Proof.
  intros H GR K. unfold annotate. apply wp_bind, wp_get_cell; [discriminate|]. intros c L.
  assert (U : ~ is_err (cdata c) -> Q tt s).
  { intros NE. apply K; [exact H|]. unfold data_at. rewrite L. cbn. intros d [= <-]. eauto. }
  destruct (cdata c) eqn:E; try (apply wp_ret, U; intros F; exact F). clear U.
  pose proof (r_annotate true P s0 r pre G (fun _ s' => At false P s0 pre G s') s (tr_at _ _ _ _ H) GR (fun s' H' _ _ => H')) as W.
  unfold SafeBase.wp, annotate, bind, get_cell in W. rewrite L in W. cbn [fst snd obind] in W. rewrite E in W.
  unfold SafeBase.wp, put_cell in *. cbn [all with_nextAddr] in *. rewrite L in *. apply K.
  - split; [exact W|]. eapply trace_after; [exact (tr_tr _ _ _ _ H)|]. split; [|auto 9]. cbn. intros x c' _ Lx. rewrite lookup_update. destruct (N.eqb_spec r x) as [<-|NE].
    + rewrite L. cbn. rewrite L in Lx. injection Lx as <-. eexists. split; [reflexivity|]. right. cbn. rewrite E. cbn. auto.
    + exists c'. split; [exact Lx|apply alike_refl].
  - unfold data_at. cbn. rewrite L, lookup_update, N.eqb_refl, L. cbn. intros d [= <-]. rewrite E. eexists. split; [reflexivity|]. cbn. split; [auto|]. intros F. now elim F.
Qed.
Lemma tr_bind e k v pre G evs (Q : unit -> vm -> Prop) s : Tr pre G evs s -> ~ In e P -> good P s k -> good P s v ->
  (forall s', Tr pre G (evs ++ [Bind e k v s s']) s' -> Q tt s') -> wp (env_set e k v) Q s.
Proof.
  intros H NE GK GV K. assert (W : wp (env_set e k v) (fun _ s' => At false P s0 pre G s') s).
  { eapply r_env_set; [exact (tr_at _ _ _ _ H)|discriminate|split; [exact NE|discriminate]|exact GK|exact GV|auto]. }
  apply wp_record in W. eapply wp_mono; [exact W|]. intros [] s' (A & E). apply K. split; [exact A|].
  exact (trace_snoc ev _ _ _ (Bind e k v s s') (tr_tr _ _ _ _ H) E).
Qed.
Lemma tr_doc v d dv pre G evs (Q : unit -> vm -> Prop) s : Tr pre G evs s -> ~ In v P -> good P s d -> (forall x, dv = Some x -> x < nextId s /\ ~ In x P) ->
  (forall s', Tr pre G (evs ++ [Doc v d dv s s']) s' -> (forall c, lookup (all s) v = Some c -> data_at s' v = Some (cdata c)) -> (forall x, x <> v -> lookup (all s') x = lookup (all s) x) -> Q tt s') -> wp (set_docs v (Some d) dv) Q s.
Proof.
  intros H NV GD GV K. assert (W : wp (set_docs v (Some d) dv) (fun _ s' => At false P s0 pre G s' /\ (forall c, lookup (all s) v = Some c -> data_at s' v = Some (cdata c)) /\ (forall x, x <> v -> lookup (all s') x = lookup (all s) x)) s).
  { apply (wp_set_docs true P); [exact (a_inv _ _ _ _ _ _ _ (tr_at _ _ _ _ H))|discriminate|intros x [= <-]; exact GD|exact GV|discriminate|].
    intros c L A'. split; [|split].
    - eapply at_write; [exact (tr_at _ _ _ _ H)|split; [exact NV|discriminate]|exact A'].
    - intros c0 L0. rewrite L in L0. injection L0 as <-. unfold data_at. cbn. now rewrite lookup_update, N.eqb_refl, L.
    - intros x NX. cbn. rewrite lookup_update. destruct (N.eqb_spec v x); [congruence|reflexivity]. }
  apply wp_record in W. eapply wp_mono; [exact W|]. intros [] s' ((A & A1 & A2) & E). apply K; auto. split; [exact A|].
  exact (trace_snoc ev _ _ _ (Doc v d dv s s') (tr_tr _ _ _ _ H) E).
Qed.
(** The arguments, in a private vector. *)
Lemma tr_vec a l ca pre G evs s : Tr pre G evs s -> In a P -> lookup (all s0) a = Some ca -> cdata ca = DVec l -> lookup (all s) a = Some ca /\ forall x, In x l -> good P s x.
Proof.
  intros H IA L E. assert (L' : lookup (all s) a = Some ca) by (rewrite (a_same _ _ _ _ _ _ _ (tr_at _ _ _ _ H)); auto). split; [exact L'|].
  intros x J. eapply at_dref; [exact (tr_at _ _ _ _ H)|exact L'|now rewrite E].
Qed.
End Trace.

Lemma sane_inv s : sane s <-> Inv [] s.
Proof.
  split.
  - intros [A B C E]. constructor; try easy.
    + intros r c x L R. split; [eauto|easy].
    + intros x J. split; [auto|easy].
    + split; [apply E; auto|]. split; easy.
    + destruct (fret s) eqn:F; [|exact I]. split; [apply E; auto|]. split; easy.
  - intros A. constructor.
    + apply A.
    + apply A.
    + intros r c x L R. now apply (i_refs _ _ _ A r c).
    + intros x [J|[->|J]]; [now apply (i_stack _ _ _ A)|now apply (i_genv _ _ _ A)|]. pose proof (i_fret _ _ _ A) as F. rewrite J in F. apply F.
Qed.
