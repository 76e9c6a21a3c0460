(** (for ...) does what SpecFor.v says. *)
From Coq Require Import NArith ZArith Bool Lia Arith List String.
From Coq Require Import ZifyBool ZifyNat ZifyN.
From Verif Require Import Base Utf8 SpecText Utf8Proofs Vec OString HMap HMapProofs Heap SpecHeap GcProofs VmProofs ValueOps Env Copy Builtins Specials Eval SafeBase SafeRead SafeLib SafeBuiltins SafeSpecials SafeEval SpecTrace SpecSpecial SpecDefine SpecFor TraceProofs SpecialProofs CopyProofs DefineProofs.
Import ListNotations.
Local Open Scope N_scope.
Local Open Scope list_scope.

Lemma wp_and {X} D (m : M X) (Q1 Q2 : X -> vm -> Prop) s : SafeBase.wp D m Q1 s -> SafeBase.wp D m Q2 s -> SafeBase.wp D m (fun x s' => Q1 x s' /\ Q2 x s') s.
Proof. unfold SafeBase.wp. destruct (m s) as [[x s']| | | | |]; auto. Qed.
Lemma str_get_at t i ch : str_get (text_str t) (Z.of_N i) = Ret ch -> (Z.of_N i < 2 ^ 63)%Z -> nth_error t (N.to_nat i) = Some ch.
Proof.
  unfold str_get, str_index. intros H L. destruct (Z.ltb_spec (Z.of_N i) 0); [lia|]. unfold size_of_ptrdiff in H. rewrite Z.mod_small in H by (change (2 ^ 64)%Z with 18446744073709551616%Z; change (2 ^ 63)%Z with 9223372036854775808%Z in L; lia).
  destruct (_ <? _)%Z; [|discriminate]. replace (Z.to_nat (Z.of_N i)) with (N.to_nat i) in H by lia. cbn [ucs text_str] in H. destruct (nth_error t (N.to_nat i)); [now injection H as ->|discriminate].
Qed.
Lemma at_index_nth (m : hmap ref ref) i e : map_get_at_index m (Z.of_N i) = Some e -> nth_error (List.concat (buckets m)) (N.to_nat i) = Some e.
Proof.
  unfold map_get_at_index. destruct (Z.ltb_spec (Z.of_N i) 0); [lia|]. rewrite at_index_ok by lia. rewrite Nat.sub_0_r. now replace (Z.to_nat (Z.of_N i)) with (N.to_nat i) by lia.
Qed.

Lemma rounds_same (item : vm -> N -> ref -> vm -> Prop) ext k body n step m i c evs r od : rounds item ext k body n step m i c evs r od ->
  forall m', all m' = all m -> (forall i x s, item m i x s -> item m' i x s) -> rounds item ext k body n step m' i c evs r od.
Proof.
  intros H. destruct H as [m i c r H|m i c x s s' evs evs' r od LT I E B R|m i c x s s' evs r od LT I E B]; intros m' EM K.
  - now apply rounds_end.
  - eapply rounds_next; eauto. now rewrite (data_same m m').
  - eapply rounds_stop; eauto. now rewrite (data_same m m').
Qed.

Section Spec.
Context (ev : evaluator) (EV : ev_ok true ev) (P : list ref) (a env : ref) (s0 : vm) (c0 : cell) (l : list ref).
Context (IN : In a P) (L0 : lookup (all s0) a = Some c0) (E0 : cdata c0 = DVec l) (GE : good P s0 env) (IE0 : In env (stack s0)) (A0 : Inv P s0).
Notation Tr := (TraceProofs.Tr ev P s0).
Implicit Types (pre : list ref) (G : ref -> Prop) (s : vm) (evs : list event).

Lemma run_forms_last e : forall k j pre G evs s, Tr pre G evs s -> In e pre \/ e = env -> ~ In e P -> List.length l = (j + k)%nat ->
  wp (run_forms k ev a e j) (fun o s' => exists evs' oo, Tr pre (fun r => o = Some r) (evs ++ evs') s' /\ body_run e (skipn j l) evs' oo /\ s' = last_after s evs' /\
     match o, oo with None, None => True | Some r, Some (r', od) => r = r' /\ result_is s' r od | _, _ => False end) s.
Proof.
  induction k as [|k IH]; intros j pre G evs s H IE NE LN; cbn [run_forms].
  - apply wp_ret. exists [], None. rewrite app_nil_r, skipn_all2 by lia. split; [eapply tr_weaken; [exact H|discriminate]|]. split; [apply body_end|split; [reflexivity|exact I]].
  - apply wp_bind. eapply (t_arg ev P a s0 c0 l IN L0 E0); [exact H|]. intros x NX GX. rewrite (skipn_two x) by assumption.
    assert (GE' : good P s e) by (destruct IE as [IE| ->]; [eapply tr_pre; eauto|eapply tr_env; [exact GE|exact H]]).
    apply wp_bind. eapply (t_ev ev EV P s0); [exact H|exact GX|exact GE'|]. intros o s1 H1. apply wp_bind, wp_need. intros r ->. apply wp_bind, t_is_error. intros d b D1 EB.
    assert (GV : gives (SpecTrace.Eval x e s (Some r) s1) x e r d) by (now apply gives_eval). destruct b.
    + apply wp_ret. assert (ED : is_err d) by (now apply EB). eexists _, (Some (r, Some d)). split; [exact H1|]. split; [now apply body_error|]. split; [reflexivity|]. split; [reflexivity|now apply result_refl].
    + assert (ND : ~ is_err d) by (intros F; apply EB in F; discriminate). apply wp_bind, wp_read. destruct (fret s1) as [v|] eqn:EF.
      * apply wp_ret. eexists _, (Some (v, None)). split; [|split; [eapply body_return; eauto|split; [reflexivity|split; [reflexivity|exact I]]]].
        eapply tr_weaken; [exact H1|]. intros y [= <-]. eapply fret_good; [eapply tr_inv; exact H1|exact EF].
      * eapply wp_mono; [eapply (IH (S j)); [exact H1|exact IE|exact NE|lia]|]. intros o s2 (evs' & oo & H2 & B & EL & K). eexists (_ :: evs'), oo. rewrite <- app_assoc in H2. split; [exact H2|]. split; [eapply body_next; eauto|]. split; [|exact K].
        rewrite EL. unfold last_after. cbn [map]. destruct (map after evs') as [|y t] eqn:EM; [reflexivity|]. cbn [after List.last]. clear. revert y. induction t; intros y; [reflexivity|]. cbn [List.last]. apply IHt.
Qed.

(** Rounds. *)
Definition loop_post pre evs0 (R : list event -> ref -> option data -> Prop) (o : ref + Z) (s : vm) : Prop :=
  exists evs, match o with
    | inl r => exists od, Tr pre (eq r) (evs0 ++ evs) s /\ R evs r od /\ result_is s r od
    | inr z => (exists G, Tr pre G (evs0 ++ evs) s) /\ forall r, R evs r (Some (DInt z))
    end.
Definition item_ok pre ext (item : N -> M ref) (irel : vm -> N -> ref -> vm -> Prop) : Prop :=
  forall i G evs s, Tr pre G evs s -> wp (item i) (fun x s' => Tr pre (eq x) evs s' /\ (forall m, all m = all s -> irel m i x s') /\ data_at s' ext = data_at s ext) s.
Lemma for_loop_spec ext k item irel pre n step j cnt : In ext pre -> ~ In ext P -> In k l -> List.length l = (j + cnt)%nat -> item_ok pre ext item irel ->
  forall f i c G evs s m, Tr pre G evs s -> all m = all s ->
  wp (for_loop f ev a ext k item i n step j cnt c) (loop_post pre evs (rounds irel ext k (skipn j l) n step m i c)) s.
Proof.
  intros IE NE IK LN HI. induction f as [|f IH]; intros i c G evs s m H EM; cbn [for_loop]; [apply wp_nofuel|].
  destruct (N.leb_spec n i) as [LE|LT].
  { apply wp_ret. exists []. rewrite app_nil_r. split; [eauto|]. intros r. now apply rounds_end. }
  apply wp_bind. eapply wp_mono; [exact (HI i G evs s H)|]. intros x s1 (H1 & IR & DE).
  destruct (tr_vec ev P s0 a l c0 _ _ _ _ H1 IN L0 E0) as (_ & GL).
  apply wp_bind. eapply tr_bind; [exact H1|exact NE|now apply GL|eapply tr_good; [exact H1|reflexivity]|]. intros s2 H2.
  apply wp_bind. eapply wp_mono; [eapply (run_forms_last ext cnt j); [exact H2|now left|exact NE|exact LN]|]. intros o s3 (evs' & oo & H3 & B & EL & K).
  assert (DM : data_at s1 ext = data_at m ext) by (rewrite DE; symmetry; now apply data_same).
  rewrite <- app_assoc in H3. cbn [app] in H3. destruct o as [v|].
  - destruct oo as [[v' od]|]; [|easy]. destruct K as (<- & K). apply wp_ret. exists (Bind ext k x s1 s2 :: evs'), od. split; [eapply tr_eq; [exact H3|reflexivity]|]. split; [|exact K].
    eapply rounds_stop; eauto.
  - destruct oo; [easy|]. apply wp_bind, wp_lift; [discriminate|]. intros z' EZ. assert (EZ' : z' = (c + 1)%Z).
    { unfold int32_op in EZ. destruct (in_int32 (c + 1)); [now injection EZ|discriminate]. } subst z'.
    eapply wp_mono; [eapply (IH _ _ _ _ s3 (last_after s2 evs')); [exact H3|now rewrite EL]|]. intros o s4 (evs2 & Q).
    exists (Bind ext k x s1 s2 :: evs' ++ evs2). rewrite <- app_assoc in Q. cbn [app] in Q. destruct o as [r|z].
    + destruct Q as (od & Q1 & Q2 & Q3). exists od. split; [exact Q1|]. split; [|exact Q3]. eapply rounds_next; eauto.
    + destruct Q as (Q1 & Q2). split; [exact Q1|]. intros r. eapply rounds_next; eauto.
Qed.
Lemma for_result_spec used evs (R : list event -> ref -> option data -> Prop) o s : loop_post used evs R o s -> wp (for_result o used) (ends ev P s0 evs R) s.
Proof.
  intros (evs' & Q). unfold for_result. apply (wp_ends ev P s0 evs evs'). apply wp_bind. destruct o as [r|z].
  - destruct Q as (od & H & K & RI). eapply (tr_pops ev P s0 used []); [rewrite app_nil_r; exact H|]. intros s1 H1 E1. apply wp_ret. eapply ends_now; [eapply tr_eq; [exact H1|now right]|rewrite app_nil_r; exact K|eapply result_same; eauto].
  - destruct Q as ((G & H) & K). eapply (tr_pops ev P s0 used []); [rewrite app_nil_r; exact H|]. intros s1 H1 E1. eapply t_alloc_atom; [exact H1|easy|]. intros r s2 H2 D2. eapply ends_now; [exact H2|rewrite app_nil_r; apply K|now apply result_refl].
Qed.

(** Items. *)
Lemma on_stack pre G evs s x : Tr pre G evs s -> In x pre -> reach s x.
Proof. intros H I. apply re_root. rewrite (a_stack _ _ _ _ _ _ _ (tr_at _ _ _ _ _ _ _ H)). apply in_or_app. auto. Qed.
Lemma fresh_in pre G evs s m x : Tr pre G evs s -> all m = all s -> nextId s <= x -> new_in m x.
Proof.
  intros H E LE. unfold new_in. rewrite E. destruct (lookup (all s) x) as [c|] eqn:L; [|reflexivity]. apply (lookup_lt true P s) in L; [lia|eapply tr_inv; exact H].
Qed.
Lemma for_item_spec fuel c addr pre ext : In c pre -> ~ In c P -> In ext pre -> item_ok pre ext (for_item fuel c addr) (item_of c).
Proof.
  intros IC NC IE i G evs s H. unfold for_item. apply wp_bind. apply wp_get_at; [discriminate|]. intros cc L _. assert (DC : data_at s c = Some (cdata cc)) by (unfold data_at; now rewrite L).
  assert (RC : reach s c) by (eapply on_stack; eauto). assert (RE : reach s ext) by (eapply on_stack; eauto).
  assert (SEQ : forall l0 x, (cdata cc = DVec l0 \/ cdata cc = DList l0 \/ exists q, cdata cc = DQueue l0 q) -> nth_error l0 (N.to_nat i) = Some x ->
    Tr pre (eq x) evs s /\ (forall m, all m = all s -> item_of c m i x s) /\ data_at s ext = data_at s ext).
  { intros l0 x D N. split; [|split; [|reflexivity]].
    - eapply tr_weaken; [exact H|]. intros y <-. eapply (at_dref true); [exact (tr_at _ _ _ _ _ _ _ H)|exact L|]. assert (J : In x l0) by (eapply nth_error_In; eauto). destruct D as [-> |[-> |(q & ->)]]; exact J.
    - intros m _. eapply item_seq; [exact DC|exact D|exact N]. }
  destruct (cdata cc) eqn:ED; try apply wp_unmodelled.
  - apply wp_bind, wp_lift; [discriminate|]. intros ch CH. eapply tr_alloc; [exact H|easy|]. intros x sq H1 _ (ad & L1) KP NX. split; [exact H1|]. split.
    + intros m EM. eapply item_char; [unfold data_at; rewrite KP, L by exact RC; cbn; now rewrite ED|intros LT; exact (str_get_at _ _ _ CH LT)|first [exact (fresh_in _ _ _ _ _ _ H EM NX)|exact (fresh_in _ _ _ _ _ _ H EM' NX)]|unfold data_at; now rewrite L1].
    + unfold data_at. now rewrite KP.
  - apply wp_need. intros x N. eapply SEQ; eauto.
  - destruct (map_get_at_index m (Z.of_N i)) as [e|] eqn:EM; [|apply wp_undef]. apply wp_bind, wp_lift; [discriminate|]. intros v SV.
    assert (EVS : evals e = [v]) by (unfold single in SV; destruct (evals e) as [|? [|? ?]]; try discriminate; now injection SV as ->).
    pose proof (at_index_nth _ _ _ EM) as NT. pose proof (get_at_index_in _ _ _ EM) as IM. pose proof (single_in _ _ SV) as IV.
    eapply tr_alloc; [exact H| |].
    { intros y J. assert (DY : dref (cdata cc) y) by (rewrite ED; cbn; exists e; split; [exact IM|]; destruct J as [<-|[<-|[]]]; auto).
      split; [eapply (at_dref true); [exact (tr_at _ _ _ _ _ _ _ H)|exact L|exact DY]|]. exact (reach_child _ _ _ _ RC L DY). }
    intros x sq H1 _ (ad & L1) KP NX. split; [exact H1|]. split.
    + intros m' EM'. eapply item_pair; [unfold data_at; rewrite KP, L by exact RC; cbn; now rewrite ED|exact NT|exact EVS|first [exact (fresh_in _ _ _ _ _ _ H EM NX)|exact (fresh_in _ _ _ _ _ _ H EM' NX)]|unfold data_at; now rewrite L1].
    + unfold data_at. now rewrite KP.
  - apply wp_need. intros x N. eapply SEQ; eauto.
  - destruct (nth_error l0 (N.to_nat i)) eqn:N; [|apply wp_abort]. apply wp_ret. eapply SEQ; eauto.
Qed.
Lemma from_item_spec fuel from up pre ext : In from pre -> ~ In from P -> In ext pre -> item_ok pre ext (from_item fuel from (if up : bool then 1 else -1)%Z) (count_item from up).
Proof.
  intros IF NF IE i G evs s H. unfold from_item. pose proof (tr_inv _ _ _ _ _ _ _ H) as A.
  assert (RF : reach s from) by (eapply on_stack; eauto). assert (RE : reach s ext) by (eapply on_stack; eauto).
  assert (IS : In from (stack s)) by (rewrite (a_stack _ _ _ _ _ _ _ (tr_at _ _ _ _ _ _ _ H)); apply in_or_app; auto).
  apply wp_bind. apply (wp_mono true _ (fun x s1 => (At true P s [] (eq x) s1 /\ nextId s <= x) /\ forall z, data_at s from = Some (DInt z) -> data_at s1 x = Some (DInt z))).
  { apply wp_and.
    - eapply (r_copy true true P s); [apply (at_start true true); exact A|right; exact RF|]. auto.
    - destruct (data_at s from) as [d|] eqn:DF.
      + destruct (is_atom_data d) eqn:EA.
        * assert (EC : copy fuel from s = copy_atom fuel from s). { unfold copy_atom, bind, get, get_cell, bind. unfold data_at in DF. destruct (lookup (all s) from); [|discriminate]. injection DF as DF. cbn. rewrite DF, EA. reflexivity. }
          unfold SafeBase.wp. rewrite EC. apply (wp_mono true _ _ _ s (copy_atom_data fuel P s from A ltac:(eapply tr_pre; eauto) IS)).
          intros x s1 (_ & [d' F1 F2 F3 F4|d' F1 F2 F3 F4]); intros z [= ->]; rewrite DF in F1; injection F1 as <-; [exact F4|]. exfalso. apply F2. exact I.
        * eapply wp_mono; [eapply (r_copy true true P s fuel from [] (fun _ => False) (fun _ _ => True)); [apply (at_start true true); exact A|right; exact RF|auto]|]. intros x s1 _ z [= ->]. discriminate.
      + eapply wp_mono; [eapply (r_copy true true P s fuel from [] (fun _ => False) (fun _ _ => True)); [apply (at_start true true); exact A|right; exact RF|auto]|]. intros x s1 _ z [=]. }
  intros x s1 ((A1 & NX) & DZ). assert (NP : ~ In x P) by apply (a_good _ _ _ _ _ _ _ A1 x eq_refl).
  apply wp_bind. unfold int_of. apply wp_bind, t_get. intros d D1. destruct d; try apply wp_undef. apply wp_ret. apply wp_bind.
  eapply (r_put true true P s x); [exact A1|has|split; [exact NP|auto]|easy|discriminate|discriminate|]. intros s2 A2 (c2 & L2 & E2) O2. apply wp_ret.
  split; [exact (t_quiet ev P s0 _ _ _ _ [] _ _ H A2)|]. split.
  - intros m EM. split; [eapply fresh_in; eauto|]. intros z1 Z1. rewrite (data_same s m) in Z1 by exact EM. rewrite (DZ _ Z1) in D1. injection D1 as <-.
    unfold data_at. rewrite L2. cbn. rewrite E2. f_equal. f_equal. f_equal. destruct up; lia.
  - unfold data_at. rewrite O2; [|intros ->]. 2:{ assert (LT : x < nextId s) by (eapply (stack_lt P s [] (fun _ => False) s); [apply (at_start true true); exact A|]; rewrite (a_stack _ _ _ _ _ _ _ (tr_at _ _ _ _ _ _ _ H)); apply in_or_app; auto). lia. }
    now rewrite (a_same _ _ _ _ _ _ _ A1) by auto.
Qed.
(** The step. *)
Lemma for_step_spec i pre G evs s : Tr pre G evs s ->
  wp (for_step a i (List.length l)) (fun o s' => match o with
    | StepOk st j => s' = s /\ step_is s (skipn i l) st (skipn j l) /\ (j <= List.length l)%nat
    | StepBad None => s' = s /\ step_bad s (skipn i l)
    | StepBad (Some r) => Tr pre (eq r) evs s' /\ (exists d, data_at s' r = Some d /\ is_err d) /\ step_bad s (skipn i l)
    end) s.
Proof.
  intros H. unfold for_step. apply wp_bind. eapply (t_arg ev P a s0 c0 l IN L0 E0); [exact H|]. intros x NX _.
  assert (LX : (i < List.length l)%nat) by (apply nth_error_Some; congruence). rewrite (skipn_two x l i NX).
  apply wp_bind, t_sym_is. intros b B. destruct b.
  2:{ apply wp_ret. split; [reflexivity|]. rewrite (skipn_two x l i NX). split; [|lia]. apply step_one. intros F. apply B in F. discriminate. }
  assert (SX : is_symbol s x "step") by (now apply B). clear B. destruct (Nat.ltb_spec (List.length l) (i + 2)) as [LT|GE2].
  { apply wp_ret. split; [reflexivity|]. rewrite skipn_all2 by lia. now apply step_missing. }
  apply wp_bind. eapply (t_arg ev P a s0 c0 l IN L0 E0); [exact H|]. intros y NY _. rewrite (skipn_two y l (S i) NY).
  apply wp_bind, t_get. intros d DY.
  assert (BAD : (forall z, d = DInt z -> (z <= 0)%Z) -> wp (r <- new_error ;; ret (StepBad (Some r))) (fun o s' => match o with
    | StepOk st j => s' = s /\ step_is s (x :: y :: skipn (S (S i)) l) st (skipn j l) /\ (j <= List.length l)%nat
    | StepBad None => s' = s /\ step_bad s (x :: y :: skipn (S (S i)) l)
    | StepBad (Some r) => Tr pre (eq r) evs s' /\ (exists d, data_at s' r = Some d /\ is_err d) /\ step_bad s (x :: y :: skipn (S (S i)) l)
    end) s).
  { intros F. apply wp_bind. eapply tr_error; [exact H|]. intros r s1 d' H1 D1 ED. apply wp_ret. split; [exact H1|]. split; [eauto|]. apply step_wrong; [exact SX|]. rewrite DY. intros z [= E]. now apply F. }
  destruct d; try (apply BAD; discriminate). destruct (Z.leb_spec z 0) as [LE|GT].
  - apply BAD. intros z' [= <-]. exact LE.
  - apply wp_ret. split; [reflexivity|]. rewrite (skipn_two y l (S i) NY). split; [|lia]. now apply step_given.
Qed.
Lemma step_fail_spec used r evs (R : list event -> ref -> option data -> Prop) s : (match r with None => exists G, Tr used G evs s | Some r => Tr used (eq r) evs s /\ exists d, data_at s r = Some d /\ is_err d end) ->
  (forall r d, is_err d -> R [] r (Some d)) -> wp (step_fail r used) (ends ev P s0 evs R) s.
Proof.
  intros H K. unfold step_fail. apply wp_bind. destruct r as [r|].
  - destruct H as (H & d & D & ED). eapply (tr_pops ev P s0 used []); [rewrite app_nil_r; exact H|]. intros s1 H1 E1. apply wp_ret. eapply ends_now; [eapply tr_eq; [exact H1|now right]|apply K; exact ED|]. apply result_refl. now rewrite (data_same s).
  - destruct H as (G & H). eapply (tr_pops ev P s0 used []); [rewrite app_nil_r; exact H|]. intros s1 H1 E1. eapply t_error; [exact H1|reflexivity|exact K].
Qed.
Lemma pops_error used G evs (R : list event -> ref -> option data -> Prop) s : Tr used G evs s -> (forall r d, is_err d -> R [] r (Some d)) ->
  wp (r <- new_error ;; pops used ;;; ret r) (ends ev P s0 evs R) s.
Proof.
  intros H K. apply wp_bind. eapply tr_error; [exact H|]. intros r s1 d H1 D1 ED. apply wp_bind. eapply (tr_pops ev P s0 used []); [rewrite app_nil_r; exact H1|]. intros s2 H2 E2. apply wp_ret.
  eapply ends_now; [eapply tr_eq; [exact H2|now right]|apply K; exact ED|]. apply result_refl. now rewrite (data_same s1).
Qed.
(** A new environment. *)
Lemma t_new_env (K : ref -> M ref) (Q : ref -> vm -> Prop) pre G evs s : Tr pre G evs s ->
  (forall ext s1, Tr (ext :: pre) (eq ext) evs s1 -> ~ In ext P -> new_env s ext env s1 -> (forall x, In x pre -> lookup (all s1) x = lookup (all s) x) -> wp (K ext) Q s1) ->
  wp (ext <- alloc (DEnv [] (Some env)) ;; push ext ;;; K ext) Q s.
Proof.
  intros H W. apply wp_bind. assert (GE' : good P s env) by (eapply tr_env; [exact GE|exact H]).
  eapply tr_alloc; [exact H| |].
  { intros x J. destruct J as [(t & k' & v & [] & _)|[= <-]]. split; [apply GE'|]. apply re_root. rewrite (a_stack _ _ _ _ _ _ _ (tr_at _ _ _ _ _ _ _ H)). apply in_or_app. auto. }
  intros ext s1 H1 NE (ad & L) KP NX. apply wp_bind. eapply t_push; [exact H1|reflexivity|]. intros s2 H2 E2. apply (W ext s2); auto.
  - split; [exact (fresh_in _ _ _ _ _ _ H eq_refl NX)|]. unfold data_at. replace (lookup (all s2) ext) with (lookup (all s1) ext) by (now rewrite E2). rewrite L. reflexivity.
  - intros x I. rewrite E2. apply KP. eapply on_stack; eauto.
Qed.
Lemma step_bad_same s s' rest : all s' = all s -> step_bad s rest -> step_bad s' rest.
Proof.
  intros E H. destruct H as [y Y|y z l2 Y F]; [apply step_missing|apply step_wrong]; unfold is_symbol, data_at in *; rewrite E; auto.
Qed.
Lemma step_is_same s s' rest st body : all s' = all s -> step_is s rest st body -> step_is s' rest st body.
Proof.
  intros E H. destruct H as [y l2 Y|y z l2 z0 Y F LZ]; [apply step_one|apply step_given]; unfold is_symbol, data_at in *; rewrite ?E; auto.
Qed.
Lemma for_in_spec fuel k t w x l' G s : l = k :: w :: x :: l' -> data_at s0 k = Some (DSym t) -> is_symbol s0 w "in" -> Tr [a] G [] s ->
  wp (for_in fuel ev a env k (List.length l)) (ends ev P s0 [] (for_run env s0 l)) s.
Proof.
  intros EL DK SW H. unfold for_in. eapply (t_evarg ev EV P a s0 c0 l IN L0 E0); [exact H|eapply tr_env; [exact GE|exact H]|]. clear H. intros x' c s1 NX H. assert (x' = x) as -> by (rewrite EL in NX; now injection NX). clear NX.
  assert (NC : ~ In c P) by apply (tr_good _ _ _ _ _ _ _ c H eq_refl). cbn [app] in H.
  apply wp_bind. eapply t_push; [exact H|reflexivity|]. clear H. intros s2 H E2. apply wp_bind, wp_get_cell; [discriminate|]. intros cc L.
  assert (GV : gives (SpecTrace.Eval x env s (Some c) s1) x env c (cdata cc)) by (apply gives_eval; unfold data_at; rewrite <- E2, L; reflexivity).
  set (e := SpecTrace.Eval x env s (Some c) s1) in *. apply (wp_ends ev P s0 [] [e]). cbn [app].
  assert (RUN : forall evs r od, loop_in env k c (cdata cc) s2 l' evs r od -> for_run env s0 l (e :: evs) r od).
  { intros evs r od Q. eapply for_in_form; [exact EL|exact DK|exact SW|exact GV|]. cbn [after e].
    destruct Q as [r d' N1 N2 ED|r n d' S1 S2 ED|n step body ext m evs r od S1 S2 NE RR].
    - now apply in_not_collection.
    - eapply in_bad_step; [exact S1| |exact ED]. exact (step_bad_same s2 s1 l' (eq_sym E2) S2).
    - eapply in_rounds; [exact S1| | |exact RR].
      + exact (step_is_same s2 s1 l' _ _ (eq_sym E2) S2).
      + destruct NE as (N1 & N2). split; [|exact N2]. unfold new_in in *. now rewrite <- E2. }
  assert (SK : skipn 3 l = l') by (rewrite EL; reflexivity).
  assert (MAIN : forall n, size_of (cdata cc) n -> wp (o <- for_step a 3 (List.length l) ;;
      match o with
      | StepBad r => step_fail r [c; a]
      | StepOk step j =>
          ext <- alloc (DEnv [] (Some env)) ;; push ext ;;;
          cc <- get_cell c ;;
          o <- for_loop fuel ev a ext k (for_item fuel c (caddr cc)) 0 n step j (List.length l - j) 0 ;;
          for_result o [ext; c; a]
      end) (ends ev P s0 [e] (fun evs => for_run env s0 l (e :: evs))) s2).
  { intros n SZ. apply wp_bind. eapply wp_mono; [eapply (for_step_spec 3); exact H|]. intros o s3 Q. rewrite SK in Q. destruct o as [r|step j].
    - apply step_fail_spec.
      + destruct r as [r|]; [destruct Q as (Q1 & Q2 & _); auto|]. destruct Q as (-> & _). eauto.
      + assert (SB : step_bad s2 l') by (destruct r; [apply Q|apply Q]). intros r' d ED. apply RUN. eapply in_bad_step; eauto.
    - destruct Q as (-> & ST & LJ). eapply t_new_env; [exact H|]. intros ext s3 H3 NE NEW KP. apply wp_bind, wp_get_cell; [discriminate|]. intros cc3 L3. apply wp_bind.
      eapply wp_mono; [eapply (for_loop_spec ext k _ (item_of c) [ext; c; a]); [now left|exact NE|rewrite EL; now left| |apply for_item_spec; [right; now left|exact NC|now left]|exact H3|reflexivity]|].
      + lia.
      + intros o s4 Q. apply for_result_spec. destruct Q as (evs & Q). exists evs. destruct o as [r|z].
        * destruct Q as (od & Q1 & Q2 & Q3). exists od. split; [exact Q1|]. split; [|exact Q3]. apply RUN. eapply in_rounds; eauto.
        * destruct Q as (Q1 & Q2). split; [exact Q1|]. intros r. apply RUN. eapply in_rounds; eauto. }
  assert (BAD : (forall n, ~ size_of (cdata cc) n) -> ~ is_environment (cdata cc) -> wp (r <- new_error ;; pops [c; a] ;;; ret r) (ends ev P s0 [e] (fun evs => for_run env s0 l (e :: evs))) s2).
  { intros N1 N2. eapply pops_error; [exact H|]. intros r d ED. apply RUN. now apply in_not_collection. }
  unfold for_length. destruct (cdata cc) eqn:ED; try apply wp_unmodelled; try (apply MAIN; constructor); try (apply BAD; [intros n F; inversion F|intros F; exact F]).
Qed.
Lemma less_eq_ints fuel h p q z z' cp cq b : lookup h p = Some cp -> lookup h q = Some cq -> cdata cp = DInt z -> cdata cq = DInt z' -> vless_eq fuel h p q = Ret b -> b = (z <=? z')%Z.
Proof.
  intros L1 L2 D1 D2 H. unfold vless_eq in H. destruct fuel as [|f]; [discriminate|]. cbn [vcompare] in H. destruct (N.eqb_spec p q) as [->|NE].
  - assert (z = z') by congruence. subst z'. cbn in H. injection H as <-. symmetry. apply Z.leb_le. lia.
  - rewrite L1, L2, D1, D2 in H. unfold int32_op in H. destruct (in_int32 (z - z')); [|discriminate]. cbn in H. injection H as <-. destruct (Z.leb_spec z z'), (Z.leb_spec (z - z') 0); lia.
Qed.
Lemma for_from_spec fuel k t w x y1 l' G s : l = k :: w :: x :: y1 :: l' -> data_at s0 k = Some (DSym t) -> is_symbol s0 w "from" -> Tr [a] G [] s ->
  wp (for_from fuel ev a env k (List.length l)) (ends ev P s0 [] (for_run env s0 l)) s.
Proof.
  intros EL DK SW H. unfold for_from. eapply (t_evarg ev EV P a s0 c0 l IN L0 E0); [exact H|eapply tr_env; [exact GE|exact H]|]. clear H. intros x' p s1 NX H. assert (x' = x) as -> by (rewrite EL in NX; now injection NX). clear NX.
  assert (NP : ~ In p P) by apply (tr_good _ _ _ _ _ _ _ p H eq_refl). cbn [app] in H.
  apply wp_bind. eapply t_push; [exact H|reflexivity|]. clear H. intros s2 H E2. apply wp_bind, t_get. intros d D2.
  assert (GV : gives (SpecTrace.Eval x env s (Some p) s1) x env p d) by (apply gives_eval; rewrite <- (data_same s1 s2) by exact E2; exact D2).
  set (e := SpecTrace.Eval x env s (Some p) s1) in *. apply (wp_ends ev P s0 [] [e]). cbn [app].
  assert (BAD : ~ is_int d -> wp (r <- new_error ;; pops [p; a] ;;; ret r) (ends ev P s0 [e] (fun evs => for_run env s0 l (e :: evs))) s2).
  { intros NI. eapply pops_error; [exact H|]. intros r d' ED. eapply for_from_first; eauto. }
  destruct d; try (apply BAD; intros F; exact F). clear BAD.
  eapply (t_evarg ev EV P a s0 c0 l IN L0 E0); [exact H|eapply tr_env; [exact GE|exact H]|]. clear H. intros y q s3 NY H.
  assert (SPL : exists l2, l' = y :: l2) by (rewrite EL in NY; destruct l' as [|y' l2]; [discriminate|]; injection NY as ->; eauto). destruct SPL as (l2 & ->). clear NY.
  assert (NQ : ~ In q P) by apply (tr_good _ _ _ _ _ _ _ q H eq_refl).
  apply wp_bind. eapply t_push; [exact H|reflexivity|]. clear H. intros s4 H E4. apply wp_bind, t_get. intros d D4. apply wp_bind, t_get. intros dq DQ.
  assert (GV2 : gives (SpecTrace.Eval y env s2 (Some q) s3) y env q dq) by (apply gives_eval; rewrite <- (data_same s3 s4) by exact E4; exact DQ).
  set (e' := SpecTrace.Eval y env s2 (Some q) s3) in *. apply (wp_ends ev P s0 [e] [e']). cbn [app] in *.
  assert (RUN : forall evs r od, loop_from env k p q s4 l2 evs r od -> for_run env s0 l (e :: e' :: evs) r od).
  { intros evs r od Q. eapply for_from_form; [exact EL|exact DK|exact SW|exact GV|exact GV2|]. cbn [after e'].
    destruct Q as [r d1 d' dq' X1 X2 X3 ED|r d' S2 ED|z1 z' step body ext m evs r od X1 X2 S2 NE X3 RR].
    - eapply from_not_int; rewrite <- ?(data_same s3 s4) by exact E4; eauto.
    - eapply from_bad_step; [|exact ED]. exact (step_bad_same s4 s3 l2 (eq_sym E4) S2).
    - eapply from_rounds; [rewrite <- (data_same s3 s4) by exact E4; exact X1|rewrite <- (data_same s3 s4) by exact E4; exact X2| | |exact X3|exact RR].
      + exact (step_is_same s4 s3 l2 _ _ (eq_sym E4) S2).
      + destruct NE as (N1 & N2). split; [|exact N2]. unfold new_in in *. now rewrite <- E4. }
  assert (SK : skipn 5 l = l2) by (rewrite EL; reflexivity).
  destruct (Z.eqb_spec (tag d) (tag dq)) as [ET|NT]; cbn [negb].
  2:{ eapply pops_error; [exact H|]. intros r d' ED. apply RUN. eapply from_not_int; eauto. }
  apply wp_bind. eapply wp_mono; [eapply (for_step_spec 5); exact H|]. intros o s5 Q. rewrite SK in Q. destruct o as [r|step j].
  - apply step_fail_spec.
    + destruct r as [r|]; [destruct Q as (Q1 & Q2 & _); auto|]. destruct Q as (-> & _). eauto.
    + assert (SB : step_bad s4 l2) by (destruct r; [apply Q|apply Q]). intros r' d' ED. apply RUN. now apply from_bad_step.
  - destruct Q as (-> & ST & LJ). eapply t_new_env; [exact H|]. intros ext s5 H5 NE NEW KP.
    assert (DP5 : data_at s5 p = Some d) by (unfold data_at in *; rewrite KP by (right; now left); exact D4).
    assert (DQ5 : data_at s5 q = Some dq) by (unfold data_at in *; rewrite KP by (now left); exact DQ).
    apply wp_bind, wp_heap; [discriminate|]. intros up UP. apply wp_bind. unfold int_of at 1. apply wp_bind, t_get. intros dp' DP'. rewrite DP5 in DP'. injection DP' as <-.
    assert (ID : (exists zp, d = DInt zp) \/ ~ is_int d) by (destruct d; cbn; eauto). destruct ID as [(zp & ->)|ID]; [|destruct d; try apply wp_undef; elim ID; exact I]. apply wp_ret.
    apply wp_bind. unfold int_of at 1. apply wp_bind, t_get. intros dq' DQ'. rewrite DQ5 in DQ'. injection DQ' as <-.
    assert (IQ : (exists zq, dq = DInt zq) \/ ~ is_int dq) by (destruct dq; cbn; eauto). destruct IQ as [(zq & ->)|IQ]; [|destruct dq; try apply wp_undef; elim IQ; exact I]. apply wp_ret.
    apply wp_bind, wp_lift; [discriminate|]. intros m EM.
    assert (EUP : up = (zp <=? zq)%Z).
    { unfold data_at in DP5, DQ5. destruct (lookup (all s5) p) as [cp|] eqn:LP; [|discriminate]. destruct (lookup (all s5) q) as [cq|] eqn:LQ; [|discriminate]. injection DP5 as DP5. injection DQ5 as DQ5. exact (less_eq_ints _ _ _ _ _ _ _ _ _ LP LQ DP5 DQ5 UP). }
    assert (EN : (Z.to_N m + 1 = Z.abs_N (zq - zp) + 1)%N).
    { unfold int32_op in EM. destruct (in_int32 _); [|discriminate]. injection EM as <-. rewrite EUP. destruct (Z.leb_spec zp zq); lia. }
    rewrite EN. apply wp_bind.
    eapply wp_mono; [eapply (for_loop_spec ext k _ (count_item p up) [ext; q; p; a]); [now left|exact NE|rewrite EL; now left| |apply (from_item_spec fuel p up); [right; right; now left|exact NP|now left]|exact H5|reflexivity]|].
    + lia.
    + intros o s6 Q. apply for_result_spec. subst up. destruct Q as (evs & Q). exists evs. destruct o as [r|z0].
      * destruct Q as (od & Q1 & Q2 & Q3). exists od. split; [exact Q1|]. split; [|exact Q3]. apply RUN. eapply from_rounds; eauto.
      * destruct Q as (Q1 & Q2). split; [exact Q1|]. intros r. apply RUN. eapply from_rounds; eauto.
Qed.
Lemma for_spec fuel : wp (s_for fuel ev a env) (ends ev P s0 [] (for_run env s0 l)) s0.
Proof.
  unfold s_for. pose proof (tr_start ev P s0 A0) as H. apply wp_bind. eapply t_push_a; [exact IN|exact H|]. clear H. intros s1 H E1.
  apply wp_bind. eapply (t_nargs ev P a s0 c0 l IN L0 E0); [exact H|]. destruct (Nat.ltb_spec (List.length l) 4) as [LT|GE4].
  { eapply t_fin_error; [exact H|]. intros r d ED. now apply for_arity. }
  assert (SPLIT : exists k w x y1 l', l = k :: w :: x :: y1 :: l') by (destruct l as [|k [|w [|x [|y1 l']]]]; cbn in GE4; try lia; eauto 6).
  destruct SPLIT as (k & w & x & y1 & l' & EL).
  apply wp_bind. eapply (t_arg ev P a s0 c0 l IN L0 E0); [exact H|]. intros k0 N0 _. assert (k0 = k) as -> by (rewrite EL in N0; now injection N0). clear N0.
  apply wp_bind, t_get. intros dk DK.
  assert (GW : forall X (K : ref -> data -> M X) Q, (forall d, data_at s1 w = Some d -> wp (K w d) Q s1) -> wp (m <- arg a 1 ;; d <- get m ;; K m d) Q s1).
  { intros X K Q W. apply wp_bind. eapply (t_arg ev P a s0 c0 l IN L0 E0); [exact H|]. intros w0 N0 _. assert (w0 = w) as -> by (rewrite EL in N0; now injection N0). apply wp_bind, t_get. auto. }
  assert (DK0 : data_at s0 k = Some dk) by (rewrite <- (data_same s0 s1) by exact E1; exact DK).
  assert (KD : (exists t, dk = DSym t) \/ ~ is_sym dk) by (destruct dk; cbn; eauto). destruct KD as [(t & ->)|NS].
  2:{ assert (B : wp (pop a ;;; new_error) (ends ev P s0 [] (for_run env s0 l)) s1).
      { eapply t_fin_error; [exact H|]. intros r d ED. eapply for_iterator; eauto. }
      destruct dk; try exact B. elim NS. exact I. }
  apply wp_bind. eapply (t_arg ev P a s0 c0 l IN L0 E0); [exact H|]. intros w0 N0 _. assert (w0 = w) as -> by (rewrite EL in N0; now injection N0). clear N0.
  apply wp_bind, t_get. intros dw DW. assert (DW0 : data_at s0 w = Some dw) by (rewrite <- (data_same s0 s1) by exact E1; exact DW).
  assert (WD : (exists u, dw = DSym u) \/ ~ is_sym dw) by (destruct dw; cbn; eauto). destruct WD as [(u & ->)|NS].
  2:{ assert (B : wp (pop a ;;; new_error) (ends ev P s0 [] (for_run env s0 l)) s1).
      { eapply t_fin_error; [exact H|]. intros r d ED. eapply for_word; eauto. }
      destruct dw; try exact B. elim NS. exact I. }
  destruct (text_eqb u (asc "in")) eqn:T1; [apply text_eqb_true in T1; subst u|].
  { eapply for_in_spec; [exact EL|exact DK0|exact DW0|exact H]. }
  destruct (text_eqb u (asc "from")) eqn:T2; [apply text_eqb_true in T2; subst u|apply wp_undef].
  eapply for_from_spec; [exact EL|exact DK0|exact DW0|exact H].
Qed.
End Spec.
