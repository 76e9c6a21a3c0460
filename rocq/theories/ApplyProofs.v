(** eval does what SpecApply.v says. *)
From Coq Require Import NArith ZArith Bool Lia Arith List String.
From Coq Require Import ZifyBool ZifyNat ZifyN.
From Verif Require Import Base OString HMap Heap SpecHeap GcProofs VmProofs ValueOps Env Copy Builtins Specials Eval SafeBase SafeRead SafeLib SafeBuiltins SafeSpecials SafeEval SpecText SpecTrace SpecSpecial SpecForm SpecCall SpecApply TraceProofs SpecialProofs SpecialEval SpecialForms.
Import ListNotations.
Local Open Scope N_scope.
Local Open Scope list_scope.

Section Spec.
Context (ev : evaluator) (EV : ev_ok true ev) (P : list ref) (a env : ref) (s0 : vm) (c0 : cell) (l : list ref).
Context (IN : In a P) (L0 : lookup (all s0) a = Some c0) (E0 : cdata c0 = DVec l) (GE : good P s0 env) (A0 : Inv P s0).
Notation Tr := (Tr ev P s0).
Notation ends := (ends ev P s0).
Lemma twice_spec x e pre G evs s : Tr pre G evs s -> good P s x -> (forall pre' G evs s, incl pre pre' -> Tr pre' G evs s -> good P s e) ->
  wp (eval_twice ev x e) (fun r s' => exists evs' od, Tr pre (eq r) (evs ++ evs') s' /\ twice_run e x evs' r od /\ result_is s' r od) s.
Proof.
  intros H GX GE1. unfold eval_twice. apply wp_bind. eapply t_ev; [exact EV|exact H|exact GX|eapply GE1; [apply incl_refl|exact H]|]. clear H GX. intros o s1 H. apply wp_bind, wp_need. intros t ->.
  apply wp_bind. eapply t_push; [exact H|reflexivity|]. clear H. intros s2 H E2. apply wp_bind. eapply t_ev; [exact EV|exact H|eapply tr_good; [exact H|reflexivity]|eapply GE1; [|exact H]; intros j J; now right|].
  clear H. intros o s3 H. apply wp_bind, wp_need. intros r ->. apply wp_bind. eapply tr_pop; [exact H|]. clear H. intros s4 H E4. apply wp_ret. rewrite <- app_assoc in H.
  eexists _, _. split; [eapply tr_eq; [exact H|now right]|]. split; [eapply twice; apply yields_eval|]. now apply result_then.
Qed.

Section Splice.
Context (sx : vm) (AX : Inv P sx) (LX : lookup (all sx) a = Some c0) (GX : good P sx env) (v : ref).
Notation OT := (OT ev P sx v).
Lemma ot_a l0 G evs s : OT l0 G evs s -> lookup (all s) a = Some c0.
Proof. intros O. rewrite (a_same _ _ _ _ _ _ _ (o_at _ _ _ _ _ _ (ot_own _ _ _ _ _ _ _ _ O))); [exact LX|now left]. Qed.
Lemma ot_el l0 G evs s x : OT l0 G evs s -> In x l -> good (v :: P) s x.
Proof. intros O J. eapply (good_dref true); [apply (ot_own _ _ _ _ _ _ _ _ O)|eapply ot_a; exact O|now rewrite E0]. Qed.
Lemma ot_envx l0 G evs s : OT l0 G evs s -> good (v :: P) s env.
Proof.
  intros O. pose proof (ot_own _ _ _ _ _ _ _ _ O) as OW. destruct GX as (B1 & B2 & B3). split; [|split; [|discriminate]].
  - pose proof (a_next _ _ _ _ _ _ _ (o_at _ _ _ _ _ _ OW)). lia.
  - intros [->|J]; [|auto]. pose proof (o_new _ _ _ _ _ _ OW). lia.
Qed.
Lemma push_each : forall ws l0 G evs s, OT l0 G evs s -> (forall x, In x ws -> G x) -> wp (iterM (vec_push v) ws) (fun _ s' => OT (l0 ++ ws) G evs s') s.
Proof.
  induction ws as [|w ws IH]; intros l0 G evs s O K; cbn [iterM]; [apply wp_ret; now rewrite app_nil_r|].
  apply wp_bind. eapply wp_mono; [eapply ot_push; [exact AX|exact O|apply (o_good _ _ _ _ _ _ (ot_own _ _ _ _ _ _ _ _ O)), K; now left]|].
  intros u s1 (O1 & _). eapply wp_mono; [eapply IH; [exact O1|intros x J; apply K; now right]|]. intros u' s2 O2. now rewrite <- app_assoc in O2.
Qed.
Lemma splice_spec : forall k i l0 G evs s, (i + k = List.length l)%nat -> OT l0 G evs s ->
  wp (apply_args k ev a env v i) (fun _ s' => exists evs' vs, splice_run env (skipn i l) evs' vs /\ OT (l0 ++ vs) (fun _ => False) (evs ++ evs') s') s.
Proof.
  induction k as [|k IH]; intros i l0 G evs s EL O; cbn [apply_args].
  - apply wp_ret. exists [], []. rewrite skipn_all2 by lia. rewrite !app_nil_r. split; [constructor|]. eapply ot_weaken; [exact O|easy].
  - apply wp_bind, wp_arg; [discriminate|]. intros c l' x L E NX. rewrite (ot_a _ _ _ _ O) in L. injection L as <-. rewrite E0 in E. injection E as <-. rewrite (skipn_two _ _ _ NX).
    apply wp_bind. eapply (tr_eval ev EV (v :: P) s x env [] G []); [eapply ot_start; exact O|eapply ot_el; [exact O|eapply nth_error_In; exact NX]|eapply ot_envx; exact O|].
    intros o s1 T1. cbn [app] in T1. pose proof (ot_call1 _ _ _ _ _ _ _ _ _ _ _ O T1 ltac:(discriminate)) as O1.
    assert (REST : forall ws s2, OT (l0 ++ ws) (fun _ => False) (evs ++ [SpecTrace.Eval x env s o s1]) s2 -> (forall evs' vs, splice_run env (skipn (S i) l) evs' vs -> splice_run env (x :: skipn (S i) l) (SpecTrace.Eval x env s o s1 :: evs') (ws ++ vs)) ->
       wp (apply_args k ev a env v (S i)) (fun _ s' => exists evs' vs, splice_run env (x :: skipn (S i) l) evs' vs /\ OT (l0 ++ vs) (fun _ => False) (evs ++ evs') s') s2).
    { intros ws s2 O2 K. eapply wp_mono; [eapply IH; [lia|exact O2]|]. intros u s3 (evs' & vs & R & O3). rewrite <- !app_assoc in O3. eexists _, _. split; [apply K; exact R|exact O3]. }
    apply wp_bind. destruct o as [r|].
    + assert (GR : good (v :: P) s1 r) by (apply (o_good _ _ _ _ _ _ (ot_own _ _ _ _ _ _ _ _ O1)); reflexivity).
      apply wp_bind, t_get. intros d DR.
      assert (PLAIN : (forall ws, d <> DVec ws) -> wp (vec_push v r) (fun _ s2 => wp (apply_args k ev a env v (S i)) (fun _ s' => exists evs' vs, splice_run env (x :: skipn (S i) l) evs' vs /\ OT (l0 ++ vs) (fun _ => False) (evs ++ evs') s') s2) s1).
      { intros N. eapply wp_mono; [eapply ot_push; [exact AX|exact O1|exact GR]|]. intros u s2 (O2 & _). apply (REST [r]); [eapply ot_weaken; [exact O2|easy]|].
        intros evs' vs R. cbn [app]. eapply sp_value; [apply gives_eval; exact DR|exact N|exact R]. }
      destruct d as [ | | | | | | | |ws| | | | | | | | |]; try (apply PLAIN; discriminate). clear PLAIN. destruct (r =? v); [apply wp_unmodelled|].
      assert (O2 : OT l0 (fun y => In y ws) (evs ++ [SpecTrace.Eval x env s (Some r) s1]) s1).
      { eapply ot_weaken; [exact O1|]. intros y J. unfold data_at in DR. destruct (lookup (all s1) r) as [cr|] eqn:LR; [|discriminate]. cbn in DR. injection DR as DR. eapply (good_dref true); [apply (ot_own _ _ _ _ _ _ _ _ O1)|exact LR|now rewrite DR]. }
      eapply wp_mono; [eapply push_each; [exact O2|auto]|]. intros u s2 O3. apply (REST ws); [eapply ot_weaken; [exact O3|easy]|]. intros evs' vs R. eapply sp_vector; [apply gives_eval; exact DR|exact R].
    + apply wp_ret. apply (REST []); [rewrite app_nil_r; eapply ot_weaken; [exact O1|easy]|]. intros evs' vs R. now apply sp_none.
Qed.
End Splice.
Lemma callable_iff d : is_callable d = true <-> callable d.
Proof. destruct d; cbn; split; auto; discriminate. Qed.
Lemma apply_spec x y z l' : l = x :: y :: z :: l' -> wp (s_apply ev a env (List.length l)) (ends [] (eval_run env s0 l)) s0.
Proof.
  intros EL. unfold s_apply. pose proof (tr_start ev P s0 A0) as H.
  eapply (t_evarg ev EV P a s0 c0 l IN L0 E0); [exact H|exact GE|]. clear H. intros x' f s1 NX H. cbn [app] in H. assert (x' = x) by (rewrite EL in NX; now injection NX). subst x'.
  set (e1 := SpecTrace.Eval x env s0 (Some f) s1) in *.
  assert (GF : good P s1 f) by (eapply tr_good; [exact H|reflexivity]).
  apply wp_bind. eapply t_push; [exact H|reflexivity|]. clear H. intros s2 H E2. apply wp_bind, t_get. intros d DF. assert (G1 : gives e1 x env f d) by (apply gives_eval; now rewrite <- (data_same _ _ _ E2)).
  destruct (is_callable d) eqn:EC; cbn [negb].
  2:{ apply wp_bind. eapply tr_pop; [exact H|]. intros s3 H3 E3. apply (wp_ends ev P s0 [] [e1]). eapply t_error; [exact H3|reflexivity|]. intros r d' ED. cbn [app]. rewrite EL. eapply ev_not_callable; [exact G1| |exact ED]. intros F. apply callable_iff in F. congruence. }
  apply callable_iff in EC.
  eapply (t_evarg ev EV P a s0 c0 l IN L0 E0); [exact H|eapply (tr_env ev P env s0 GE); exact H|]. clear H. intros y' e s3 NY H. cbn [app] in H. assert (y' = y) by (rewrite EL in NY; now injection NY). subst y'.
  set (e2 := SpecTrace.Eval y env s2 (Some e) s3) in *.
  assert (GEE : good P s3 e) by (eapply tr_good; [exact H|reflexivity]).
  apply wp_bind. eapply t_push; [exact H|reflexivity|]. clear H. intros s4 H E4. apply wp_bind, t_get. intros de DE. assert (G2 : gives e2 y env e de) by (apply gives_eval; now rewrite <- (data_same _ _ _ E4)).
  assert (BAD : ~ is_env de -> wp (pops [e; f] ;;; new_error) (ends [] (eval_run env s0 l)) s4).
  { intros N. apply wp_bind. eapply (tr_pops ev P s0 [e; f] []); [exact H|]. intros s5 H5 E5. apply (wp_ends ev P s0 [] [e1; e2]). eapply t_error; [exact H5|reflexivity|]. intros r d' ED. cbn [app]. rewrite EL. eapply ev_not_env; eauto. }
  destruct de; try (apply BAD; intros F; exact F). clear BAD.
  pose proof (tr_inv _ _ _ _ _ _ _ H) as A4. apply (ot_bind ev P s4 A4). intros v s5 O5.
  assert (STK : stack s4 = [e; f] ++ stack s0) by exact (a_stack _ _ _ _ _ _ _ (tr_at _ _ _ _ _ _ _ H)).
  assert (GF4 : good P s4 f) by (eapply tr_pre; [exact H|right; now left|apply GF]).
  assert (GE4 : good P s4 e) by (eapply tr_pre; [exact H|now left|apply GEE]).
  assert (OLD : forall q, good P s4 q -> forall l0 G evs s, OT ev P s4 v l0 G evs s -> good (v :: P) s q).
  { intros q (B1 & B2 & _) l0 G evs s O. pose proof (ot_own _ _ _ _ _ _ _ _ O) as OW. pose proof (a_next _ _ _ _ _ _ _ (o_at _ _ _ _ _ _ OW)). pose proof (o_new _ _ _ _ _ _ OW). split; [lia|]. split; [|discriminate]. intros [->|J]; [lia|auto]. }
  assert (NVP : ~ In v P). { intros J. apply (i_priv _ _ _ A4) in J. apply (i_stack _ _ _ A4) in J. pose proof (o_new _ _ _ _ _ _ (ot_own _ _ _ _ _ _ _ _ O5)). lia. }
  apply wp_bind. eapply wp_mono; [eapply ot_push; [exact A4|exact O5|exact (OLD f GF4 _ _ _ _ O5)]|]. clear O5. intros u s6 (O6 & _). cbn [app] in O6.
  assert (LX : lookup (all s4) a = Some c0) by exact (proj1 (tr_vec ev P s0 a l c0 _ _ _ _ H IN L0 E0)).
  apply wp_bind. eapply wp_mono; [eapply (splice_spec s4 A4 LX (tr_env ev P env s0 GE _ _ _ _ H) v (List.length l - 2) 2 [f]); [rewrite EL; cbn [List.length]; lia|exact O6]|]. clear O6.
  intros u' s7 (evs' & vs & R & O7). cbn [app] in O7. assert (SK : skipn 2 l = z :: l') by (now rewrite EL). rewrite SK in R.
  destruct (ot_vec _ _ _ _ _ _ _ _ O7) as (cv & LV & EV').
  assert (T7 : Tr [v; e; f] (eq v) ([e1; e2] ++ evs') s7).
  { split.
    - eapply at_weaken; [exact (at_call_pre true _ _ _ _ _ _ _ _ _ _ (tr_at _ _ _ _ _ _ _ H) (o_at _ _ _ _ _ _ (ot_own _ _ _ _ _ _ _ _ O7)) (fun e => e))|].
      intros q <-. split; [|split; [exact NVP|discriminate]]. eapply (lookup_lt true P); [|exact LV]. eapply (inv_unpriv true (v :: P)); [apply (ot_own _ _ _ _ _ _ _ _ O7)|intros j; now right].
    - eapply trace_app; [exact (tr_tr _ _ _ _ _ _ _ H)|]. eapply trace_incl; [|exact (ot_tr _ _ _ _ _ _ _ _ O7)]. rewrite STK. intros q J. apply in_or_app. now right. }
  apply wp_bind. eapply (t_ev ev EV P s0 v e); [exact T7|eapply tr_good; [exact T7|reflexivity]|eapply tr_pre; [exact T7|right; now left|apply GEE]|]. intros o s8 H8. apply wp_bind, wp_need. intros r ->.
  apply wp_bind. eapply (tr_pops ev P s0 [v; e; f] []); [exact H8|]. intros s9 H9 E9. apply wp_ret. rewrite <- app_assoc in H9.
  eexists _, _. split; [eapply tr_eq; [exact H9|now right]|]. split; [|exact (result_then s8 s9 r E9)].
  cbn [app]. rewrite EL. eapply ev_apply; [exact G1|exact EC|exact G2|exact I|exact R|apply yields_eval|]. cbn [before]. unfold data_at. rewrite LV. cbn. now rewrite EV'.
Qed.
Definition clears (pp : M unit) (pre : list ref) : Prop :=
  forall r evs s (Q : unit -> vm -> Prop), Tr pre (eq r) evs s -> (forall s', Tr [] (eq r) evs s' -> all s' = all s -> Q tt s') -> wp pp Q s.
Lemma clears_one x : clears (pop x) [x].
Proof. intros r evs s Q H K. eapply tr_pop; [exact H|]. intros s' H' E'. apply K; [eapply tr_eq; [exact H'|now right]|exact E']. Qed.
Lemma clears_all pre : clears (pops pre) pre.
Proof. intros r evs s Q H K. eapply (tr_pops ev P s0 pre []); [rewrite app_nil_r; exact H|]. intros s' H' E'. apply K; [eapply tr_eq; [exact H'|now right]|exact E']. Qed.
Lemma twice_ends x e pp pre evs0 evs1 G s (R : list event -> ref -> option data -> Prop) : clears pp pre -> Tr pre G (evs0 ++ evs1) s -> good P s x -> (forall pre' G evs s, incl pre pre' -> Tr pre' G evs s -> good P s e) ->
  (forall evs r od, twice_run e x evs r od -> R (evs1 ++ evs) r od) -> wp (r <- eval_twice ev x e ;; pp ;;; ret r) (ends evs0 R) s.
Proof.
  intros CL H GX GG K. apply wp_bind. eapply wp_mono; [eapply twice_spec; [exact H|exact GX|exact GG]|].
  intros r s1 (evs' & od & T1 & TW & RR). apply wp_bind. eapply CL; [exact T1|]. intros s2 T2 E2. apply wp_ret.
  exists (evs1 ++ evs'), od. rewrite app_assoc. split; [exact T2|]. split; [now apply K|]. eapply result_same; [exact E2|exact RR].
Qed.
Lemma eval_spec : wp (s_eval ev a env) (ends [] (eval_run env s0 l)) s0.
Proof.
  unfold s_eval. pose proof (tr_start ev P s0 A0) as H. apply wp_bind. eapply t_nargs; [exact IN|exact L0|exact E0|exact H|].
  destruct (List.length l) as [|[|[|n]]] eqn:LN.
  - assert (EL : l = []) by (destruct l; [reflexivity|discriminate]). eapply t_error; [exact H|reflexivity|]. intros r d ED. rewrite EL. now constructor.
  - apply wp_bind. eapply t_arg; [exact IN|exact L0|exact E0|exact H|]. intros x NX _. assert (EL : l = [x]) by (destruct l as [|x' [|]]; cbn in *; try lia; congruence).
    apply wp_bind. eapply t_push_a; [exact IN|exact H|]. clear H. intros s1 H E1.
    eapply (twice_ends x env (pop a) [a] [] []); [apply clears_one|exact H| | |].
    + eapply (tr_vec ev P s0 a l c0); [exact H|exact IN|exact L0|exact E0|rewrite EL; now left].
    + intros. eapply tr_env; eauto.
    + intros evs r od TW. rewrite EL. now apply ev_one.
  - apply wp_bind. eapply t_arg; [exact IN|exact L0|exact E0|exact H|]. intros x NX _.
    apply wp_bind. eapply t_push_a; [exact IN|exact H|]. clear H. intros s1 H E1.
    apply wp_bind. eapply t_arg; [exact IN|exact L0|exact E0|exact H|]. intros y NY GY1. assert (EL : l = [x; y]) by (destruct l as [|x' [|y' [|]]]; cbn in *; try lia; congruence).
    assert (GX : forall pre G evs s, Tr pre G evs s -> good P s x) by (intros pre G evs s T; eapply (tr_vec ev P s0 a l c0); [exact T|exact IN|exact L0|exact E0|rewrite EL; now left]).
    assert (GY : forall pre G evs s, Tr pre G evs s -> good P s y) by (intros pre G evs s T; eapply (tr_vec ev P s0 a l c0); [exact T|exact IN|exact L0|exact E0|rewrite EL; right; now left]).
    apply wp_bind, t_get. intros dy DY. rewrite (data_same _ _ _ E1) in DY.
    assert (VALUE : ~ is_env dy -> wp (o <- ev y env ;; e <- need o ;; d <- get e ;;
          match d with
          | DErr _ _ => pop a ;;; ret e
          | DEnv _ _ => push e ;;; r <- eval_twice ev x e ;; pops [e; a] ;;; ret r
          | _ => pop a ;;; new_error
          end) (ends [] (eval_run env s0 l)) s1).
    { intros NEV. apply wp_bind. eapply t_ev; [exact EV|exact H|eapply GY; exact H|eapply tr_env; eauto|]. clear H. intros o s2 H. cbn [app] in H. apply wp_bind, wp_need. intros e ->.
      set (e1 := SpecTrace.Eval y env s1 (Some e) s2) in *. apply wp_bind, t_get. intros d DE. assert (G1 : gives e1 y env e d) by (now apply gives_eval).
      assert (GEE : good P s2 e) by (eapply tr_good; [exact H|reflexivity]).
      assert (BAD : ~ is_env d -> ~ is_err d -> wp (pop a ;;; new_error) (ends [] (eval_run env s0 l)) s2).
      { intros N1 N2. apply (wp_ends ev P s0 [] [e1]). eapply t_fin_error; [exact H|]. intros r d' ED. cbn [app]. rewrite EL. eapply ev_in_bad; eauto. }
      destruct d; try (apply BAD; intros F; exact F); clear BAD.
      - apply (wp_ends ev P s0 [] [e1]). eapply t_fin; [exact H|reflexivity| |apply result_refl; exact DE]. cbn [app]. rewrite EL. eapply ev_in_error; eauto. exact I.
      - apply wp_bind. eapply t_push; [exact H|reflexivity|]. clear H. intros s3 H E3.
        eapply (twice_ends x e (pops [e; a]) [e; a] [] [e1]); [apply clears_all|exact H|eapply GX; exact H| |].
        + intros pre G evs s IC T. eapply tr_pre; [exact T|apply IC; now left|apply GEE].
        + intros evs r od TW. rewrite EL. cbn [app]. eapply ev_in_value; eauto. exact I. }
    destruct dy; try (apply VALUE; intros F; exact F). clear VALUE.
    eapply (twice_ends x y (pop a) [a] [] []); [apply clears_one|exact H|eapply GX; exact H| |].
    + intros pre G evs s _ T. eapply GY; exact T.
    + intros evs r od TW. rewrite EL. eapply ev_in; eauto. exact I.
  - assert (EL : exists x y z l', l = x :: y :: z :: l') by (destruct l as [|x [|y [|z l']]]; try discriminate; eauto). destruct EL as (x & y & z & l' & EL). rewrite <- LN. eapply apply_spec; exact EL.
Qed.
End Spec.

Lemma eval_forms : special_form SpEval (fun _ => eval_run).
Proof.
  apply special_form_of.
  - intros fuel env ev EV P a s0 c0 l IN L0 E0 GE IE A0. cbn [special_call]. now apply eval_spec with (c0 := c0).
  - intros _ env s s' l evs r od K _ H. pose proof (agree_data _ _ _ K) as KD. clear K. rename KD into K.
    destruct H as [r d|x evs r od|x e d evs r od D|x y dy e1 e d evs r od D|x y dy e1 e d D|x y dy e1 e d r d' D| | |].
    + now apply ev_none.
    + now apply ev_one.
    + eapply ev_in; [rewrite K; [exact D|right; now left]| |]; assumption.
    + eapply ev_in_value; [rewrite K; [exact D|right; now left]| | | |]; eassumption.
    + eapply ev_in_error; [rewrite K; [exact D|right; now left]| | |]; eassumption.
    + eapply ev_in_bad; [rewrite K; [exact D|right; now left]| | | | |]; eassumption.
    + eapply ev_not_callable; eassumption.
    + eapply ev_not_env; eassumption.
    + eapply ev_apply; eassumption.
Qed.
