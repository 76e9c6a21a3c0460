(** A call of a function from C (call_lambda) does what a call in a program does. *)
From Coq Require Import NArith ZArith Bool Lia Arith List String.
From Coq Require Import ZifyBool ZifyNat ZifyN.
From Verif Require Import Base OString HMap Heap SpecHeap GcProofs VmProofs ValueOps Env Copy Builtins Specials Eval Embed SafeBase SafeRead SafeLib SafeBuiltins SafeSpecials SafeEval SpecTrace SpecSpecial SpecForm SpecCall SpecCalled TraceProofs SpecialProofs SpecialEval CallProofs.
Import ListNotations.
Local Open Scope N_scope.
Notation wp := (SafeBase.wp true).

Lemma call_lambda_spec fuel f a s : sane s -> In f (stack s) -> In a (stack s) ->
  wp (call_lambda fuel f a) (fun r s' => exists evs od, trace (Eval.eval fuel) (stack s) s evs s' /\ called f a s evs (Some (r, od)) /\ result_is s' r od) s.
Proof.
  intros SA IF IA. pose proof (proj1 (sane_inv s) SA) as A0. set (ev := Eval.eval fuel). pose proof (eval_safe true fuel : ev_ok true ev) as EV.
  unfold call_lambda. apply wp_bind, wp_get_cell; [discriminate|]. intros c L. apply wp_bind, func_at_spec. intros g c' L' EG HG DB DF DE. rewrite L in L'. injection L' as <-.
  assert (T : Tr ev [] s [] (fun _ => False) [] s) by (now apply tr_start).
  assert (GF : good [] s f) by (now apply (good_stack true)). assert (GA : good [] s a) by (now apply (good_stack true)).
  assert (GFo : good [] s (fformals g)) by (eapply (good_dref true); [exact A0|exact L|exact DF]).
  apply wp_bind. eapply tr_alloc; [exact T| |].
  { intros x [(t & k' & w & [] & _)|[= <-]]. split; [easy|]. eapply reach_child; [apply re_root; exact IF|exact L|exact DE]. }
  intros ext s1 T1 NX (ad & LX) S1 OX.
  assert (L1 : lookup (all s1) f = Some c) by (rewrite S1; [exact L|now apply re_root]).
  assert (DA : data_at s1 a = data_at s a) by (unfold data_at; rewrite S1; [reflexivity|now apply re_root]).
  apply wp_bind. eapply t_push; [exact T1|reflexivity|]. intros s2 T2 E2.
  assert (W : wp (env_extend ext (fformals g) a) (fun o s' => Tr ev [] s [ext] (fun r => o = Some r) [Extend ext (fformals g) a s2 o s'] s') s2).
  { assert (W : wp (env_extend ext (fformals g) a) (fun o s' => At false [] s [ext] (fun r => o = Some r) s') s2).
    { eapply (env_extend_ok true [] s ext (fformals g) a f c [ext]); [exact (tr_at _ _ _ _ _ _ _ T2)|now left|exact NX|destruct GFo; lia|destruct GA; lia|destruct GF; lia| |exact IA|exact IF|rewrite E2; exact L1|exact DF].
      eapply (good_dref true); [eapply tr_inv; exact T2|rewrite E2; exact L1|exact DF]. }
    apply wp_record in W. eapply wp_mono; [exact W|]. intros o s3 (H3 & Q3). split; [exact H3|]. exact (trace_snoc ev (stack s) s [] (Extend ext (fformals g) a s2 o s3) (tr_tr _ _ _ _ _ _ _ T2) Q3). }
  assert (HG2 : holds_fun s2 f g) by (unfold holds_fun, data_at in *; rewrite E2, L1; rewrite L in HG; exact HG).
  assert (DX : data_at s2 ext = Some (DEnv [] (Some (fenv g)))) by (unfold data_at; rewrite E2, LX; reflexivity).
  assert (DA2 : data_at s2 a = data_at s a) by (rewrite <- DA; unfold data_at; now rewrite E2).
  apply wp_bind. eapply wp_mono; [exact W|]. clear W. intros o s3 T3. cbv beta in T3. destruct o as [r|].
  - apply wp_bind. eapply tr_pop; [exact T3|]. intros s4 T4 E4. apply wp_ret. eexists [_], _. split; [exact (tr_tr _ _ _ _ _ _ _ T4)|]. split; [eapply ca_refused; eauto|].
    apply (result_same s3); [exact E4|]. destruct (data_at s3 r) eqn:ER; [now apply result_refl|exact I].
  - apply wp_bind. eapply wp_mono; [eapply (run_body_spec ev EV [] s f (caddr c) ext [ext] IF ltac:(easy) (or_introl eq_refl) NX fuel 0 None None _ _ s3 s3 T3); [reflexivity|exact I]|].
    intros o s4 (evs' & oo & H1 & H2 & H3). apply wp_bind. eapply tr_pop; [exact H1|]. intros s5 T5 E5. destruct oo as [[r od]|].
    + destruct H3 as (-> & H3). apply wp_ret. eexists (_ :: evs'), od. split; [exact (tr_tr _ _ _ _ _ _ _ T5)|]. split; [eapply ca_run; eauto|]. apply (result_same s4); [exact E5|exact H3].
    + subst o. apply wp_abort.
Qed.
