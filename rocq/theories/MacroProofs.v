(** Calls of macros do what SpecApply.v says. *)
From Coq Require Import NArith ZArith Bool Lia Arith List String.
From Coq Require Import ZifyBool ZifyNat ZifyN.
From Verif Require Import Base OString HMap Heap SpecHeap GcProofs VmProofs ValueOps Env Copy Builtins Specials Eval SafeBase SafeRead SafeLib SafeBuiltins SafeSpecials SafeEval SpecTrace SpecSpecial SpecForm SpecCall SpecApply TraceProofs SpecialProofs SpecialEval CallProofs.
Import ListNotations.
Local Open Scope N_scope.
Local Open Scope list_scope.

Ltac binv H := let x := fresh "x" in let s := fresh "s" in let E := fresh "E" in apply bind_inv in H as (x & s & E & H).
Lemma push_all_spec ev P s0 (A0 : Inv P s0) a : forall ws l0 (G : ref -> Prop) evs s, OT ev P s0 a l0 G evs s -> (forall x, In x ws -> G x) -> wp (push_all a ws) (fun _ s' => OT ev P s0 a (l0 ++ ws) G evs s') s.
Proof.
  induction ws as [|w ws IH]; intros l0 G evs s O K; cbn [push_all]; [apply wp_ret; now rewrite app_nil_r|].
  apply wp_bind. eapply wp_mono; [eapply ot_push; [exact A0|exact O|apply (o_good _ _ _ _ _ _ (ot_own _ _ _ _ _ _ _ _ O)), K; now left]|].
  intros u s1 (O1 & _). eapply wp_mono; [eapply IH; [exact O1|intros x J; apply K; now right]|]. intros u' s2 O2. now rewrite <- app_assoc in O2.
Qed.
Lemma call_macro_spec ev (EV : ev_ok true ev) fuel P s0 v f env addr : Inv P s0 -> In v (stack s0) -> In f (stack s0) -> ~ In v P -> ~ In f P ->
  wp (call_function fuel ev v addr f env true true) (fun o s' => exists evs, Tr ev P s0 [] (fun r => o = Some r) evs s' /\ forall r, o = Some r -> macro_run v f s0 evs r (data_at s' r)) s0.
Proof.
  intros A0 IV IF NV NF. unfold call_function. apply (ot_bind ev P s0 A0). intros a s O. apply wp_bind, wp_bind.
  eapply (form_at_spec ev P s0 v addr); [exact O|]. intros l DV GL. assert (IT : forall x, In x (tl l) -> In x l) by (intros x J; destruct l; [exact J|now right]).
  apply wp_bind. eapply wp_mono; [eapply (push_all_spec ev P s0 A0 a (tl l) [] (fun x => In x l)); [eapply ot_weaken; [exact O|exact GL]|exact IT]|].
  assert (DV0 : data_at s0 v = Some (DVec l)) by (rewrite <- DV; symmetry; apply (ot_at ev P s0 _ _ _ _ _ v O eq_refl); now apply re_root). clear DV GL O s.
  intros u s O. cbn [app] in O. apply wp_ret. 
  pose proof (ot_own _ _ _ _ _ _ _ _ O) as OW. destruct (ot_vec _ _ _ _ _ _ _ _ O) as (ca & LA & EA).
  set (P1 := a :: P). assert (T : Tr ev P1 s [] (fun _ => False) [] s) by (eapply tr_weaken; [apply (ot_start _ _ _ _ _ _ _ _ O)|easy]).
  assert (IA : In a (stack s)) by (rewrite (ot_stack _ _ _ _ _ _ _ _ O); now left). assert (IF1 : In f (stack s)) by (rewrite (ot_stack _ _ _ _ _ _ _ _ O); now right).
  destruct (own_old _ _ _ _ _ _ f OW IF NF) as (GF & _). assert (LTa : a < nextId s) by (now apply (i_stack _ _ _ (o_inv _ _ _ _ _ _ OW))).
  assert (NX0 : nextId s0 <= nextId s) by (apply (a_next _ _ _ _ _ _ _ (o_at _ _ _ _ _ _ OW))).
  apply wp_bind, wp_get_cell; [discriminate|]. intros c L. apply wp_bind, func_at_spec. intros g c' L' EG HG DB DF DE. rewrite L in L'. injection L' as <-.
  assert (HG0 : holds_fun s0 f g). { unfold holds_fun in *. rewrite <- (ot_at ev P s0 _ _ _ _ _ f O eq_refl) by (now apply re_root). exact HG. }
  assert (GFo : good P1 s (fformals g)) by (eapply (good_dref true); [eapply tr_inv; exact T|exact L|exact DF]).
  assert (GEn : good P1 s (fenv g)) by (eapply (good_dref true); [eapply tr_inv; exact T|exact L|exact DE]).
  apply wp_bind. eapply tr_alloc; [exact T| |].
  { intros x [(t & k' & w & [] & _)|[= <-]]. split; [apply GEn|]. eapply reach_child; [apply re_root; exact IF1|exact L|exact DE]. }
  intros ext s1 T1 NX (ad & LX) S1 OX.
  assert (LTf : f < nextId s) by apply GF. assert (LTo : fformals g < nextId s) by apply GFo.
  assert (L1 : lookup (all s1) f = Some c) by (rewrite S1; [exact L|now apply re_root]). assert (LA1 : lookup (all s1) a = Some ca) by (rewrite S1; [exact LA|now apply re_root]).
  apply wp_bind. eapply t_push; [exact T1|reflexivity|]. intros s2 T2 E2.
  assert (W : wp (env_extend ext (fformals g) a) (fun o s' => Tr ev P1 s [ext] (fun r => o = Some r) [Extend ext (fformals g) a s2 o s'] s') s2).
  { assert (W : wp (env_extend ext (fformals g) a) (fun o s' => At false P1 s [ext] (fun r => o = Some r) s') s2).
    { eapply (env_extend_ok true P1 s ext (fformals g) a f c [ext]); [exact (tr_at _ _ _ _ _ _ _ T2)|now left|exact NX|lia|lia|lia| |exact IA|exact IF1|rewrite E2; exact L1|exact DF].
      eapply (good_dref true); [eapply tr_inv; exact T2|rewrite E2; exact L1|exact DF]. }
    apply wp_record in W. eapply wp_mono; [exact W|]. intros o s3 (H3 & Q3). split; [exact H3|]. exact (trace_snoc ev (stack s) s [] (Extend ext (fformals g) a s2 o s3) (tr_tr _ _ _ _ _ _ _ T2) Q3). }
  assert (DX : data_at s2 ext = Some (DEnv [] (Some (fenv g)))) by (unfold data_at; rewrite E2, LX; reflexivity).
  assert (DA : data_at s2 a = Some (DVec (tl l))) by (unfold data_at; rewrite E2, LA1; cbn; now rewrite EA).
  apply wp_bind. eapply wp_mono; [exact W|]. clear W. intros o s3 T3. set (e := Extend ext (fformals g) a s2 o s3) in *. cbv beta in T3.
  apply wp_bind. apply (wp_mono true _ (fun o s' => exists evs', Tr ev P1 s [ext] (fun r => o = Some r) evs' s' /\ forall r, o = Some r -> macro_run v f s0 evs' r (data_at s' r))).
  - destruct o as [r|].
    + apply wp_ret. exists [e]. split; [exact T3|]. intros r' [= <-]. eapply ma_refused; eauto. lia.
    + apply wp_bind. eapply wp_mono; [eapply (run_body_spec ev EV P1 s f (caddr c) ext [ext] IF1 ltac:(apply GF) (or_introl eq_refl) NX fuel 0 None None _ [e] s3 s3 T3); [reflexivity|exact I]|].
      intros o s4 (evs' & oo & H1 & H2 & H3). apply wp_bind, wp_need. intros t ->. destruct oo as [[t' od]|]; [|discriminate]. destruct H3 as ([= <-] & _).
      apply wp_bind. eapply t_push; [exact H1|reflexivity|]. clear H1. intros s5 H5 E5.
      apply wp_bind. eapply (t_ev ev EV P1 s t ext); [exact H5|eapply tr_good; [exact H5|reflexivity]|eapply tr_pre; [exact H5|right; now left|exact NX]|]. clear H5. intros o s6 H6.
      apply wp_bind. eapply tr_pop; [exact H6|]. intros s7 H7 E7. apply wp_ret. eexists. split; [eapply tr_weaken; [exact H7|]; intros y ->; eapply tr_good; [exact H7|now right]|].
      intros r ->. rewrite (data_same _ _ _ E7). rewrite <- app_assoc. cbn [app]. eapply ma_run; eauto; [lia|]. apply yields_eval.
  - clear T3 e. intros o' s4 (evs' & H1 & H2).
    assert (T4 : Tr ev P s0 [ext; a] (fun r => o' = Some r) evs' s4).
    { split.
      - pose proof (at_unpriv true _ P P1 _ _ _ _ (tr_at _ _ _ _ _ _ _ H1) (fun x J => or_intror J)) as X. exact (at_call_pre _ _ _ _ _ _ _ _ _ _ _ (o_at _ _ _ _ _ _ OW) X (fun e => e)).
      - pose proof (ot_tr _ _ _ _ _ _ _ _ O) as TT. apply (trace_app ev (stack s0) s0 [] s evs' s4); [exact TT|]. eapply trace_incl; [|exact (tr_tr _ _ _ _ _ _ _ H1)]. rewrite (ot_stack _ _ _ _ _ _ _ _ O). intros y; now right. }
    apply wp_bind. eapply (tr_pops ev P s0 [ext; a] []); [exact T4|]. intros s5 T5 E5. apply wp_ret. exists evs'.
    split; [eapply tr_weaken; [exact T5|]; intros y J; eapply tr_good; [exact T5|now right]|]. intros r ER. rewrite (data_same _ _ _ E5). now apply H2.
Qed.

(** ** Evaluation of the form *)
Definition nonempty_vector (od : option data) : Prop := match od with Some (DVec (_ :: _)) => True | _ => False end.
Lemma eval_macro_inv fuel v env s o s' x xs f s2 g : quit s = false -> data_at s v = Some (DVec (x :: xs)) -> Eval.eval (S fuel) v env s = Ret (o, s') ->
  Eval.eval fuel x env (inside v env s) = Ret (Some f, s2) -> data_at s2 f = Some (DMac g) ->
  exists addr r s4 st, call_function fuel (Eval.eval fuel) v addr f env true true (with_stack s2 (f :: stack s2)) = Ret (Some r, s4) /\
    (~ nonempty_vector (data_at s4 r) -> o = Some r /\ s' = with_stack s4 st).
Proof.
  intros QT DV H CF DF. cbn [Eval.eval] in H. destruct fuel as [|fuel]; [discriminate|]. set (F := S fuel) in *. cbn [eval_loop] in H. binv H. destruct x0 as [o1 w1].
  unfold eval_impl in E. binv E. unfold read in E0. injection E0 as <- <-. rewrite QT in E. binv E. apply get_inv in E0 as (-> & DE). destruct x0; try discriminate.
  binv E. apply push_inv in E0 as ->. binv E. apply push_inv in E0 as ->. cbn [stack with_stack] in E. binv E. apply get_cell_inv in E0 as (-> & L). cbn in L.
  assert (EC : cdata x2 = DVec (x :: xs)) by (unfold data_at in DV; rewrite L in DV; now injection DV). rewrite EC in E. unfold eval_form in E. binv E. rename E0 into EF.
  pose proof (eq_trans (eq_sym EF) CF) as EQ. injection EQ as -> ->. clear EF.
  apply bind_inv in E as (u1 & sa & Ea & E). apply push_inv in Ea as ->. apply bind_inv in E as (df & sb & Eb & E). apply get_inv in Eb as (-> & DF'). rewrite (data_same s2) in DF' by reflexivity. rewrite DF in DF'. injection DF' as <-.
  apply bind_inv in E as ([r1 w2] & sc & EB & E). apply bind_inv in E as (u2 & sd & Ed & E). apply pops_all in Ed as (st & ->). injection E as <- <- <-.
  binv EB. injection EB as <- <- <-. cbn [negb] in H. apply bind_inv in H as (r & sr & ER & H). apply need_inv in ER as (-> & ->). exists (caddr x2). eexists _, _, st. split; [exact E|]. intros NV.
  apply bind_inv in H as (dr & sr & ER & H). apply get_inv in ER as (-> & DR). match type of NV with ~ nonempty_vector ?X => assert (DR' : X = Some dr) by exact DR; rewrite DR' in NV end. destruct dr as [ | | | | | | | |[|y ys]| | | | | | | | |]; try (now injection H as <- <-). cbn in NV. now elim NV.
Qed.
Section Form.
Context (fuel : nat) (env v x f : ref) (s s2 s' : vm) (o : option ref) (C : calls_form fuel env v s x f s2 o s').
Notation ev := (Eval.eval fuel).
Notation s3 := (with_stack s2 (f :: stack s2)).
Lemma eval_macro_spec g : data_at s2 f = Some (DMac g) -> exists evs r od s4,
  trace ev (env :: v :: stack s) s (SpecTrace.Eval x env (inside v env s) (Some f) s2 :: evs) s4 /\ macro_run v f s2 evs r od /\ data_at s4 r = od /\
  (~ nonempty_vector od -> o = Some r /\ exists st, s' = with_stack s4 st).
Proof.
  intros DF. pose proof (form_operator _ _ _ _ _ _ _ _ _ C) as T3. pose proof (form_stack _ _ _ _ _ _ _ _ _ C) as STK. pose proof C as [SA LV LE QT (xs & DV) CF EV].
  destruct (eval_macro_inv fuel v env s o s' x xs f s2 g QT DV EV CF DF) as (addr & r & s4 & st & EC & K).
  pose proof (call_macro_spec ev (eval_safe true fuel) fuel [] s3 v f env addr (tr_inv _ _ _ _ _ _ _ T3) ltac:(rewrite STK; cbn; auto) ltac:(rewrite STK; cbn; auto) ltac:(easy) ltac:(easy)) as W.
  destruct (wp_ret_inv _ _ _ _ _ W EC) as (evs & T4 & R). clear W. exists evs, r, (data_at s4 r), s4.
  split; [|split; [|split; [reflexivity|intros N; destruct (K N) as (K1 & K2); split; [exact K1|now exists st]]]].
  - apply t_event; [apply inside_keeps|exact CF|]. cbn [after]. eapply trace_before; [|eapply trace_incl; [|exact (tr_tr _ _ _ _ _ _ _ T4)]].
    + apply keeps_same; reflexivity.
    + rewrite STK. intros y J. now right.
  - specialize (R r eq_refl). destruct R as [l g' ext a s5 r s6 R1 R2 R3 R4 R5|l g' ext a s5 s6 evs t od e r od' R1 R2 R3 R4 R5 R6 R7].
    + eapply ma_refused; eauto.
    + eapply ma_run; eauto.
Qed.
End Form.
