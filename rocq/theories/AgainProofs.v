(** The expansions of macros whose value is a vector: SpecAgain.v. *)
From Coq Require Import NArith ZArith Bool Lia Arith List String.
From Coq Require Import ZifyBool ZifyNat ZifyN.
From Verif Require Import Relate SchedProofs.
From Verif Require Import Base OString HMap Heap SpecHeap GcProofs VmProofs ValueOps Env Copy Builtins Specials Eval SafeBase SafeRead SafeLib SafeBuiltins SafeSpecials SafeEval SpecTrace SpecSpecial SpecForm SpecCall SpecApply SpecAgain TraceProofs SpecialProofs SpecialEval CallProofs MacroProofs.
Import ListNotations.
Local Open Scope N_scope.
Local Open Scope list_scope.

(** ** More fuel *)
Lemma builtin_more ev ev' : (forall x e, more (ev x e) (ev' x e)) -> forall n p a e, more (builtin_call n ev p a e) (builtin_call n ev' p a e).
Proof.
  intros K n p a e. apply (r_builtin (@more) (fun _ => True) (fun _ => True)); intros; try apply more_refl; auto using closed_all, more_assoc, more_bind, more_cell, more_heap, more_lift. intros s. now left.
Qed.
Lemma more_ret {X} (m m' : M X) s x s' : more m m' -> m s = Ret (x, s') -> m' s = Ret (x, s').
Proof. intros K E. destruct (K s) as [F|F]; congruence. Qed.
Lemma happens_more n m e : (n <= m)%nat -> happens (Eval.eval n) e -> happens (Eval.eval m) e.
Proof.
  intros LE. destruct e; cbn; auto.
  - intros E. eapply more_ret; [apply eval_more; exact LE|exact E].
  - intros (k & E). exists k. eapply more_ret; [apply builtin_more; intros; apply eval_more; exact LE|exact E].
Qed.
Lemma trace_more n m base s evs s' : (n <= m)%nat -> trace (Eval.eval n) base s evs s' -> trace (Eval.eval m) base s evs s'.
Proof. intros LE T. induction T as [s s' K|s e evs s' K E T IH]; [now apply t_done|apply t_event; auto]. eapply happens_more; eauto. Qed.
Lemma Tr_more n m P s0 pre G evs s : (n <= m)%nat -> Tr (Eval.eval n) P s0 pre G evs s -> Tr (Eval.eval m) P s0 pre G evs s.
Proof. intros LE [A B]. split; [exact A|]. eapply trace_more; eauto. Qed.

(** ** Calls of functions *)
Definition near (s : vm) (r : ref) (od : option data) : Prop :=
  data_at s r = od \/ exists d d', od = Some d /\ is_err d /\ data_at s r = Some d' /\ is_err d'.
Lemma near_same s s' r od : all s' = all s -> near s r od -> near s' r od.
Proof. intros E. unfold near. now rewrite (data_same _ _ _ E). Qed.
Lemma near_result s r d : is_err d -> result_is s r (Some d) -> near s r (Some d).
Proof. intros E (d' & D & T). right. exists d, d'. destruct T as [->|(_ & K)]; auto. Qed.
Lemma near_macro s r od : near s r od -> forall g, data_at s r = Some (DMac g) <-> od = Some (DMac g).
Proof. intros [->|(d & d' & -> & A & -> & B)] g; [reflexivity|]. split; intros [= ->]; [destruct B|destruct A]. Qed.
Lemma again_function_spec ev (EV : ev_ok true ev) fuel P s0 v f env addr : Inv P s0 -> In v (stack s0) -> In env (stack s0) -> In f (stack s0) -> ~ In env P -> ~ In v P -> ~ In f P ->
  wp (call_function fuel ev v addr f env false true) (fun o s' => exists evs, Tr ev P s0 [] (fun r => o = Some r) evs s' /\ forall r, o = Some r -> exists od, function_again env v f s0 evs r od /\ near s' r od) s0.
Proof.
  intros A0 IV IE IF NE NV NF. unfold call_function. apply (ot_bind ev P s0 A0). intros a s O. apply wp_bind.
  eapply wp_mono; [eapply (eval_args_spec ev EV P s0 A0 v env IV IE NE addr a fuel 1 [] _ [] s s0 O); apply (ot_at ev P s0 _ _ _ _ _ v O eq_refl); now apply re_root|]. clear O s.
  intros o s (evs & xs & H). cbn [app] in H. destruct o as [x|].
  - destruct H as (d & R & O & RD). assert (T : Tr ev P s0 [a] (eq x) evs s) by (split; [apply (ot_own _ _ _ _ _ _ _ _ O)|apply O]).
    apply wp_bind. eapply tr_pop; [exact T|]. intros s1 T1 E1. apply wp_ret. exists evs. split; [eapply tr_weaken; [exact T1|]; intros y [= <-]; eapply tr_good; [exact T1|now right]|].
    intros r [= <-]. exists (Some d). split; [now apply fa_args with xs|]. apply (near_same s); [exact E1|]. apply near_result; [|exact RD]. clear - R. remember (Some (x, d)) as o eqn:EO. induction R; [discriminate|auto|]. now injection EO as -> ->.
  - destruct H as (R & O). pose proof (ot_own _ _ _ _ _ _ _ _ O) as OW. destruct (ot_vec _ _ _ _ _ _ _ _ O) as (ca & LA & EA).
    set (P1 := a :: P). assert (T : Tr ev P1 s [] (fun _ => False) [] s) by (apply (ot_start _ _ _ _ _ _ _ _ O)).
    assert (IA : In a (stack s)) by (rewrite (ot_stack _ _ _ _ _ _ _ _ O); now left). assert (IF1 : In f (stack s)) by (rewrite (ot_stack _ _ _ _ _ _ _ _ O); now right).
    destruct (own_old _ _ _ _ _ _ f OW IF NF) as (GF & _). assert (LTa : a < nextId s) by (now apply (i_stack _ _ _ (o_inv _ _ _ _ _ _ OW))).
    assert (NX0 : nextId s0 <= nextId s) by (apply (a_next _ _ _ _ _ _ _ (o_at _ _ _ _ _ _ OW))).
    apply wp_bind, wp_get_cell; [discriminate|]. intros c L. apply wp_bind, func_at_spec. intros g c' L' EG HG DB DF DE. rewrite L in L'. injection L' as <-.
    assert (GFo : good P1 s (fformals g)) by (eapply (good_dref true); [eapply tr_inv; exact T|exact L|exact DF]).
    assert (GEn : good P1 s (fenv g)) by (eapply (good_dref true); [eapply tr_inv; exact T|exact L|exact DE]).
    apply wp_bind. eapply tr_alloc; [exact T| |].
    { intros x [(t & k' & w & [] & _)|[= <-]]. split; [apply GEn|]. eapply reach_child; [apply re_root; exact IF1|exact L|exact DE]. }
    intros ext s1 T1 NX (ad & LX) S1 OX. 
    assert (LTf : f < nextId s) by apply GF. assert (LTo : fformals g < nextId s) by apply GFo.
    assert (L1 : lookup (all s1) f = Some c) by (rewrite S1; [exact L|now apply re_root]). assert (LA1 : lookup (all s1) a = Some ca) by (rewrite S1; [exact LA|now apply re_root]).
    apply wp_bind. eapply t_push; [exact T1|reflexivity|]. intros s2 T2 E2.
    assert (W : wp (env_extend ext (fformals g) a) (fun o s' => Tr ev P1 s [ext] (fun r => o = Some r) [Extend ext (fformals g) a s2 o s'] s') s2).
    { assert (W : wp (env_extend ext (fformals g) a) (fun o s' => At false P1 s [ext] (fun r => o = Some r) s') s2).
      { eapply (env_extend_ok true P1 s ext (fformals g) a f c [ext]); [exact (tr_at _ _ _ _ _ _ _ T2)|now left|exact NX|lia|lia|lia| |exact IA|exact IF1|rewrite E2; exact L1|exact DF].
        eapply (good_dref true); [eapply tr_inv; exact T2|rewrite E2; exact L1|exact DF]. }
      apply wp_record in W. eapply wp_mono; [exact W|]. intros o s3 (H3 & Q3). split; [exact H3|]. exact (trace_snoc ev (stack s) s [] (Extend ext (fformals g) a s2 o s3) (tr_tr _ _ _ _ _ _ _ T2) Q3). }
    assert (DX : data_at s2 ext = Some (DEnv [] (Some (fenv g)))) by (unfold data_at; rewrite E2, LX; reflexivity).
    assert (DA : data_at s2 a = Some (DVec xs)) by (unfold data_at; rewrite E2, LA1; cbn; now rewrite EA).
    assert (HG2 : holds_fun s2 f g) by (unfold holds_fun, data_at in *; rewrite E2, L1; rewrite L in HG; exact HG).
    apply wp_bind. eapply wp_mono; [exact W|]. clear W. intros o s3 T3. set (e := Extend ext (fformals g) a s2 o s3) in *. cbv beta in T3.
    apply wp_bind. apply (wp_mono true _ (fun o s' => exists evs', Tr ev P1 s [ext] (fun r => o = Some r) evs' s' /\ forall r, o = Some r -> function_again env v f s0 (evs ++ evs') r (data_at s' r))).
    + destruct o as [r|].
      * apply wp_ret. exists [e]. split; [exact T3|]. intros r' [= <-]. eapply fa_refused; eauto; lia.
      * apply wp_bind. eapply wp_mono; [eapply (run_body_spec ev EV P1 s f (caddr c) ext [ext] IF1 ltac:(apply GF) (or_introl eq_refl) NX fuel 0 None None _ [e] s3 s3 T3); [reflexivity|exact I]|].
        intros o s4 (evs' & oo & H1 & H2 & H3). apply wp_bind, wp_need. intros t ->. destruct oo as [[t' od]|]; [|discriminate]. destruct H3 as ([= <-] & _).
        apply wp_bind. eapply t_push; [exact H1|reflexivity|]. clear H1. intros s5 H5 E5.
        apply wp_bind. eapply (t_ev ev EV P1 s t ext); [exact H5|eapply tr_good; [exact H5|reflexivity]|eapply tr_pre; [exact H5|right; now left|exact NX]|]. clear H5. intros o s6 H6.
        apply wp_bind. eapply tr_pop; [exact H6|]. intros s7 H7 E7. apply wp_ret. eexists. split; [eapply tr_weaken; [exact H7|]; intros y ->; eapply tr_good; [exact H7|now right]|].
        intros r ->. rewrite (data_same _ _ _ E7). rewrite <- app_assoc. cbn [app]. eapply fa_run; eauto; [lia|]. apply yields_eval.
    + clear T3 e. intros o' s4 (evs' & H1 & H2).
      assert (T4 : Tr ev P s0 [ext; a] (fun r => o' = Some r) (evs ++ evs') s4).
      { split.
        - pose proof (at_unpriv true _ P P1 _ _ _ _ (tr_at _ _ _ _ _ _ _ H1) (fun x J => or_intror J)) as X. exact (at_call_pre _ _ _ _ _ _ _ _ _ _ _ (o_at _ _ _ _ _ _ OW) X (fun e => e)).
        - eapply trace_app; [apply O|]. eapply trace_incl; [|exact (tr_tr _ _ _ _ _ _ _ H1)]. rewrite (ot_stack _ _ _ _ _ _ _ _ O). intros y; now right. }
      apply wp_bind. eapply (tr_pops ev P s0 [ext; a] []); [exact T4|]. intros s5 T5 E5. apply wp_ret. exists (evs ++ evs').
      split; [eapply tr_weaken; [exact T5|]; intros y J; eapply tr_good; [exact T5|now right]|]. intros r ->. exists (data_at s4 r). split; [now apply H2|]. apply (near_same s4); [exact E5|now left].
Qed.

(** ** The evaluation of a form where expansions are *)
Lemma again_inv fuel ev y env s o w s' : eval_impl fuel ev y env true s = Ret ((o, w), s') -> w = true /\
  ((eval_impl fuel ev y env false s = Ret ((o, false), s') /\ (quit s = true \/ ~ is_form (data_at s y) \/
      exists z zs o1 s2, quit s = false /\ data_at s y = Some (DVec (z :: zs)) /\ ev z env (inside y env s) = Ret (o1, s2) /\ (o1 = None -> o = None) /\ forall f, o1 = Some f -> forall g, data_at s2 f <> Some (DFun g) /\ data_at s2 f <> Some (DMac g))) \/
   exists z zs f s2 g addr s4 st, quit s = false /\ data_at s y = Some (DVec (z :: zs)) /\ ev z env (inside y env s) = Ret (Some f, s2) /\ s' = with_stack s4 st /\
     ((data_at s2 f = Some (DFun g) /\ call_function fuel ev y addr f env false true (with_stack s2 (f :: stack s2)) = Ret (o, s4)) \/
      (data_at s2 f = Some (DMac g) /\ call_function fuel ev y addr f env true true (with_stack s2 (f :: stack s2)) = Ret (o, s4)))).
Proof.
  assert (U : forall was, eval_impl fuel ev y env was s = if quit s then bind (alloc DNil) (fun r => ret (Some r, was)) s else
     bind (get env) (fun ed => match ed with DEnv _ _ => push y ;;; push env ;;; c <- get_cell y ;;
        match cdata c with
        | DSym t => o <- env_get env t ;; r <- match o with Some r => ret r | None => new_error end ;; pops [env; y] ;;; ret (Some r, was)
        | DVec l => eval_form fuel ev y l (caddr c) env was
        | DMap _ | DQueue _ _ | DList _ | DEnv _ _ => r <- new_error ;; pops [env; y] ;;; ret (Some r, was)
        | _ => pops [env; y] ;;; ret (Some y, was)
        end | _ => abort end) s).
  { intros was. unfold eval_impl. unfold bind at 1. unfold read. cbn [obind fst snd]. destruct (quit s); reflexivity. }
  rewrite (U false). rewrite (U true). clear U. intros H. destruct (quit s) eqn:QT.
  { binv H. injection H as <- <- <-. split; [reflexivity|]. left. split; [|now left]. unfold bind. rewrite E. reflexivity. }
  binv H. pose proof E as EG. apply get_inv in E as (-> & DE). destruct x; try discriminate.
  binv H. pose proof E as EP. apply push_inv in E as ->. binv H. pose proof E as EP2. apply push_inv in E as ->. cbn [stack with_stack] in *. binv H. pose proof E as EC. apply get_cell_inv in E as (-> & L). cbn in L.
  match goal with |- context [bind (get env) ?k s] => assert (GO : bind (get env) k s = obind (Ret (x1, with_stack s (env :: y :: stack s))) (fun '(c, s1) => match cdata c with
        | DSym t => (o <- env_get env t ;; r <- match o with Some r => ret r | None => new_error end ;; pops [env; y] ;;; ret (Some r, false)) s1
        | DVec l => eval_form fuel ev y l (caddr c) env false s1
        | DMap _ | DQueue _ _ | DList _ | DEnv _ _ => (r <- new_error ;; pops [env; y] ;;; ret (Some r, false)) s1
        | _ => (pops [env; y] ;;; ret (Some y, false)) s1
        end)) end.
  { unfold bind at 1. rewrite EG. cbn [obind fst snd]. unfold bind at 1. rewrite EP. cbn [obind fst snd]. unfold bind at 1. rewrite EP2. cbn [obind fst snd]. unfold bind at 1. cbn [stack with_stack] in EC |- *. match goal with |- context [get_cell y ?u] => change (get_cell y u) with (get_cell y (with_stack s (env :: y :: stack s))) end. 
    replace (get_cell y (with_stack s (env :: y :: stack s))) with (Ret (x1, with_stack s (env :: y :: stack s))) by (symmetry; exact EC). cbn [obind fst snd]. destruct (cdata x1); reflexivity. }
  rewrite GO. clear GO. assert (DY : data_at s y = Some (cdata x1)) by (unfold data_at; now rewrite L). cbn [obind fst snd].
  change (with_stack (with_stack s (y :: stack s)) (env :: y :: stack s)) with (inside y env s) in H. change (with_stack s (env :: y :: stack s)) with (inside y env s).
  rewrite DY. clear EG EP EP2 EC L DE. 
  destruct (cdata x1) as [ |db|dz|df|dt|dt|dt|dmsg dline|l|m|l max|l|db denc|df|df|dp|dp|dv] eqn:CD;
    try (split; [repeat (apply bind_inv in H as (? & ? & _ & H)); now injection H as _ <- _|]; left; split; [|right; left; intros (z & zs & K); discriminate K];
      repeat (apply bind_inv in H as (? & ? & ? & H)); injection H as <- <- <-; unfold bind; repeat (match goal with E : _ = Ret _ |- _ => rewrite E; clear E; cbn [obind fst snd] end); reflexivity).
  destruct l as [|z zs].
  { split. { unfold eval_form in H. apply bind_inv in H as (? & ? & _ & H). apply bind_inv in H as (? & ? & _ & H). now injection H as _ <- _. } left. split; [|right; left; intros (z & zs & K); discriminate K]. cbn [eval_form] in *.
    apply bind_inv in H as (? & ? & E1 & H). apply bind_inv in H as (? & ? & E2 & H). injection H as <- <- <-. unfold bind. rewrite E1. cbn [obind fst snd]. rewrite E2. reflexivity. }
  cbn [eval_form] in *. apply bind_inv in H as (fo & s2 & E & H). destruct fo as [f|].
  2: { apply bind_inv in H as (u & s3 & E0 & H). injection H as <- <- <-. split; [reflexivity|]. left. split; [unfold bind; rewrite E; cbn [obind fst snd]; rewrite E0; reflexivity|]. right. right. exists z, zs, None, s2. split; [auto|]. split; [auto|]. split; [exact E|]. split; [auto|]. intros f1 K; discriminate K. }
  apply bind_inv in H as (u & s3 & EP & H). pose proof (push_inv _ _ _ _ EP) as ->. apply bind_inv in H as (df & s3 & EG & H). destruct (get_inv _ _ _ _ EG) as (-> & DF). rewrite (data_same s2) in DF by reflexivity.
  apply bind_inv in H as ([r1 w2] & sc & EB & H). apply bind_inv in H as (u' & sd & ES & H). destruct (pops_all _ _ _ _ ES) as (st & ->). injection H as <- <- <-.
  destruct df as [ |db|dz|df|dt|dt|dt|dmsg dline|l|m|l max|l|db denc|df|df|dp|dp|dv];
    try (apply bind_inv in EB as (r & sb & EB & EB2); injection EB2 as <- <- <-; split; [reflexivity|]; left; split;
      [unfold bind; rewrite E; cbn [obind fst snd]; rewrite EP; cbn [obind fst snd]; rewrite EG; cbn [obind fst snd]; rewrite EB; cbn [obind fst snd ret]; rewrite ES; reflexivity
      |right; right; exists z, zs, (Some f), s2; split; [auto|]; split; [auto|]; split; [exact E|]; split; [discriminate|]; intros f' [= <-] g; rewrite DF; split; discriminate]).
  - apply bind_inv in EB as (r & sb & EB & EB2). injection EB2 as <- <- <-. split; [reflexivity|]. right. exists z, zs, f, s2, df, (caddr x1), sb, st. repeat (split; [auto; fail|]). left. auto.
  - apply bind_inv in EB as (r & sb & EB & EB2). injection EB2 as <- <- <-. split; [reflexivity|]. right. exists z, zs, f, s2, df, (caddr x1), sb, st. repeat (split; [auto; fail|]). right. auto.
Qed.

Lemma again_spec fuel0 y env s o w s' : let fuel := S fuel0 in Inv [] s -> y < nextId s -> env < nextId s -> eval_impl fuel (Eval.eval fuel) y env true s = Ret ((o, w), s') ->
  w = true /\ forall op, o = Some op -> exists evs od, Tr (Eval.eval (S fuel)) [] s [] (eq op) evs s' /\ again_run env y evs op od /\ near s' op od.
Proof.
  intros fuel A LY LE H. pose proof (again_inv _ _ _ _ _ _ _ _ H) as (-> & K). split; [reflexivity|]. intros op ->.
  assert (GY : good [] s y) by (split; [exact LY|easy]). assert (GE : good [] s env) by (split; [exact LE|easy]).
  destruct K as [(EF & PL)|(z & zs & f & s2 & g & addr & s4 & st & QT & DY & EZ & -> & C)].
  - assert (EV : Eval.eval (S fuel) y env s = Ret (Some op, s')).
    { unfold fuel. cbn [Eval.eval eval_loop]. unfold bind. fold fuel. match goal with |- context [eval_impl ?a ?b y env false s] => change (eval_impl a b y env false s) with (eval_impl fuel (Eval.eval fuel) y env false s) end. rewrite EF. reflexivity. }
    exists [SpecTrace.Eval y env s (Some op) s'], (data_at s' op). split; [|split; [|now left]].
    + pose proof (tr_eval (Eval.eval (S fuel)) (eval_safe true (S fuel)) [] s y env [] _ [] (fun o s' => Tr (Eval.eval (S fuel)) [] s [] (fun r => o = Some r) [SpecTrace.Eval y env s o s'] s') _ (tr_start _ [] _ A) GY GE (fun o s' T => T)) as W.
      eapply tr_eq; [exact (wp_ret_inv _ _ _ _ _ W EV)|reflexivity].
    + apply ag_plain. destruct PL as [Q|[NF|(z & zs & o1 & s2 & QT & DY & EZ & N & PL)]]; [now left|right; now left|right; right]. destruct o1 as [f|]; [|now discriminate N].
      exists f, s2, z. split; [split; [exact QT|split; [now exists zs|now exists fuel]]|now apply PL].
  - assert (A1 : Inv [] (inside y env s)).
    { pose proof (inv_push true [] s y A LY ltac:(discriminate)) as B. exact (inv_push true [] (with_stack s (y :: stack s)) env B LE ltac:(discriminate)). }
    assert (OP : operator env y s f s2 z) by (split; [exact QT|split; [now exists zs|now exists fuel]]).
    pose proof (eval_safe true fuel) as EVO. set (ev := Eval.eval fuel) in *.
    assert (GZ : good [] (inside y env s) z).
    { unfold data_at in DY. destruct (lookup (all s) y) as [c|] eqn:L; [|discriminate]. injection DY as EC'. eapply (good_dref true []); [exact A1|cbn; exact L|rewrite EC'; now left]. }
    assert (T2 : Tr ev [] (inside y env s) [] (eq f) [SpecTrace.Eval z env (inside y env s) (Some f) s2] s2).
    { pose proof (tr_eval ev EVO [] (inside y env s) z env [] _ [] (fun o s' => Tr ev [] (inside y env s) [] (fun r => o = Some r) [SpecTrace.Eval z env (inside y env s) o s'] s') _ (tr_start ev [] _ A1) GZ GE (fun o s' T => T)) as W.
      eapply tr_eq; [exact (wp_ret_inv _ _ _ _ _ W EZ)|reflexivity]. }
    pose proof (t_push ev [] (inside y env s) f [] _ _ (fun _ s' => Tr ev [] (inside y env s) [f] (eq f) [SpecTrace.Eval z env (inside y env s) (Some f) s2] s') _ T2 eq_refl (fun s' T _ => T) : Tr ev [] (inside y env s) [f] (eq f) [SpecTrace.Eval z env (inside y env s) (Some f) s2] (with_stack s2 (f :: stack s2))) as T3.
    set (s3 := with_stack s2 (f :: stack s2)) in *.
    assert (STK : stack s3 = f :: env :: y :: stack s) by (rewrite (a_stack _ _ _ _ _ _ _ (tr_at _ _ _ _ _ _ _ T3)); reflexivity).
    pose proof (eval_impl_ok true ev EVO fuel [] s y env true A GY GE) as OK. pose proof (wp_ret_inv _ _ _ _ _ OK H) as AT. unfold ok2 in AT. cbn [fst] in AT.
    assert (FIN : forall evs, Tr ev [] s3 [] (fun r => Some op = Some r) evs s4 -> Tr (Eval.eval (S fuel)) [] s [] (eq op) (SpecTrace.Eval z env (inside y env s) (Some f) s2 :: evs) (with_stack s4 st)).
    { intros evs T4. apply (Tr_more fuel); [lia|]. split.
      - eapply at_weaken; [exact AT|]. intros x <-. eapply at_good; [exact AT|left; reflexivity|now right].
      - apply t_event; [apply inside_keeps|exact EZ|]. cbn [after]. eapply trace_before; [|eapply trace_after; [eapply trace_incl; [|exact (tr_tr _ _ _ _ _ _ _ T4)]|]].
        + apply keeps_same; reflexivity.
        + rewrite STK. intros x J. right. right. now right.
        + apply keeps_same; reflexivity. }
    destruct C as [(DF & EC)|(DF & EC)].
    + pose proof (again_function_spec ev EVO fuel [] s3 y f env addr (tr_inv _ _ _ _ _ _ _ T3) ltac:(rewrite STK; cbn; auto) ltac:(rewrite STK; cbn; auto) ltac:(rewrite STK; cbn; auto) ltac:(easy) ltac:(easy) ltac:(easy)) as W.
      destruct (wp_ret_inv _ _ _ _ _ W EC) as (evs & T4 & R). clear W. destruct (R op eq_refl) as (od & R1 & R2). exists (SpecTrace.Eval z env (inside y env s) (Some f) s2 :: evs), od. split; [now apply FIN|]. split.
      * eapply ag_function; [exact OP|exact DF|]. clear - R1. assert (B : forall i evs xs o, args_run env y s3 i evs xs o -> args_run env y s2 i evs xs o).
        { intros i evs0 xs o H. inversion H; subst; [eapply args_end; eauto|eapply args_next; eauto|eapply args_error; eauto]. }
        destruct R1; [eapply fa_args; eauto|eapply fa_refused; eauto|eapply fa_run; eauto].
      * exact (near_same s4 (with_stack s4 st) op od eq_refl R2).
    + pose proof (call_macro_spec ev EVO fuel [] s3 y f env addr (tr_inv _ _ _ _ _ _ _ T3) ltac:(rewrite STK; cbn; auto) ltac:(rewrite STK; cbn; auto) ltac:(easy) ltac:(easy)) as W.
      destruct (wp_ret_inv _ _ _ _ _ W EC) as (evs & T4 & R). clear W. specialize (R op eq_refl). exists (SpecTrace.Eval z env (inside y env s) (Some f) s2 :: evs), (data_at s4 op). split; [now apply FIN|]. split; [|now left].
      eapply ag_macro; [exact OP|exact DF|]. remember (data_at s4 op) as odd eqn:EO. clear EO. destruct R as [l g' ext a s5 r s6 R1 R2 R3 R4 R5|l g' ext a s5 s6 evs t od e r od' R1 R2 R3 R4 R5 R6 R7]; [eapply ma_refused; eauto|eapply ma_run; eauto].
Qed.

(** ** What follows the call *)
Definition follow (fuel : nat) (ev : evaluator) (env r : ref) (again : M (option ref)) : M (option ref) :=
  d <- get r ;;
  match d with
  | DVec (x :: _) =>
      push r ;;;
      p <- eval_impl fuel ev x env true ;;
      let (o, _) := (p : option ref * bool) in
      op <- need o ;; pop r ;;;
      d <- get op ;;
      match d with
      | DMac _ => again
      | _ => ret (Some r)
      end
  | _ => ret (Some r)
  end.
Lemma eval_loop_inv f fuel ev v env s o s' : (forall o w s1, eval_impl fuel ev v env true s = Ret ((o, w), s1) -> w = true) ->
  eval_loop f fuel ev v env true s = Ret (o, s') -> exists f' r s1, f = S f' /\ eval_impl fuel ev v env true s = Ret ((Some r, true), s1) /\
  follow fuel ev env r (eval_loop f' fuel ev r env true) s1 = Ret (o, s').
Proof.
  intros W H. destruct f as [|f]; [discriminate|]. cbn [eval_loop] in H. apply bind_inv in H as ([o1 w] & s1 & E & H). pose proof (W _ _ _ E) as ->. cbn [negb] in H.
  apply bind_inv in H as (r & s2 & N & H). apply need_inv in N as (-> & ->). exists f, r, s1. split; [reflexivity|]. split; [exact E|]. unfold follow. exact H.
Qed.
Lemma follow_step fuel0 env r again s o s' : let fuel := S fuel0 in Inv [] s -> r < nextId s -> env < nextId s ->
  follow fuel (Eval.eval fuel) env r again s = Ret (o, s') ->
  (exists evs, o = Some r /\ trace (Eval.eval (S fuel)) (stack s) s evs s' /\ expansion_run env r (data_at s r) evs r) \/
  exists y ys evs t g s3, data_at s r = Some (DVec (y :: ys)) /\ trace (Eval.eval (S fuel)) (stack s) s evs s3 /\ again_run env y evs t (Some (DMac g)) /\
    Inv [] s3 /\ stack s3 = stack s /\ nextId s <= nextId s3 /\ again s3 = Ret (o, s').
Proof.
  intros fuel. set (ev := Eval.eval fuel). set (ev' := Eval.eval (S fuel)). intros A LR LE H.
  unfold follow in H. apply bind_inv in H as (d & s1 & G & H). apply get_inv in G as (-> & DR). rewrite DR.
  assert (PL : ~ is_form (Some d) -> exists evs, Some r = Some r /\ trace ev' (stack s) s evs s /\ expansion_run env r (Some d) evs r)
    by (intros NF; exists []; split; [reflexivity|]; split; [apply t_done, keeps_refl|now apply ex_value]).
  destruct d as [ |db|dz|df|dt|dt|dt|dmsg dline|[|x xs]|m|l max|l|db denc|df|df|dp|dp|dv]; try (injection H as <- <-; left; apply PL; intros (z & zs & K); discriminate K). clear PL.
  apply bind_inv in H as (u & sa & EP & H). apply push_inv in EP as ->. apply bind_inv in H as ([op w] & s2 & EI & H).
  pose proof (inv_push true [] s r A LR ltac:(discriminate)) as A1.
  assert (LX : x < nextId s).
  { unfold data_at in DR. destruct (lookup (all s) r) as [c|] eqn:L; [|discriminate]. injection DR as EC. destruct (i_refs _ _ _ A r c x L) as (X & _); [|exact X]. left. apply refers_iff. right. rewrite EC. now left. }
  destruct (again_spec fuel0 x env _ op w s2 A1 LX LE EI) as (-> & K). apply bind_inv in H as (op' & sb & N & H). apply need_inv in N as (-> & ->). destruct (K op' eq_refl) as (evs & od & T & R & NR). clear K.
  apply bind_inv in H as (u2 & s3 & EQ & H).
  pose proof (t_push ev' [] s r [] _ _ (fun _ s' => Tr ev' [] s [r] (fun _ => False) [] s') s (tr_start ev' [] s A)) as TP.
  assert (T1 : Tr ev' [] s [r] (fun _ => False) [] (with_stack s (r :: stack s))).
  { split; [|apply t_done, keeps_same; reflexivity]. pose proof (tr_push ev' [] s r [] (fun x => x = r) [] (fun _ s' => Tr ev' [] s [r] (fun x => x = r) [] s') s) as W. 
    assert (T0 : Tr ev' [] s [] (fun x => x = r) [] s) by (eapply tr_weaken; [exact (tr_start ev' [] s A)|]; intros y ->; split; [exact LR|easy]).
    specialize (W T0 (or_introl eq_refl) (fun s' X _ => X) : Tr ev' [] s [r] (fun x => x = r) [] (with_stack s (r :: stack s))). eapply at_weaken; [exact (tr_at _ _ _ _ _ _ _ W)|easy]. }
  assert (T2 : Tr ev' [] s [r] (fun x => op' = x) evs s2).
  { split.
    - exact (at_call_pre _ _ _ _ _ _ _ _ _ _ _ (tr_at _ _ _ _ _ _ _ T1) (tr_at _ _ _ _ _ _ _ T) (fun e => e)).
    - pose proof (trace_app ev' (stack s) s [] _ evs s2 (tr_tr _ _ _ _ _ _ _ T1)) as X. apply X. eapply trace_incl; [|exact (tr_tr _ _ _ _ _ _ _ T)]. intros y J. now right. }
  clear TP. pose proof (tr_pop ev' [] s r [] _ _ (fun _ s' => Tr ev' [] s [] (fun x => (x = r /\ ~ In x []) \/ op' = x) evs s' /\ all s' = all s2) s2 T2 (fun s' X Y => conj X Y)) as W.
  destruct (wp_ret_inv _ _ _ _ _ W EQ) as (T3 & E3). clear W. apply bind_inv in H as (dop & s4 & G & H). apply get_inv in G as (-> & DOP). rewrite (data_same _ _ _ E3) in DOP.
  assert (FIN : (forall g, od <> Some (DMac g)) -> exists evs, Some r = Some r /\ trace ev' (stack s) s evs s3 /\ expansion_run env r (Some (DVec (x :: xs))) evs r).
  { intros NM. exists evs. split; [reflexivity|]. split; [apply T3|]. eapply ex_vector; [exact R|exact NM]. }
  pose proof (near_macro _ _ _ NR) as NM. rewrite DOP in NM.
  destruct dop as [ |db|dz|df|dt|dt|dt|dmsg dline|l|m|l max|l|db denc|df|df|dp|dp|dv]; try (injection H as <- <-; left; apply FIN; intros g K; apply NM in K; discriminate K).
  right. exists x, xs, evs, op', df, s3. split; [reflexivity|]. split; [apply T3|]. split; [rewrite (proj1 (NM df) eq_refl) in R; exact R|]. split; [eapply tr_inv; exact T3|].
  split; [exact (a_stack _ _ _ _ _ _ _ (tr_at _ _ _ _ _ _ _ T3))|]. split; [exact (a_next _ _ _ _ _ _ _ (tr_at _ _ _ _ _ _ _ T3))|exact H].
Qed.
Lemma follow_spec fuel0 env : let fuel := S fuel0 in forall f r s o s', Inv [] s -> r < nextId s -> env < nextId s ->
  follow fuel (Eval.eval fuel) env r (eval_loop f fuel (Eval.eval fuel) r env true) s = Ret (o, s') ->
  exists evs r', o = Some r' /\ trace (Eval.eval (S fuel)) (stack s) s evs s' /\ expansion_run env r (data_at s r) evs r'.
Proof.
  intros fuel. induction f as [|f IH]; intros r s o s' A LR LE H;
    (destruct (follow_step fuel0 env r _ s o s' A LR LE H) as [(evs & EO & T & X)|(y & ys & evs & t & g & s3 & D & T & R & A3 & ST & NX & K)]; [now exists evs, r|]); [discriminate|].
  assert (LR3 : r < nextId s3) by lia. assert (LE3 : env < nextId s3) by lia.
  apply eval_loop_inv in K as (f' & r1 & s4 & [= <-] & EI & K).
  2: { intros o1 w s1 E. exact (proj1 (again_spec fuel0 r env s3 o1 w s1 A3 LR3 LE3 E)). }
  destruct (again_spec fuel0 r env s3 _ _ s4 A3 LR3 LE3 EI) as (_ & Q). destruct (Q r1 eq_refl) as (evs1 & od1 & T1 & R1 & NR1). clear Q.
  pose proof (tr_at _ _ _ _ _ _ _ T1) as AT1. destruct (IH r1 s4 o s') as (evs2 & r2 & -> & T2 & X2); [eapply tr_inv; exact T1|eapply tr_good; [exact T1|reflexivity]|pose proof (a_next _ _ _ _ _ _ _ AT1); lia|exact K|].
  exists (evs ++ evs1 ++ evs2), r2. split; [reflexivity|]. split.
  - eapply trace_app; [exact T|]. pose proof (tr_tr _ _ _ _ _ _ _ T1) as T1'. rewrite ST in T1'. eapply trace_app; [exact T1'|]. rewrite (a_stack _ _ _ _ _ _ _ AT1) in T2. cbn [app] in T2. rewrite ST in T2. exact T2.
  - rewrite D. eapply ex_macro; [exact R|exact R1|]. destruct NR1 as [<-|(d & d' & -> & ED & DD & ED')]; [exact X2|]. rewrite DD in X2.
    inversion X2; subst; [|destruct ED'|destruct ED']. apply ex_value. intros (z & zs & [= ->]). destruct ED.
Qed.

(** ** A call of a macro *)
Lemma impl_macro_inv F ev v env s o w s' x xs f s2 g : quit s = false -> data_at s v = Some (DVec (x :: xs)) -> eval_impl F ev v env false s = Ret ((o, w), s') ->
  ev x env (inside v env s) = Ret (Some f, s2) -> data_at s2 f = Some (DMac g) ->
  w = true /\ exists addr s4 st, call_function F ev v addr f env true true (with_stack s2 (f :: stack s2)) = Ret (o, s4) /\ s' = with_stack s4 st.
Proof.
  intros QT DV E CF DF. unfold eval_impl in E. binv E. unfold read in E0. injection E0 as <- <-. rewrite QT in E. binv E. apply get_inv in E0 as (-> & DE). destruct x0; try discriminate.
  binv E. apply push_inv in E0 as ->. binv E. apply push_inv in E0 as ->. cbn [stack with_stack] in E. binv E. apply get_cell_inv in E0 as (-> & L). cbn in L.
  assert (EC : cdata x2 = DVec (x :: xs)) by (unfold data_at in DV; rewrite L in DV; now injection DV). rewrite EC in E. unfold eval_form in E. binv E. rename E0 into EF.
  pose proof (eq_trans (eq_sym EF) CF) as EQ. injection EQ as -> ->. clear EF.
  apply bind_inv in E as (u1 & sa & Ea & E). apply push_inv in Ea as ->. apply bind_inv in E as (df & sb & Eb & E). apply get_inv in Eb as (-> & DF'). rewrite (data_same s2) in DF' by reflexivity. rewrite DF in DF'. injection DF' as <-.
  apply bind_inv in E as ([r1 w2] & sc & EB & E). apply bind_inv in E as (u2 & sd & Ed & E). apply pops_all in Ed as (st & ->). injection E as <- <- <-.
  binv EB. injection EB as <- <- <-. split; [reflexivity|]. exists (caddr x2). eexists _, st. split; [exact E|reflexivity].
Qed.
Section Form.
Context (fuel : nat) (env v x f : ref) (s s2 s' : vm) (o : option ref) (C : calls_form fuel env v s x f s2 o s').
Notation s3 := (with_stack s2 (f :: stack s2)).
Lemma eval_macro_whole g : data_at s2 f = Some (DMac g) -> exists evs r od s4 evs' r',
  trace (Eval.eval (S fuel)) (env :: v :: stack s) s (SpecTrace.Eval x env (inside v env s) (Some f) s2 :: evs) s4 /\ macro_run v f s2 evs r od /\ data_at s4 r = od /\
  trace (Eval.eval (S fuel)) (stack s) s4 evs' s' /\ expansion_run env r od evs' r' /\ o = Some r'.
Proof.
  intros DF. pose proof (form_operator _ _ _ _ _ _ _ _ _ C) as T3. pose proof (form_stack _ _ _ _ _ _ _ _ _ C) as STK. pose proof C as [SA LV LE QT (xs & DV) CF EV].
  assert (FK : exists k, fuel = S k) by (destruct fuel as [|k]; [discriminate CF|eauto]). destruct FK as (k & FK).
  change (Eval.eval (S fuel) v env s) with (eval_loop fuel fuel (Eval.eval fuel) v env false s) in EV. rewrite FK in EV at 1. cbn [eval_loop] in EV.
  apply bind_inv in EV as ([o1 w] & s1 & EI & EV). destruct (impl_macro_inv _ _ _ _ _ _ _ _ _ _ _ _ _ QT DV EI CF DF) as (-> & addr & s4 & st & EC & ->). cbn [negb] in EV.
  apply bind_inv in EV as (r & sr & N & EV). apply need_inv in N as (-> & ->).
  pose proof (proj1 (sane_inv _) SA) as A. assert (GV : good [] s v) by (split; [exact LV|easy]). assert (GE : good [] s env) by (split; [exact LE|easy]).
  pose proof (wp_ret_inv _ _ _ _ _ (eval_impl_ok true (Eval.eval fuel) (eval_safe true fuel) fuel [] s v env false A GV GE) EI) as AT. unfold ok2 in AT. cbn [fst] in AT.
  pose proof (call_macro_spec _ (eval_safe true fuel) fuel [] s3 v f env addr (tr_inv _ _ _ _ _ _ _ T3) ltac:(rewrite STK; cbn; auto) ltac:(rewrite STK; cbn; auto) ltac:(easy) ltac:(easy)) as W.
  destruct (wp_ret_inv _ _ _ _ _ W EC) as (evs & T4 & R). clear W. specialize (R r eq_refl).
  assert (K : exists evs' r', o = Some r' /\ trace (Eval.eval (S fuel)) (stack s) (with_stack s4 st) evs' s' /\ expansion_run env r (data_at s4 r) evs' r').
  { pose proof (follow_spec k env k r (with_stack s4 st) o s' (a_inv _ _ _ _ _ _ _ AT)) as FS. cbv zeta in FS. rewrite <- FK in FS. 
    assert (ST : stack (with_stack s4 st) = stack s) by exact (a_stack _ _ _ _ _ _ _ AT). rewrite ST in FS. apply FS; clear FS.
    - eapply at_good; [exact AT|left; reflexivity|now right].
    - pose proof (a_next _ _ _ _ _ _ _ AT). lia.
    - exact EV. }
  destruct K as (evs' & r' & EO & TF & X). exists evs, r, (data_at s4 r), (with_stack s4 st), evs', r'. split; [|split; [|split; [reflexivity|auto]]].
  - apply (trace_more fuel); [lia|]. apply t_event; [apply inside_keeps|exact CF|]. cbn [after]. eapply trace_before; [|eapply trace_after; [eapply trace_incl; [|exact (tr_tr _ _ _ _ _ _ _ T4)]|]].
    + apply keeps_same; reflexivity.
    + rewrite STK. intros y J. now right.
    + apply keeps_same; reflexivity.
  - clear - R. destruct R as [l g' ext a s5 r s6 R1 R2 R3 R4 R5|l g' ext a s5 s6 evs t od e r od' R1 R2 R3 R4 R5 R6 R7]; [eapply ma_refused; eauto|eapply ma_run; eauto].
Qed.
End Form.
