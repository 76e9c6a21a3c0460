(** From the special forms to the evaluation of a form whose operator is one. *)
From Coq Require Import NArith ZArith Bool Lia Arith List String.
From Coq Require Import ZifyBool ZifyNat ZifyN.
From Verif Require Import Base OString HMap Heap SpecHeap GcProofs VmProofs ValueOps Env Copy Builtins Specials Eval SafeBase SafeRead SafeLib SafeBuiltins SafeSpecials SafeEval SpecTrace SpecSpecial SpecForm TraceProofs SpecialProofs.
Import ListNotations.
Local Open Scope N_scope.

Lemma vec_push_run a x s c l : lookup (all s) a = Some c -> cdata c = DVec l ->
  vec_push a x s = Ret (tt, with_all s (update (all s) a (mkCell (DVec (l ++ [x])) (cdoc c) (cdocvec c) (cmark c) (caddr c)))).
Proof.
  intros L E. unfold vec_push, bind, get, bind, get_cell, ret. rewrite L. cbn [obind fst snd]. rewrite E. unfold put, bind, get_cell. rewrite L. cbn [obind fst snd].
  unfold put_cell. now rewrite L.
Qed.
(** ** The vector of the arguments *)
Section Own.
Context (ev : evaluator) (EV : ev_ok true ev) (fuel : nat).
Context (P : list ref) (s0 : vm) (A0 : Inv P s0).
Implicit Types (G : ref -> Prop) (s : vm) (evs : list event).
Notation Own := (SafeEval.Own true).
(** [a] holds [l]; [evs] has happened since [s0]. *)
Record OT (a : ref) (l : list ref) G evs s : Prop := {
  ot_own : Own P s0 a G s;
  ot_vec : exists c, lookup (all s) a = Some c /\ cdata c = DVec l;
  ot_tr : trace ev (stack s0) s0 evs s;
  ot_same : evs = [] -> forall x, reach s0 x -> lookup (all s) x = lookup (all s0) x
}.
Lemma ot_unreach a l G evs s x : OT a l G evs s -> reachable (all s) (stack s0) x -> x <> a.
Proof.
  intros O R. destruct R as [x J|r c x R L F].
  - intros ->. apply (i_stack _ _ _ A0) in J. pose proof (o_new _ _ _ _ _ _ (ot_own _ _ _ _ _ O)). lia.
  - intros ->. apply (i_refs _ _ _ (o_inv _ _ _ _ _ _ (ot_own _ _ _ _ _ O)) r c a L (or_introl F)). now left.
Qed.
Lemma ot_bind {X} (K : ref -> M X) (Q : X -> vm -> Prop) : (forall a s', OT a [] (fun _ => False) [] s' -> wp (K a) Q s') ->
  wp (a <- alloc (DVec []) ;; push a ;;; K a) Q s0.
Proof.
  intros W. pose proof (at_start true true P s0 A0) as H. apply wp_bind. 
  apply (r_alloc true true P s0 (DVec []) [] _ _ _ H); [easy|easy|]. intros a s1 H1 AL MA.
  pose proof (make_private true P s0 (DVec []) a s0 [] _ s1 (at_loud _ _ _ _ _ _ _ H) AL) as A1.
  apply wp_bind. unfold SafeBase.wp at 1, push. apply W.
  assert (W1 : At true P s0 [a] (eq a) (with_stack s1 (a :: stack s1))).
  { exact (r_push true true P s0 a [] _ (fun _ s' => At true P s0 [a] (eq a) s') s1 H1 ltac:(has) (fun s' H' => H')). }
  destruct (al_cell _ _ _ _ _ _ AL) as (ad & E). constructor.
  - constructor; [|exact A1| |easy|].
    + eapply at_weaken; [eapply at_loud; exact W1|easy].
    + exists (mkCell (DVec []) None None false ad), []. auto.
    + apply (al_old _ _ _ _ _ _ AL).
  - exists (mkCell (DVec []) None None false ad). auto.
  - apply t_done. eapply keeps_at; exact W1.
  - intros _ x R. apply (a_same _ _ _ _ _ _ _ W1). auto.
Qed.
Lemma ot_weaken a l G (G' : ref -> Prop) evs s : OT a l G evs s -> (forall x, G' x -> good (a :: P) s x) -> OT a l G' evs s.
Proof. intros [A B C D] K. constructor; auto. eapply own_weaken; eauto. Qed.
Lemma ot_push a l G evs x s : OT a l G evs s -> good (a :: P) s x -> wp (vec_push a x) (fun _ s' => OT a (l ++ [x]) G evs s' /\ forall y, y <> a -> lookup (all s') y = lookup (all s) y) s.
Proof.
  intros O GX. pose proof (own_push true P s0 a G x s (ot_own _ _ _ _ _ O) GX) as W.
  destruct (ot_vec _ _ _ _ _ O) as (c & L & E). unfold SafeBase.wp in *. rewrite (vec_push_run a x s c l L E) in *.
  split; [constructor|].
  - exact W.
  - cbn. rewrite lookup_update, N.eqb_refl, L. cbn. eauto.
  - eapply trace_after; [exact (ot_tr _ _ _ _ _ O)|]. split; [|auto 9]. cbn. intros y cy R Ly. exists cy. split; [|apply alike_refl].
    rewrite lookup_update. destruct (N.eqb_spec a y) as [<-|]; [|exact Ly]. now elim (ot_unreach _ _ _ _ _ _ O R).
  - intros EE y R. cbn. rewrite lookup_update. destruct (N.eqb_spec a y) as [<-|]; [|now apply (ot_same _ _ _ _ _ O)].
    exfalso. apply (reach_lt true P) in R; [|exact A0]. pose proof (o_new _ _ _ _ _ _ (ot_own _ _ _ _ _ O)). lia.
  - intros y NY. cbn. rewrite lookup_update. destruct (N.eqb_spec a y); congruence.
Qed.
Lemma ot_stack a l G evs s : OT a l G evs s -> stack s = a :: stack s0.
Proof. intros O. eapply own_stack. exact (ot_own _ _ _ _ _ O). Qed.
(** A call that leaves [a] alone. *)
Lemma ot_call q a l G evs s G' evs' s' : OT a l G evs s -> At q (a :: P) s [] G' s' -> trace ev (stack s) s evs' s' -> (evs ++ evs' = [] -> forall x, reach s0 x -> lookup (all s') x = lookup (all s0) x) -> OT a l G' (evs ++ evs') s'.
Proof.
  intros O A T S. constructor.
  - eapply own_call; [exact (ot_own _ _ _ _ _ O)|exact A].
  - destruct (ot_vec _ _ _ _ _ O) as (c & L & E). exists c. split; [|exact E]. rewrite (a_same _ _ _ _ _ _ _ A); [exact L|]. left. now left.
  - eapply trace_app; [exact (ot_tr _ _ _ _ _ O)|]. eapply trace_incl; [|exact T]. rewrite (ot_stack _ _ _ _ _ O). intros y; now right.
  - exact S.
Qed.
Lemma ot_call1 a l G evs s G' evs' s' : OT a l G evs s -> Tr ev (a :: P) s [] G' evs' s' -> evs' <> [] -> OT a l G' (evs ++ evs') s'.
Proof. intros O [A T] N. eapply ot_call; eauto. intros E. now apply app_eq_nil in E as (_ & ->). Qed.
Lemma ot_start a l G evs s : OT a l G evs s -> Tr ev (a :: P) s [] G [] s.
Proof. intros O. eapply tr_weaken; [apply tr_start; apply (ot_own _ _ _ _ _ O)|]. exact (o_good _ _ _ _ _ _ (ot_own _ _ _ _ _ O)). Qed.
Lemma ot_pop a l r G evs s (Q : ref -> vm -> Prop) : OT a l G evs s -> G r ->
  (forall s', Tr ev P s0 [] (eq r) evs s' -> all s' = all s -> Q r s') -> wp (pop a ;;; ret r) Q s.
Proof.
  intros O GR K. assert (T : Tr ev P s0 [a] G evs s) by (split; [apply (ot_own _ _ _ _ _ O)|apply O]).
  apply wp_bind. eapply tr_pop; [exact T|]. intros s1 H1 E1. apply wp_ret. apply K; [|exact E1]. eapply tr_weaken; [exact H1|]. intros y <-. eapply (a_good _ _ _ _ _ _ _ (tr_at _ _ _ _ _ _ _ H1)). now right.
Qed.
Lemma ot_at a l G evs s x : OT a l G evs s -> evs = [] -> reach s0 x -> data_at s x = data_at s0 x.
Proof. intros O E R. unfold data_at. now rewrite (ot_same _ _ _ _ _ O E x R). Qed.

(** ** The arguments of a special *)
Lemma raw_args_spec a : forall l l0 G s, OT a l0 G [] s -> (forall x, In x l -> G x /\ reach s0 x) ->
  wp (raw_args a l) (fun o s' => match o with
     | Some x => exists l1 l2 d, OT a (l0 ++ l1) (eq x) [] s' /\ l = l1 ++ x :: l2 /\ no_error s0 l1 /\ data_at s0 x = Some d /\ is_err d /\ data_at s' x = Some d
     | None => OT a (l0 ++ l) (fun _ => False) [] s' /\ no_error s0 l end) s.
Proof.
  induction l as [|x l IH]; intros l0 G s O K; cbn [raw_args].
  - apply wp_ret. rewrite app_nil_r. split; [eapply ot_weaken; [exact O|easy]|intros x d []].
  - destruct (K x (or_introl eq_refl)) as (GX & RX). assert (Gx : good (a :: P) s x) by (now apply (o_good _ _ _ _ _ _ (ot_own _ _ _ _ _ O))).
    apply wp_bind, t_is_error. intros d b DX EB. rewrite (ot_at _ _ _ _ _ x O eq_refl RX) in DX. destruct b.
    + apply wp_ret. exists [], l, d. rewrite app_nil_r. split; [eapply ot_weaken; [exact O|now intros y <-]|]. split; [reflexivity|]. split; [intros y dy []|]. split; [exact DX|]. split; [now apply EB|]. now rewrite (ot_at _ _ _ _ _ x O eq_refl RX).
    + assert (NX : ~ is_err d) by (intros F; apply EB in F; discriminate).
      apply wp_bind. eapply wp_mono; [eapply ot_push; [exact O|exact Gx]|]. intros u s1 (O1 & _). eapply wp_mono; [eapply IH; [exact O1|intros y J; apply K; now right]|].
      intros o s2 H. destruct o as [y|].
      * destruct H as (l1 & l2 & dy & H1 & H2 & H3 & H4 & H5 & H6). exists (x :: l1), l2, dy. rewrite <- app_assoc in H1. split; [exact H1|]. split; [cbn; congruence|]. split; [|auto 9].
        intros z dz [<-|J] DZ; [rewrite DX in DZ; injection DZ as <-; exact NX|]. now apply (H3 z dz).
      * destruct H as (H1 & H2). rewrite <- app_assoc in H1. split; [exact H1|]. intros z dz [<-|J] DZ; [rewrite DX in DZ; injection DZ as <-; exact NX|]. now apply (H2 z dz).
Qed.
Lemma no_error_same s s' l : (forall x, In x l -> data_at s' x = data_at s x) -> no_error s l -> no_error s' l.
Proof. intros K H x d J. rewrite K by exact J. now apply H. Qed.

(** ** The call of a special *)
Definition special_does (p : special) (env : ref) (R : vm -> list ref -> list event -> ref -> option data -> Prop) : Prop :=
  forall P a s0 c0 l, In a P -> lookup (all s0) a = Some c0 -> cdata c0 = DVec l -> good P s0 env -> In env (stack s0) -> Inv P s0 ->
  wp (special_call fuel ev p a env) (ends ev P s0 [] (R s0 l)) s0.
Context (v env : ref) (IV : In v (stack s0)) (IE : In env (stack s0)) (NE : ~ In env P) (NV : ~ In v P).
Lemma call_special_spec addr p R : special_does p env R ->
  (forall s s' l evs r od, (forall x, reachable (all s) l x -> lookup (all s') x = lookup (all s) x) -> nextId s' <= nextId s -> R s l evs r od -> R s' l evs r od) ->
  wp (call_special fuel ev v addr p env) (fun r s' => exists l0 evs od, data_at s0 v = Some (DVec l0) /\ Tr ev P s0 [] (eq r) evs s' /\ form_run (R s0) s0 (tl l0) evs r od /\ result_is s' r od) s0.
Proof.
  intros SD RS. unfold call_special. apply ot_bind. intros a s O. apply wp_bind.
  assert (W : wp (form_at v addr) (fun l s' => s' = s /\ data_at s0 v = Some (DVec l) /\ forall x, In x l -> good (a :: P) s x /\ reach s0 x) s).
  { unfold form_at. apply wp_bind, wp_get_at; [discriminate|]. intros c L _. rewrite (ot_same _ _ _ _ _ O eq_refl) in L by (now apply re_root). destruct (cdata c) eqn:E; try apply wp_undef. apply wp_ret.
    split; [reflexivity|]. split; [unfold data_at; rewrite L; cbn; now rewrite E|]. intros x J. split; [|eapply (reach_child s0 v); [now apply re_root|exact L|now rewrite E]].
    rewrite <- (ot_same _ _ _ _ _ O eq_refl) in L by (now apply re_root). eapply (good_dref true); [apply (ot_own _ _ _ _ _ O)|exact L|now rewrite E]. }
  eapply wp_mono; [exact W|]. clear W. intros l s' (-> & DV & GL).
  apply wp_bind. assert (IT : forall x, In x (tl l) -> In x l) by (intros x J; destruct l; [exact J|now right]).
  eapply wp_mono; [eapply (raw_args_spec a (tl l) [] (fun x => In x l)); [eapply ot_weaken; [exact O|intros x J; now apply GL]|intros x J; split; [auto|now apply GL, IT]]|].
  clear O. intros o s1 H. apply wp_bind. destruct o as [x|].
  - destruct H as (l1 & l2 & d & O & EL & NE1 & D1 & E1 & D2). apply wp_ret. eapply ot_pop; [exact O|reflexivity|]. intros s2 H2 E2. exists l, [], (Some d).
    split; [exact DV|]. split; [exact H2|]. split; [eapply form_bad; eauto|]. apply result_refl. now rewrite (data_same _ _ _ E2).
  - destruct H as (O & NE1). cbn [app] in O. destruct (ot_vec _ _ _ _ _ O) as (c & L & E). pose proof (ot_own _ _ _ _ _ O) as OW. destruct (own_old _ _ _ _ _ _ env OW IE NE) as (GE & KE).
    assert (IE1 : In env (stack s1)) by (rewrite (ot_stack _ _ _ _ _ O); now right).
    apply wp_bind. eapply wp_mono; [exact (SD (a :: P) a s1 c (tl l) (or_introl eq_refl) L E GE IE1 (o_inv _ _ _ _ _ _ OW))|].
    intros r s2 (evs & od & T2 & R2 & D2). cbn [app] in T2.
    assert (RD : R s0 (tl l) evs r od).
    { assert (RR : forall x, reachable (all s1) (tl l) x -> reach s0 x).
      { intros x R3. induction R3 as [x J|x cx y R3 IH Lx Fx]; [now apply GL, IT|]. rewrite (ot_same _ _ _ _ _ O eq_refl x IH) in Lx. eapply re_step; eauto. }
      eapply RS; [| |exact R2]; [|exact (a_next _ _ _ _ _ _ _ (o_at _ _ _ _ _ _ OW))]. intros x R3. symmetry. now apply (ot_same _ _ _ _ _ O eq_refl), RR. }
    apply wp_bind. eapply (tr_annotate ev (a :: P) s1); [exact T2|eapply (a_good _ _ _ _ _ _ _ (tr_at _ _ _ _ _ _ _ T2)); reflexivity|]. intros s3 T3 D3. apply wp_ret. apply wp_bind.
    assert (T : Tr ev P s0 [a] (eq r) evs s3).
    { split.
      - apply (o_at _ _ _ _ _ _ (own_call _ _ _ _ _ _ _ _ _ OW (tr_at _ _ _ _ _ _ _ T3))).
      - eapply trace_before; [|eapply trace_incl; [|exact (tr_tr _ _ _ _ _ _ _ T3)]].
        + pose proof (ot_tr _ _ _ _ _ O) as TT. inversion TT. assumption.
        + rewrite (ot_stack _ _ _ _ _ O). intros y; now right. }
    eapply tr_pop; [exact T|]. intros s4 T4 E4. apply wp_ret. exists l, evs, od. split; [exact DV|]. split; [eapply tr_eq; [exact T4|now right]|]. split; [now apply form_fine|].
    eapply result_same; [exact E4|]. unfold result_is in *. destruct od as [d|]; [|exact I]. destruct D2 as (d2 & D2 & TD). destruct (D3 _ D2) as (d3 & D4 & K1 & K2). exists d3. split; [exact D4|].
    destruct TD as [->|(F1 & F2)].
    + destruct (is_error_data d) eqn:ED; [right; apply is_error_iff in ED; auto|left; apply K2; intros F; apply is_error_iff in F; congruence].
    + right. auto.
Qed.
End Own.

(** ** Evaluation of a form *)
Lemma bind_inv {X Y} (m : M X) (k : X -> M Y) s y s' : bind m k s = Ret (y, s') -> exists x s1, m s = Ret (x, s1) /\ k x s1 = Ret (y, s').
Proof. unfold bind. destruct (m s) as [[x s1]| | | | |]; cbn; try discriminate. eauto. Qed.
Ltac binv H := let x := fresh "x" in let s := fresh "s" in let E := fresh "E" in apply bind_inv in H as (x & s & E & H).
Lemma wp_ret_inv {X} (m : M X) (Q : X -> vm -> Prop) s x s' : wp m Q s -> m s = Ret (x, s') -> Q x s'.
Proof. unfold SafeBase.wp. intros W E. rewrite E in W. exact W. Qed.
Lemma get_inv r s d s' : get r s = Ret (d, s') -> s' = s /\ data_at s r = Some d.
Proof. unfold get, bind, get_cell, data_at. destruct (lookup (all s) r) as [c|]; cbn; [|discriminate]. intros [= <- <-]. auto. Qed.
Lemma get_cell_inv r s c s' : get_cell r s = Ret (c, s') -> s' = s /\ lookup (all s) r = Some c.
Proof. unfold get_cell. destruct (lookup (all s) r) as [c'|]; [|discriminate]. intros [= <- <-]. auto. Qed.
Lemma push_inv r s u s' : push r s = Ret (u, s') -> s' = with_stack s (r :: stack s).
Proof. unfold push. now intros [= _ <-]. Qed.
Lemma need_inv o s r s' : need o s = Ret (r, s') -> s' = s /\ o = Some r.
Proof. unfold need. destruct o; [|discriminate]. intros [= <- <-]. auto. Qed.
Lemma pops_all l : forall s u s', pops l s = Ret (u, s') -> exists st, s' = with_stack s st.
Proof.
  induction l as [|r l IH]; intros s u s' H; unfold pops in H; cbn [iterM] in H.
  - injection H as _ <-. exists (stack s). now destruct s.
  - binv H. unfold pop in E. destruct (stack s) as [|y st]; [discriminate|]. destruct (y =? r); [|discriminate]. injection E as _ <-. destruct (IH _ _ _ H) as (st' & ->). now exists st'.
Qed.
Lemma eval_form_inv fuel v env s o s' x xs : quit s = false -> data_at s v = Some (DVec (x :: xs)) -> Eval.eval (S fuel) v env s = Ret (o, s') ->
  exists fo s2 addr, Eval.eval fuel x env (inside v env s) = Ret (fo, s2) /\
  (fo = None -> o = None /\ exists st, s' = with_stack s2 st) /\
  (forall f p, fo = Some f -> data_at s2 f = Some (DSpecial p) -> exists r s4 st, call_special fuel (Eval.eval fuel) v addr p env (with_stack s2 (f :: stack s2)) = Ret (r, s4) /\ o = Some r /\ s' = with_stack s4 st) /\
  (forall f p, fo = Some f -> data_at s2 f = Some (DBuiltin p) -> exists r s4 st, call_builtin fuel (Eval.eval fuel) v addr f env (with_stack s2 (f :: stack s2)) = Ret (r, s4) /\ o = Some r /\ s' = with_stack s4 st) /\
  (forall f g, fo = Some f -> data_at s2 f = Some (DFun g) -> exists s4 st, call_function fuel (Eval.eval fuel) v addr f env false false (with_stack s2 (f :: stack s2)) = Ret (o, s4) /\ s' = with_stack s4 st).
Proof.
  intros QT DV H. cbn [Eval.eval] in H. destruct fuel as [|fuel]; [discriminate|]. set (F := S fuel) in *. cbn [eval_loop] in H. binv H. destruct x0 as [o1 w1].
  unfold eval_impl in E. binv E. unfold read in E0. injection E0 as <- <-. rewrite QT in E. binv E. apply get_inv in E0 as (-> & DE). destruct x0; try discriminate.
  binv E. apply push_inv in E0 as ->. binv E. apply push_inv in E0 as ->. cbn [stack with_stack] in E. binv E. apply get_cell_inv in E0 as (-> & L). cbn in L.
  assert (EC : cdata x2 = DVec (x :: xs)) by (unfold data_at in DV; rewrite L in DV; now injection DV). rewrite EC in E. unfold eval_form in E. binv E. rename x3 into fo. rename E0 into EF.
  exists fo, s1, (caddr x2). split; [exact EF|]. destruct fo as [f|].
  - split; [discriminate|]. apply bind_inv in E as (u1 & sa & Ea & E). apply push_inv in Ea as ->. apply bind_inv in E as (df & sb & Eb & E). apply get_inv in Eb as (-> & DF). rewrite (data_same s1) in DF by reflexivity.
    apply bind_inv in E as ([r1 w2] & sc & EB & E). apply bind_inv in E as (u2 & sd & Ed & E). apply pops_all in Ed as (st & ->). injection E as <- <- <-.
    split; [|split].
    + intros f' p [= <-] D2. rewrite D2 in DF. injection DF as <-. binv EB. injection EB as <- <- <-. cbn [negb] in H. injection H as <- <-. eauto 7.
    + intros f' p [= <-] D2. rewrite D2 in DF. injection DF as <-. binv EB. injection EB as <- <- <-. cbn [negb] in H. injection H as <- <-. eauto 7.
    + intros f' g [= <-] D2. rewrite D2 in DF. injection DF as <-. binv EB. injection EB as <- <- <-. cbn [negb] in H. injection H as <- <-. eauto 7.
  - split; [|split; [|split]; discriminate]. intros _. binv E. apply pops_all in E0 as (st & ->). injection E as <- <- <-. cbn [negb] in H. injection H as <- <-. eauto.
Qed.

(** ** A form whose operator is a special *)
Lemma inside_inv v env s : sane s -> v < nextId s -> env < nextId s -> Inv [] (inside v env s).
Proof.
  intros S LV LE. apply sane_inv in S. pose proof (inv_push true [] s v S LV ltac:(discriminate)) as A.
  exact (inv_push true [] (with_stack s (v :: stack s)) env A LE ltac:(discriminate)).
Qed.
Lemma inside_keeps base v env s : keeps base s (inside v env s).
Proof. apply keeps_same; reflexivity. Qed.
Definition stable (R : vm -> list ref -> list event -> ref -> option data -> Prop) : Prop :=
  forall s s' l evs r od, (forall x, reachable (all s) l x -> lookup (all s') x = lookup (all s) x) -> nextId s' <= nextId s -> R s l evs r od -> R s' l evs r od.
Lemma agree_data s s' l : (forall x, reachable (all s) l x -> lookup (all s') x = lookup (all s) x) -> forall x, In x l -> data_at s' x = data_at s x.
Proof. intros K x J. unfold data_at. rewrite K by (now apply re_root). reflexivity. Qed.
Lemma eval_special_spec fuel p env R : (forall ev, ev_ok true ev -> special_does ev fuel p env R) -> stable R ->
  forall v s o s' x xs f s2, sane s -> v < nextId s -> env < nextId s -> quit s = false -> data_at s v = Some (DVec (x :: xs)) ->
  Eval.eval (S fuel) v env s = Ret (o, s') -> Eval.eval fuel x env (inside v env s) = Ret (Some f, s2) -> data_at s2 f = Some (DSpecial p) ->
  exists r l0 evs od, o = Some r /\ data_at s2 v = Some (DVec l0) /\
    trace (Eval.eval fuel) (env :: v :: stack s) s (SpecTrace.Eval x env (inside v env s) (Some f) s2 :: evs) s' /\
    form_run (R s2) s2 (tl l0) evs r od /\ result_is s' r od.
Proof.
  intros SD ST v s o s' x xs f s2 SA LV LE QT DV EV CF DF.
  destruct (eval_form_inv fuel v env s o s' x xs QT DV EV) as (fo & s2' & addr & EF & _ & K & _ & _).
  rewrite CF in EF. injection EF as <- <-. destruct (K f p eq_refl DF) as (r & s4 & st & EC & -> & ->). clear K.
  pose proof (inside_inv v env s SA LV LE) as A1. pose proof (eval_safe true fuel) as EVO.
  assert (GX : good [] (inside v env s) x).
  { unfold data_at in DV. destruct (lookup (all s) v) as [c|] eqn:L; [|discriminate]. injection DV as EC'. eapply (good_dref true []); [exact A1|cbn; exact L|rewrite EC'; now left]. }
  assert (GE : good [] (inside v env s) env) by (split; [exact LE|easy]).
  assert (T2 : Tr (Eval.eval fuel) [] (inside v env s) [] (eq f) [SpecTrace.Eval x env (inside v env s) (Some f) s2] s2).
  { pose proof (tr_eval (Eval.eval fuel) EVO [] (inside v env s) x env [] _ [] (fun o s' => Tr (Eval.eval fuel) [] (inside v env s) [] (fun r => o = Some r) [SpecTrace.Eval x env (inside v env s) o s'] s') _ (tr_start (Eval.eval fuel) [] _ A1) GX GE (fun o s' T => T)) as W.
    eapply tr_eq; [exact (wp_ret_inv _ _ _ _ _ W CF)|reflexivity]. }
  set (s3 := with_stack s2 (f :: stack s2)) in *.
  assert (T3 : Tr (Eval.eval fuel) [] (inside v env s) [f] (eq f) [SpecTrace.Eval x env (inside v env s) (Some f) s2] s3).
  { pose proof (t_push (Eval.eval fuel) [] (inside v env s) f [] _ _ (fun _ s' => Tr (Eval.eval fuel) [] (inside v env s) [f] (eq f) [SpecTrace.Eval x env (inside v env s) (Some f) s2] s') _ T2 eq_refl (fun s' T _ => T)) as W. exact W. }
  pose proof (tr_at _ _ _ _ _ _ _ T3) as A3. assert (STK : stack s3 = f :: env :: v :: stack s) by (rewrite (a_stack _ _ _ _ _ _ _ A3); reflexivity).
  pose proof (call_special_spec (Eval.eval fuel) fuel [] s3 (a_inv _ _ _ _ _ _ _ A3) v env ltac:(rewrite STK; cbn; auto) ltac:(rewrite STK; cbn; auto) ltac:(easy) addr p R (SD _ EVO) ST) as W.
  destruct (wp_ret_inv _ _ _ _ _ W EC) as (l0 & evs & od & D3 & T4 & FR & RD). clear W.
  exists r, l0, evs, od. split; [reflexivity|]. split; [exact D3|]. split; [|split].
  - apply t_event; [apply inside_keeps|exact CF|]. cbn [after]. eapply trace_before; [|eapply trace_after; [eapply trace_incl; [|exact (tr_tr _ _ _ _ _ _ _ T4)]|]].
    + apply keeps_same; reflexivity.
    + rewrite STK. intros y J. now right.
    + apply keeps_same; reflexivity.
  - destruct FR as [l1 y l2 d F1 F2 F3 F4|evs r od F1 F2]; [eapply form_bad; eauto|]. apply form_fine; [exact F1|]. eapply ST; [| |exact F2]; [intros y _; reflexivity|cbn; lia].
  - exact RD.
Qed.
