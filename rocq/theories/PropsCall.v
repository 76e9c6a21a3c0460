(** C52, C54, C59: calls of builtins and functions.  See SpecCall.v. *)
From Coq Require Import NArith ZArith Bool Lia Arith String List.
From Verif Require Import Base HMap Heap SpecHeap ValueOps Env Builtins Eval Read Boot Run SafeBase SpecTrace SpecSpecial SpecForm SpecCall TraceProofs SpecialEval CallProofs CallForms.
Import ListNotations.
Local Open Scope N_scope.
Local Open Scope string_scope.
Local Open Scope list_scope.

(** ** C52 *)

(** What the call of a builtin consists of. *)
Theorem C52_builtin_call : forall fuel env v s x f s2 o s' p, calls_form fuel env v s x f s2 o s' -> data_at s2 f = Some (DBuiltin p) ->
  exists r evs od, o = Some r /\
    trace (Eval.eval fuel) (env :: v :: stack s) s (SpecTrace.Eval x env (inside v env s) (Some f) s2 :: evs) s' /\
    builtin_run env v f s2 evs r od /\ result_is s' r od.
Proof. intros fuel env v s x f s2 o s' p C D. destruct (eval_builtin_spec _ _ _ _ _ _ _ _ _ C p D) as (r & evs & od & A & B & E & F & _). exists r, evs, od. auto. Qed.
Print Assumptions C52_builtin_call.
(** What the call of a function consists of. *)
Theorem C52_function_call : forall fuel env v s x f s2 o s' g, calls_form fuel env v s x f s2 o s' -> data_at s2 f = Some (DFun g) ->
  exists evs oo, trace (Eval.eval fuel) (env :: v :: stack s) s (SpecTrace.Eval x env (inside v env s) (Some f) s2 :: evs) s' /\
    function_run env v f s2 evs oo /\
    match oo with None => o = None | Some (r, od) => o = Some r /\ result_is s' r od end.
Proof. intros fuel env v s x f s2 o s' g C D. exact (eval_function_spec _ _ _ _ _ _ _ _ _ C g D). Qed.
Print Assumptions C52_function_call.

Lemma args_error_last env v s i evs xs o : args_run env v s i evs xs o ->
  (forall e, In e evs -> exists y r d, gives e y env r d) /\
  forall evs1 e evs2 y env' r d, evs = evs1 ++ e :: evs2 -> gives e y env' r d -> is_err d -> evs2 = [] /\ o = Some (r, d).
Proof.
  intros R. induction R as [s i l D N|s i l y e r d evs xs o D N GV ND R IH|s i l y e r d D N GV ED].
  - split; [easy|]. intros evs1 e evs2 y env1 r d E. destruct evs1; discriminate.
  - destruct IH as (I1 & I2). split; [intros e' [<-|J]; eauto|]. intros [|e0 evs1] e' evs2 y' env' r' d' E G' ED; cbn in E; injection E as -> E.
    + destruct GV as (a1 & a2 & -> & X2). destruct G' as (b1 & b2 & [= <- <- <- <- <-] & Y2). rewrite X2 in Y2. injection Y2 as <-. contradiction.
    + eapply I2; eauto.
  - split; [intros e' [<-|[]]; eauto|]. intros [|e0 evs1] e' evs2 y' env' r' d' E G' ED'; cbn in E; injection E as -> E.
    + destruct GV as (a1 & a2 & -> & X2). destruct G' as (b1 & b2 & [= <- <- <- <- <-] & Y2). rewrite X2 in Y2. injection Y2 as <-. auto.
    + destruct evs1; discriminate.
Qed.
Lemma args_not_error env v s i evs xs : args_run env v s i evs xs None -> forall e y env' r d, In e evs -> gives e y env' r d -> ~ is_err d.
Proof.
  intros R e y env' r d J G' ED. apply in_split in J as (evs1 & evs2 & E). destruct (args_error_last _ _ _ _ _ _ _ R) as (_ & K). destruct (K _ _ _ _ _ _ _ E G' ED) as (_ & F). discriminate.
Qed.
Lemma body_in_ext f ext s i last evs o : fbody_run f ext s i last evs o -> forall e, In e evs -> (exists y r d, gives e y ext r d) \/ exists a b, e = Pend None a b.
Proof. intros R. induction R; intros e' J; cbn in J; [easy|destruct J as [<-|J]; eauto 6|destruct J as [<-|[]]; eauto 6|destruct J as [<-|[<-|[]]]; eauto 6]. Qed.

(** The property: an argument whose value is an error is the last thing
    evaluated, so that neither later arguments nor the callee run, and it is the
    result. *)
Theorem C52_argument_error : forall fuel env v s x f s2 o s', calls_form fuel env v s x f s2 o s' ->
  (exists p, data_at s2 f = Some (DBuiltin p)) \/ (exists g, data_at s2 f = Some (DFun g)) ->
  exists evs, trace (Eval.eval fuel) (env :: v :: stack s) s (SpecTrace.Eval x env (inside v env s) (Some f) s2 :: evs) s' /\
    forall evs1 e evs2 y r d, evs = evs1 ++ e :: evs2 -> gives e y env r d -> is_err d ->
      evs2 = [] /\ (forall e', In e' evs1 -> exists y' r' d', gives e' y' env r' d') /\
      o = Some r /\ exists d', data_at s' r = Some d' /\ is_err d'.
Proof.
  intros fuel env v s x f s2 o s' C [(p & D)|(g & D)].
  - destruct (C52_builtin_call _ _ _ _ _ _ _ _ _ _ C D) as (r0 & evs & od & EO & T & R & RD). exists evs. split; [exact T|]. intros evs1 e evs2 y r d E GV ED.
    assert (KEY : forall evs xs tl, args_run env v s2 1 evs xs None -> evs ++ tl = evs1 ++ e :: evs2 -> (forall e', In e' tl -> forall y r d, ~ gives e' y env r d) -> False).
    { clear - GV ED. intros evs xs tl R E K. assert (NI : ~ In e evs) by (intros J; exact (args_not_error _ _ _ _ _ _ R _ _ _ _ _ J GV ED)).
      assert (J : In e (evs ++ tl)) by (rewrite E; apply in_or_app; right; now left). apply in_app_or in J as [J|J]; [auto|]. exact (K e J _ _ _ GV). }
    destruct R as [evs xs r0 d0 R|evs xs p0 a s1 r0 s3 p1 R|evs xs p0 a s1 r0 s3 s4 s5 R].
    + destruct (args_error_last _ _ _ _ _ _ _ R) as (K1 & K2). destruct (K2 _ _ _ _ _ _ _ E GV ED) as (E1 & [= -> ->]). split; [exact E1|]. split; [intros e' J; apply K1; rewrite E; apply in_or_app; auto|]. split; [exact EO|].
      destruct RD as (d' & D' & [->|(_ & X)]); eauto.
    + exfalso. eapply KEY; [exact R|exact E|]. intros e' [<-|[]] y' r' d' (? & ? & X & _). discriminate.
    + exfalso. eapply KEY; [exact R|exact E|]. intros e' [<-|[<-|[]]] y' r' d' (? & ? & X & _); discriminate.
  - destruct (C52_function_call _ _ _ _ _ _ _ _ _ _ C D) as (evs & oo & T & R & RD). exists evs. split; [exact T|]. intros evs1 e evs2 y r d E GV ED.
    pose proof (form_next _ _ _ _ _ _ _ _ _ C) as NX. pose proof (cf_env _ _ _ _ _ _ _ _ _ C) as LE.
    assert (KEY : forall evs xs tl, args_run env v s2 1 evs xs None -> evs ++ tl = evs1 ++ e :: evs2 -> (forall e', In e' tl -> forall y r d, ~ gives e' y env r d) -> False).
    { clear - GV ED. intros evs xs tl R E K. assert (NI : ~ In e evs) by (intros J; exact (args_not_error _ _ _ _ _ _ R _ _ _ _ _ J GV ED)).
      assert (J : In e (evs ++ tl)) by (rewrite E; apply in_or_app; right; now left). apply in_app_or in J as [J|J]; [auto|]. exact (K e J _ _ _ GV). }
    destruct R as [evs xs r0 d0 R|evs xs g0 ext a s1 r0 s3 R HG LX DX DA|evs xs g0 ext a s1 s3 evs' oo R HG LX DX DA FB].
    + destruct (args_error_last _ _ _ _ _ _ _ R) as (K1 & K2). destruct (K2 _ _ _ _ _ _ _ E GV ED) as (E1 & [= -> ->]). split; [exact E1|]. split; [intros e' J; apply K1; rewrite E; apply in_or_app; auto|]. destruct RD as (EO & RD). split; [exact EO|].
      destruct RD as (d' & D' & [->|(_ & X)]); eauto.
    + exfalso. eapply KEY; [exact R|exact E|]. intros e' [<-|[]] y' r' d' (? & ? & X & _). discriminate.
    + exfalso. eapply KEY; [exact R|exact E|]. intros e' [<-|J] y' r' d' (b1 & b2 & X & _); [discriminate|].
      destruct (body_in_ext _ _ _ _ _ _ _ FB e' J) as [(y2 & r2 & d2 & c1 & c2 & Y & _)|(c1 & c2 & Y)]; [|congruence]. assert (ext = env) by congruence. subst ext. lia.
Qed.
Print Assumptions C52_argument_error.
Definition err_at (s : vm) (o : option ref) : bool := match o with Some r => match data_at s r with Some (DErr _ _) => true | _ => false end | None => false end.
Definition builtin_at (s : vm) (f : ref) : bool := match data_at s f with Some (DBuiltin _) => true | _ => false end.
Definition fun_at (s : vm) (f : ref) : bool := match data_at s f with Some (DFun _) => true | _ => false end.
Example C52_witness :
  a_call (fun s f s2 o s' => builtin_at s2 f && err_at s' o && negb (quit s'))%bool /\
  a_call (fun s f s2 o s' => fun_at s2 f && err_at s' o && negb (quit s'))%bool.
Proof.
  split.
  - apply (call_case _ "" "(+ {D+1} (nope) (exit))"). vm_compute. reflexivity.
  - apply (call_case _ "(define f as (fn (x y) (exit)) [f] '(x [x] y [y]) howto-ok)" "(f (nope) (exit))"). vm_compute. reflexivity.
Qed.

(** ** C54 *)

(** (return x) makes x the pending value; this is where the value in
    [C54_return_ends_partial] comes from. *)
Theorem C54_return_pending_partial : forall fuel ev a env s r s', builtin_call fuel ev BiReturn a env s = Ret (r, s') ->
  (exists l, data_at s a = Some (DVec l) /\ (1 < List.length l)%nat) \/
  (fret s = None /\ fret s' = Some r /\ (forall x, data_at s a = Some (DVec [x]) -> r = x)).
Proof.
  intros fuel ev a env s r s' E. cbn [builtin_call] in E. unfold b_return in E. apply bind_inv in E as (n & s1 & EN & E). unfold nargs in EN. apply bind_inv in EN as (l & s2 & EV & EN). injection EN as <- <-.
  unfold vec_of in EV. apply bind_inv in EV as (d & s3 & EG & EV). apply get_inv in EG as (-> & DA). destruct d; try discriminate. injection EV as -> ->. destruct (Nat.ltb_spec 1 (List.length l)) as [LT|GE]; [left; eauto|]. right.
  apply bind_inv in E as (x & s3 & EX & E). apply bind_inv in E as (o & s4 & ER & E). injection ER as <- <-. destruct (fret s3) eqn:EF; [discriminate|]. apply bind_inv in E as (u & s5 & ES & E). injection E as <- <-. injection ES as _ <-.
  assert (K : fret s3 = fret s2 /\ forall y, data_at s2 a = Some (DVec [y]) -> x = y).
  { destruct (Nat.eqb_spec (List.length l) 1) as [E1|N1].
    - unfold arg in EX. apply bind_inv in EX as (l' & s5 & EV & EX). unfold vec_of in EV. apply bind_inv in EV as (d & s6 & EG & EV). apply get_inv in EG as (-> & DA'). rewrite DA in DA'. injection DA' as <-. injection EV as <- <-.
      apply need_inv in EX as (-> & N). split; [reflexivity|]. intros y DY. rewrite DA in DY. injection DY as ->. cbn in N. congruence.
    - split; [|intros y DY; rewrite DA in DY; injection DY as ->; cbn in N1; lia]. unfold alloc in EX. apply bind_inv in EX as (u' & s5 & EM & EX).
      assert (F1 : fret s5 = fret s2).
      { unfold maybe_gc in EM. destruct (_ && _)%bool; [|now injection EM as _ <-]. unfold do_gc in EM. destruct (gc (all s2) (stack s2)); cbn in EM; try discriminate. now injection EM as _ <-. }
      unfold fresh in EX. destruct (_ =? _)%N; [discriminate|]. injection EX as _ <-. exact F1. }
  destruct K as (K1 & K2). split; [congruence|]. split; [reflexivity|exact K2].
Qed.
Print Assumptions C54_return_pending_partial.
(** A form of the body after which a value is pending is the last one: the
    function ends with that value, and nothing is pending any more. *)
Theorem C54_return_ends_partial : forall fuel env v s x f s2 o s' g, calls_form fuel env v s x f s2 o s' -> data_at s2 f = Some (DFun g) ->
  exists evs oo, trace (Eval.eval fuel) (env :: v :: stack s) s (SpecTrace.Eval x env (inside v env s) (Some f) s2 :: evs) s' /\
    function_run env v f s2 evs oo /\
    forall ext formals a b c evs1 e evs2 z r d y, evs = evs1 ++ Extend ext formals a b None c :: evs2 -> In e evs2 ->
      gives e z ext r d -> ~ is_err d -> pending e = Some y ->
      (exists evs3 m1 m2, evs2 = evs3 ++ [e; Pend None m1 m2] /\ forall e', In e' evs3 -> exists z' r' d', gives e' z' ext r' d' /\ pending e' = None) /\
      o = Some y /\ result_is s' y (data_at (after e) y) /\ fret s' = None.
Proof.
  intros fuel env v s x f s2 o s' g C D. destruct (C52_function_call _ _ _ _ _ _ _ _ _ _ C D) as (evs & oo & T & R & RD). exists evs, oo. split; [exact T|]. split; [exact R|].
  intros ext formals a b c evs1 e evs2 z r d y E J GV ND PD.
  assert (KEY : forall f ext0 s i last evs o, fbody_run f ext0 s i last evs o -> In e evs ->
    exists evs3 m1 m2, evs = evs3 ++ [e; Pend None m1 m2] /\ (forall e', In e' evs3 -> exists z' r' d', gives e' z' ext0 r' d' /\ pending e' = None) /\ o = Some (y, data_at (after e) y)).
  { clear - GV ND PD. intros f ext0 s i last evs o R. induction R as [s i g l last HG DB N|s i g l last x e' r' d' evs o HG DB N GV' ND' PD' R IH|s i g l last x e' r' d' HG DB N GV' ED|s i g l last x e' r' d' y' s1 s2 HG DB N GV' ND' PD']; intros J.
    - destruct J.
    - destruct J as [->|J]; [congruence|]. destruct (IH J) as (evs3 & m1 & m2 & -> & K & E). exists (e' :: evs3), m1, m2. split; [reflexivity|]. split; [|exact E]. intros e0 [<-|J0]; [eauto 6|auto].
    - destruct J as [->|[]]. destruct GV as (a1 & a2 & -> & X2). destruct GV' as (b1 & b2 & [= <- <- <- <- <-] & Y2). rewrite X2 in Y2. injection Y2 as <-. contradiction.
    - destruct J as [->|[<-|[]]]; [|destruct GV as (? & ? & X & _); discriminate]. exists [], s1, s2. split; [reflexivity|]. split; [easy|]. congruence. }
  assert (AR : forall evs xs, args_run env v s2 1 evs xs None -> ~ In (Extend ext formals a b None c) evs).
  { intros evs0 xs0 R0 J0. destruct (args_error_last _ _ _ _ _ _ _ R0) as (K & _). destruct (K _ J0) as (? & ? & ? & ? & ? & X & _). discriminate. }
  assert (FIN : forall m1 m2 pre, trace (Eval.eval fuel) (env :: v :: stack s) s pre s' -> (exists q, pre = q ++ [Pend None m1 m2]) -> fret s' = None).
  { clear. intros m1 m2 pre T (q & ->). remember (q ++ [Pend None m1 m2]) as es eqn:E. revert q E. induction T as [s0 s' K|s0 e evs s' K H T IH]; intros q E; [now destruct q|]. destruct q as [|e0 q]; cbn in E.
    - injection E as -> ->. cbn in H, T. unfold set_fret in H. injection H as H. inversion T as [? ? K'|]; subst. destruct K' as (_ & _ & -> & _). reflexivity.
    - injection E as -> ->. eapply IH. reflexivity. }
  destruct R as [evs xs r0 d0 R|evs xs g0 ext0 a0 s1 r0 s3 R HG LX DX DA|evs xs g0 ext0 a0 s1 s3 evs' oo R HG LX DX DA FB].
  - exfalso. destruct (args_error_last _ _ _ _ _ _ _ R) as (K & _). destruct (K (Extend ext formals a b None c)) as (? & ? & ? & ? & ? & X & _); [rewrite E; apply in_or_app; right; now left|discriminate].
  - exfalso. assert (J0 : In (Extend ext formals a b None c) (evs ++ [Extend ext0 (fformals g0) a0 s1 (Some r0) s3])) by (rewrite E; apply in_or_app; right; now left).
    apply in_app_or in J0 as [J0|[J0|[]]]; [exact (AR _ _ R J0)|discriminate].
  - assert (EE : evs' = evs2 /\ ext0 = ext).
    { clear - AR R E FB. specialize (AR _ _ R). revert evs1 E. clear R. induction evs as [|e0 evs IH]; intros [|e1 evs1] E; cbn in E; injection E; intros.
      - auto.
      - subst. assert (J : In (Extend ext formals a b None c) (evs1 ++ Extend ext formals a b None c :: evs2)) by (apply in_or_app; right; now left).
        destruct (body_in_ext _ _ _ _ _ _ _ FB _ J) as [(? & ? & ? & ? & ? & X & _)|(? & ? & X)]; discriminate.
      - subst. elim AR. now left.
      - eapply IH; [|eassumption]. intros J. apply AR. now right. }
    destruct EE as (-> & ->). destruct (KEY _ _ _ _ _ _ _ FB J) as (evs3 & m1 & m2 & -> & K & ->). destruct RD as (-> & RD). split; [exists evs3, m1, m2; auto|]. split; [reflexivity|]. split; [exact RD|].
    eapply (FIN m1 m2); [exact T|]. eexists (_ :: evs ++ Extend _ _ _ _ _ _ :: evs3 ++ [e]). cbn. rewrite <- !app_assoc. cbn. rewrite <- app_assoc. reflexivity.
Qed.
Print Assumptions C54_return_ends_partial.
(** The statement after the return is not run; nothing stays pending. *)
Example C54_witness : a_call (fun s f s2 o s' => fun_at s2 f && match o with Some r => match data_at s' r with Some (DInt 7) => true | _ => false end | None => false end && negb (quit s') && match fret s' with None => true | Some _ => false end)%bool.
Proof. apply (call_case _ "(define f as (fn (x) (if (== x {D+1}) (return {D+7})) (exit) {D+9}) [f] '(x [x]) howto-ok)" "(f {D+1})"). vm_compute. reflexivity. Qed.

(** ** C59 *)

(** [+], [*], [/], [mod], [-] on anything but strings, and the other builtins of
    [only_reads] change nothing that the arguments, the form or the stack reach. *)
Theorem C59_operands_kept_partial : forall fuel env v s x f s2 o s' p, calls_form fuel env v s x f s2 o s' -> data_at s2 f = Some (DBuiltin p) ->
  exists r evs od, o = Some r /\
    trace (Eval.eval fuel) (env :: v :: stack s) s (SpecTrace.Eval x env (inside v env s) (Some f) s2 :: evs) s' /\
    builtin_run env v f s2 evs r od /\ Forall (reads_kept (f :: env :: v :: stack s)) evs.
Proof. intros fuel env v s x f s2 o s' p C D. destruct (eval_builtin_spec _ _ _ _ _ _ _ _ _ C p D) as (r & evs & od & A & B & E & F & G). exists r, evs, od. auto. Qed.
Print Assumptions C59_operands_kept_partial.
Example C59_witness : a_call (fun s f s2 o s' => match data_at s2 f with Some (DBuiltin BiPlus) => true | _ => false end && match o with Some r => match data_at s' r with Some (DInt 6) => true | _ => false end | None => false end)%bool
  /\ a_call (fun s f s2 o s' => match data_at s2 f with Some (DBuiltin BiMinus) => true | _ => false end && match o with Some r => match data_at s' r with Some (DInt 4) => true | _ => false end | None => false end)%bool
  /\ only_reads machine BiPlus [] /\ only_reads machine BiMinus [].
Proof.
  split; [|split; [|split; exact I]].
  - apply (call_case _ "(define x as {D+5} [x])" "(+ x {D+1})"). vm_compute. reflexivity.
  - apply (call_case _ "(define x as {D+5} [x])" "(- x {D+1})"). vm_compute. reflexivity.
Qed.
