(** C60, C71: define.  See [special_form] in SpecForm.v and SpecDefine.v. *)
From Coq Require Import NArith ZArith Bool Lia Arith String List.
From Verif Require Import Base HMap Heap SpecHeap GcProofs VmProofs ValueOps Env Builtins Specials Eval Read Boot Run SafeBase EnvProofs SpecTrace SpecSpecial SpecForm SpecEnv SpecDefine TraceProofs SpecialProofs SpecialEval SpecialForms CopyProofs DefineProofs.
Import ListNotations.
Local Open Scope N_scope.
Local Open Scope string_scope.
Local Open Scope list_scope.

(** ** C60 *)

Lemma name_same env s s' k evs n : data_at s' k = data_at s k -> name_run env s k evs n -> name_run env s' k evs n.
Proof. intros E H. destruct H as [k t D|k l e n t D G]; [eapply name_symbol|eapply name_form; [|exact G]]; rewrite E; exact D. Qed.
Lemma name_fails_same env s s' k evs r d : data_at s' k = data_at s k -> name_fails env s k evs r d -> name_fails env s' k evs r d.
Proof.
  intros E H. destruct H as [k l e t d D G X|k l e t d r d' D G X Y Z|k d r d' D X Y Z]; [eapply name_error|eapply name_not_symbol|eapply name_not_form]; eauto; rewrite E; exact D.
Qed.
(** What define does, whatever the forms are. *)
Theorem C60_define : special_form SpDefine (fun _ => define_run).
Proof.
  apply special_form_of.
  - intros fuel env ev EV P a s0 c0 l IN L0 E0 GE IE A0. cbn [special_call]. now apply define_spec with (c0 := c0).
  - intros _ env s s' l evs r od K _ H. pose proof (agree_data _ _ _ K) as KD. clear K. rename KD into K. destruct H as [r0 d N E|k l' evs r0 d AR EL NF|k k1 x l' evs n e t d AR EL NR GV ED|k k1 x l' evs n e v d evs' r0 od AR EL NR GV ND RR].
    + now apply define_bad_arity.
    + eapply define_bad_name; eauto. eapply name_fails_same; [|exact NF]. apply K. rewrite EL. now left.
    + eapply define_bad_value; eauto. eapply name_same; [|exact NR]. apply K. rewrite EL. now left.
    + eapply define_value; eauto. eapply name_same; [|exact NR]. apply K. rewrite EL. now left.
Qed.
Print Assumptions C60_define.
(** The property.  (define x as y doc), when it succeeds, binds the name to [w] in
    the current environment: a new value holding the same as the value [y] when
    that is an atom, [y] itself when it is not; [w] has the documentation [doc].
    [sv] is the machine after the evaluation of the value, [sd] after that of the
    documentation. *)
Definition binds_only (s : vm) (env : ref) (t : text) (w : ref) : Prop :=
  exists b enc, is_env (all s) env b enc /\ forall u, bound b t u <-> u = w.
Lemma keeps_cell base s s' x c : keeps base s s' -> reachable (all s) base x -> lookup (all s) x = Some c -> exists c', lookup (all s') x = Some c' /\ alike c c'.
Proof. intros (K & _) R L. eauto. Qed.
Lemma bound_kept base ev s0 doc dv w e n s1 s2 s3 s' t c : trace ev base s0 [Doc w doc dv s1 s2; Bind e n w s2 s3] s' -> In e base ->
  lookup (all s1) w = Some c -> data_at s1 n = Some (DSym t) ->
  binds_only s' e t w /\ (exists c', lookup (all s') w = Some c' /\ cdoc c' = Some doc) /\ (w <> e -> ~ is_err (cdata c) -> data_at s' w = Some (cdata c)).
Proof.
  intros T IB L DN. inversion T as [|? ? ? ? _ HD T1]; subst. inversion T1 as [|? ? ? ? _ HB T2]; subst. inversion T2 as [? ? K|]; subst. clear T T1 T2. cbn [after happens] in *.
  rewrite (set_docs_eq _ _ _ _ _ L) in HD. injection HD as <-. set (sx := with_all s1 _) in *.
  assert (LX : lookup (all sx) w = Some (mkCell (cdata c) (Some doc) dv (cmark c) (caddr c))) by (unfold sx; cbn; rewrite lookup_update, N.eqb_refl, L; reflexivity).
  assert (DN2 : data_at sx n = Some (DSym t)). { unfold data_at, sx in *. cbn. rewrite lookup_update. destruct (N.eqb_spec w n) as [->|]; [|exact DN]. rewrite L in *. cbn in *. exact DN. }
  clearbody sx. apply env_set_ret in HB as (ck & t' & ce & b & enc & L1 & E1 & L2 & E2 & ->).
  assert (t' = t) as ->. { unfold data_at in DN2. rewrite L1 in DN2. cbn in DN2. rewrite E1 in DN2. now injection DN2. }
  set (b' := rebind t (n, w) b) in *. set (s3 := with_all sx _) in *.
  assert (LE : lookup (all s3) e = Some (mkCell (DEnv b' enc) (cdoc ce) (cdocvec ce) (cmark ce) (caddr ce))) by (unfold s3; cbn; rewrite lookup_update, N.eqb_refl, L2; reflexivity).
  assert (IW : bound b' t w) by (apply rebind_bound; now left).
  assert (LW : exists cw, lookup (all s3) w = Some cw /\ cdoc cw = Some doc /\ (w <> e -> cdata cw = cdata c)).
  { unfold s3. cbn. rewrite lookup_update. destruct (N.eqb_spec e w) as [->|NE].
    - rewrite L2. eexists. split; [reflexivity|]. cbn. rewrite LX in L2. injection L2 as <-. split; [reflexivity|congruence].
    - rewrite LX. eexists. split; [reflexivity|]. split; reflexivity. }
  destruct LW as (cw & LW & DW & XW).
  assert (RE : reachable (all s3) base e) by (now apply re_root).
  assert (RW : reachable (all s3) base w). { eapply re_step; [exact RE|exact LE|]. destruct IW as (sy & IW). eapply r_bound; [reflexivity|exact IW]. }
  destruct (keeps_cell _ _ _ _ _ K RE LE) as (ce' & LE' & AE). destruct (keeps_cell _ _ _ _ _ K RW LW) as (cw' & LW' & AW).
  split; [|split].
  - exists b', enc. split.
    + exists ce'. split; [exact LE'|]. destruct AE as [->|(F & _)]; [reflexivity|destruct F].
    + intros u. unfold b'. rewrite rebind_bound. cbn. intuition congruence.
  - exists cw'. split; [exact LW'|]. destruct AW as [->|(_ & _ & -> & _)]; exact DW.
  - intros NE NER. unfold data_at. rewrite LW'. cbn. destruct AW as [->|(F & _)]; [now rewrite XW|]. rewrite XW in F by exact NE. contradiction.
Qed.
Theorem C60_define_variable : forall fuel env form s op f s2 r s' x0 k k1 x dc,
  calls_special fuel SpDefine env form s op f s2 (Some r) s' -> data_at s' r = Some (DBool true) ->
  data_at s2 form = Some (DVec [x0; k; k1; x; dc]) -> (exists t, data_at s2 k = Some (DSym t)) ->
  exists sx sv sc sd y doc t d w, (* the value and the documentation are evaluated *)
    Eval.eval fuel x env sx = Ret (Some y, sv) /\ Eval.eval fuel dc env sc = Ret (Some doc, sd) /\ data_at sd k = Some (DSym t) /\ data_at sd y = Some d /\
    binds_only s' env t w /\ (exists c, lookup (all s') w = Some c /\ cdoc c = Some doc) /\ (w <> env -> ~ is_err d -> data_at s' w = Some d) /\
    (atomic d -> w <> y /\ lookup (all sd) w = None) /\ (~ atomic d -> w = y).
Proof.
  intros fuel env form s op f s2 r s' x0 k k1 x dc C DR DF (t0 & DK). destruct (C60_define _ _ _ _ _ _ _ _ _ C) as (r' & l & evs & od & [= <-] & DL & T & FR & RI).
  rewrite DF in DL. injection DL as <-. cbn [tl] in FR.
  assert (NOERR : forall d, od = Some d -> ~ is_err d).
  { intros d -> ED. destruct RI as (d' & D' & TD). rewrite DR in D'. injection D' as <-. destruct TD as [E|(_ & X)]; [rewrite <- E in ED; exact ED|exact X]. }
  inversion T as [|? ? ? ? _ _ T1]; subst. cbn [after] in T1. clear T.
  inversion FR as [? ? ? ? ? ? ? ED|? ? ? _ DRUN]; subst; [elim (NOERR _ eq_refl ED)|]. clear FR.
  destruct DRUN as [r0 d N E|k' l' evs r0 d AR EL NF|k' k1' x' l' evs n e t d AR EL NR GV ED|k' k1' x' l' evs n e v d evs' r0 od AR EL NR GV ND RR].
  - elim (NOERR _ eq_refl E).
  - injection EL as <- <-. destruct NF as [k l e t d D G X|k l e t d r0 d' D G X Y Z|k d r0 d' D X Y Z]; first [elim (NOERR _ eq_refl X)|elim (NOERR _ eq_refl Z)].
  - elim (NOERR _ eq_refl ED).
  - injection EL as <- <- <- <-. inversion NR; subst; [|congruence]. cbn [app] in T1.
    inversion RR as [? ? ? ? ? CL| | |]; subst. clear RR. destruct CL as [r0 d0 _ E|evs r0 d0 _ _ E|evs rs evs2 r0 od KS KR B]; [elim (NOERR _ eq_refl E)..|].
    destruct GV as (sx & sv & -> & DV). cbn [after] in *.
    inversion KR as [|? ? ? e2 doc dd evs3 rs2 GV2 ISD KR2]; subst. inversion KR2; subst. clear KR KR2. destruct GV2 as (sc & sd & -> & DD).
    destruct B as (-> & B). change (last_after sv [SpecTrace.Eval dc env sc (Some doc) sd]) with sd in B.
    inversion T1 as [|? ? ? ? _ HX T2]; subst. cbn [after happens] in *. cbn [app] in T2. inversion T2 as [|? ? ? ? _ HC T3]; subst. cbn [after happens] in *. clear T1 T2.
    destruct B as [w dv c s1 s3 s4 DEF LW _ SN]. 
    assert (IB : In env (env :: form :: stack s)) by (now left).
    assert (HN : exists t, data_at sd n = Some (DSym t)).
    { inversion T3 as [|? ? ? ? _ HD T4]; subst. inversion T4 as [|? ? ? ? _ HB T5]; subst. cbn [after happens] in *. clear T3 T4 T5. rewrite (set_docs_eq _ _ _ _ _ LW) in HD. injection HD as <-.
      apply env_set_ret in HB as (ck & t' & ce & b & enc & L1 & E1 & _). exists t'. rewrite <- SN. unfold data_at. cbn in L1. rewrite lookup_update in L1.
      destruct (N.eqb_spec w n) as [->|]; [rewrite LW in *; cbn in *; injection L1 as <-; cbn in *; now rewrite E1|]. rewrite L1. cbn. now rewrite E1. }
    destruct HN as (t' & HN). rewrite HN in SN. destruct (bound_kept _ _ _ _ _ _ _ _ _ _ _ _ _ _ T3 IB LW SN) as (B1 & B2 & B3).
    assert (DC : forall d1, data_at s1 w = Some d1 -> cdata c = d1) by (intros d1 E1; unfold data_at in E1; rewrite LW in E1; now injection E1).
    destruct DEF as [d1 F1 F2 F3 F4|d1 F1 F2 F3 F4]; rewrite (DC _ F4) in B3.
    + exists sx, sv, sc, sd, v, doc, t', d1, w. repeat (split; [assumption|]). split; [|contradiction]. intros _. split; [|exact F3]. intros ->. unfold data_at in F1. rewrite F3 in F1. discriminate.
    + exists sx, sv, sc, sd, v, doc, t', d1, w. repeat (split; [assumption|]). split; [contradiction|auto].
Qed.
Print Assumptions C60_define_variable.
Example C60_witness : form_calls 50 SpDefine (Some (DBool true)).
Proof. apply (text_case _ "(define y as {D+1} [y])" "(define x as y [x])"). vm_compute. reflexivity. Qed.
(** Without its keyword the form does not succeed. *)
Example C60_error : exists d, form_calls 50 SpDefine (Some d) /\ is_err d.
Proof. eexists. split; [eapply (text_case _ "(define y as {D+1} [y])" "(define x az y [x])"); vm_compute; reflexivity|exact I]. Qed.

(** ** C71 *)

Lemma trace_app ev base l1 : forall l2 s s', trace ev base s (l1 ++ l2) s' -> exists s1, trace ev base s1 l2 s'.
Proof. induction l1 as [|e l1 IH]; intros l2 s s' T; [eauto|]. cbn in T. inversion T; subst. eauto. Qed.
Lemma function_kept base ev s0 doc dv v e n dw s3 s4 s5 s6 s' t d : trace ev base s0 [Doc v doc (Some dv) s3 s4; Put v dw s4 s5; Bind e n v s5 s6] s' -> In e base ->
  data_at s3 v = Some d -> data_at s3 n = Some (DSym t) -> is_function d -> is_function dw ->
  binds_only s' e t v /\ exists c', lookup (all s') v = Some c' /\ cdoc c' = Some doc /\ cdocvec c' = Some dv /\ cdata c' = dw.
Proof.
  intros T IB DV DN FD FW. inversion T as [|? ? ? ? _ HD T1]; subst. inversion T1 as [|? ? ? ? _ HP T2]; subst. inversion T2 as [|? ? ? ? _ HB T3]; subst. inversion T3 as [? ? K|]; subst. clear T T1 T2 T3. cbn [after happens] in *.
  unfold data_at in DV. destruct (lookup (all s3) v) as [c|] eqn:L; [|discriminate]. cbn in DV. injection DV as EC.
  rewrite (set_docs_eq _ _ _ _ _ L) in HD. injection HD as <-. apply put_ret in HP as (c2 & L2 & ->). cbn in L2. rewrite lookup_update, N.eqb_refl, L in L2. cbn in L2. injection L2 as <-.
  cbn [cdoc cdocvec cmark caddr] in HB. set (sx := with_all _ _) in *.
  assert (NV : n <> v) by (intros ->; unfold data_at in DN; rewrite L in DN; cbn in DN; rewrite EC in DN; injection DN as ->; exact FD).
  assert (LX : lookup (all sx) v = Some (mkCell dw (Some doc) (Some dv) (cmark c) (caddr c))) by (unfold sx; cbn; rewrite !lookup_update, !N.eqb_refl, L; reflexivity).
  assert (LN : lookup (all sx) n = lookup (all s3) n). { unfold sx. cbn. rewrite !lookup_update. destruct (N.eqb_spec v n); [congruence|reflexivity]. }
  clearbody sx. apply env_set_ret in HB as (ck & t' & ce & b & enc & L1 & E1 & L3 & E2 & ->).
  assert (t' = t) as ->. { rewrite LN in L1. unfold data_at in DN. rewrite L1 in DN. cbn in DN. rewrite E1 in DN. now injection DN. }
  assert (NE : e <> v) by (intros ->; rewrite LX in L3; injection L3 as <-; cbn in E2; subst dw; exact FW).
  set (b' := rebind t (n, v) b) in *. set (s6 := with_all sx _) in *.
  assert (LE : lookup (all s6) e = Some (mkCell (DEnv b' enc) (cdoc ce) (cdocvec ce) (cmark ce) (caddr ce))) by (unfold s6; cbn; rewrite lookup_update, N.eqb_refl, L3; reflexivity).
  assert (LV : lookup (all s6) v = Some (mkCell dw (Some doc) (Some dv) (cmark c) (caddr c))). { unfold s6. cbn. rewrite lookup_update. destruct (N.eqb_spec e v); [contradiction|exact LX]. }
  assert (IW : bound b' t v) by (apply rebind_bound; now left).
  assert (RE : reachable (all s6) base e) by (now apply re_root).
  assert (RV : reachable (all s6) base v). { eapply re_step; [exact RE|exact LE|]. destruct IW as (sy & IW). eapply r_bound; [reflexivity|exact IW]. }
  destruct (keeps_cell _ _ _ _ _ K RE LE) as (ce' & LE' & AE). destruct (keeps_cell _ _ _ _ _ K RV LV) as (cv' & LV' & AV). split.
  - exists b', enc. split.
    + exists ce'. split; [exact LE'|]. destruct AE as [->|(F & _)]; [reflexivity|destruct F].
    + intros u. unfold b'. rewrite rebind_bound. cbn. intuition congruence.
  - exists cv'. split; [exact LV'|]. destruct AV as [->|(F & _)]; [auto|]. cbn in F. subst. destruct dw; contradiction.
Qed.
(** (define f as function doc docvec howto), when it succeeds: every formal of the
    function is documented in [dv]; the name is bound to the function value
    itself, which now carries its name, the documentation and the permission for
    howto, and has the formals, the body and the environment it had.  [sd]: the
    machine after the evaluation of the documentation vector. *)
Theorem C71_define_function : forall fuel env form s op f s2 r s' x0 k k1 x dc dvf h,
  calls_special fuel SpDefine env form s op f s2 (Some r) s' -> data_at s' r = Some (DBool true) ->
  data_at s2 form = Some (DVec [x0; k; k1; x; dc; dvf; h]) -> (exists t, data_at s2 k = Some (DSym t)) ->
  exists sx sv y d, Eval.eval fuel x env sx = Ret (Some y, sv) /\ data_at sv y = Some d /\
    (is_function d -> exists sc sc' sdv sd doc dv ok t name docs d1 fm dw c,
       Eval.eval fuel dc env sc = Ret (Some doc, sc') /\ Eval.eval fuel dvf env sdv = Ret (Some dv, sd) /\ howto sv h ok /\
       data_at sd k = Some (DSym t) /\ through_c t name /\ data_at sd y = Some d1 /\ formals_of d1 fm /\ all_documented sd fm dv true /\
       binds_only s' env t y /\ lookup (all s') y = Some c /\ cdoc c = Some doc /\ cdocvec c = Some dv /\ cdata c = dw /\ named name docs ok d1 dw).
Proof.
  intros fuel env form s op f s2 r s' x0 k k1 x dc dvf h C DR DF (t0 & DK). destruct (C60_define _ _ _ _ _ _ _ _ _ C) as (r' & l & evs & od & [= <-] & DL & T & FR & RI).
  rewrite DF in DL. injection DL as <-. cbn [tl] in FR.
  assert (NOERR : forall d, od = Some d -> ~ is_err d).
  { intros d -> ED. destruct RI as (d' & D' & TD). rewrite DR in D'. injection D' as <-. destruct TD as [E|(_ & X)]; [rewrite <- E in ED; exact ED|exact X]. }
  inversion T as [|? ? ? ? _ _ T1]; subst. cbn [after] in T1. clear T.
  inversion FR as [? ? ? ? ? ? ? ED|? ? ? _ DRUN]; subst; [elim (NOERR _ eq_refl ED)|]. clear FR.
  destruct DRUN as [r0 d N E|k' l' evs r0 d AR EL NF|k' k1' x' l' evs n e t d AR EL NR GV ED|k' k1' x' l' evs n e v d evs' r0 od AR EL NR GV ND RR].
  - elim (NOERR _ eq_refl E).
  - injection EL as <- <-. destruct NF as [k l e t d D G X|k l e t d r0 d' D G X Y Z|k d r0 d' D X Y Z]; first [elim (NOERR _ eq_refl X)|elim (NOERR _ eq_refl Z)].
  - elim (NOERR _ eq_refl ED).
  - injection EL as <- <- <- <-. inversion NR; subst; [|congruence]. cbn [app] in T1.
    destruct GV as (sx & sv & -> & DV). cbn [after] in *. inversion T1 as [|? ? ? ? _ HX T2]; subst. cbn [after happens] in *. clear T1.
    exists sx, sv, v, d. split; [exact HX|]. split; [exact DV|]. intros FN.
    inversion RR as [|? ? ? ? ? ? ? NFN CL|? ? ? ? ? ? ? _ CL|]; subst; [contradiction|]. clear RR.
    destruct CL as [r0 d0 _ E|evs r0 d0 _ _ E|evs rs evs2 r0 od KS KR B]; [elim (NOERR _ eq_refl E)..|].
    inversion KR as [|? ? ? e2 doc dd evs3 rs2 GV2 ISD KR2]; subst. inversion KR2 as [|? ? ? e3 dv dd' evs4 rs3 GV3 ISV KR3]; subst. inversion KR3; subst. clear KR KR2 KR3.
    destruct GV2 as (sc & sc' & -> & DD). destruct GV3 as (sdv & sd & -> & DDV). destruct B as (ok & HW & B).
    change (last_after sv [SpecTrace.Eval dc env sc (Some doc) sc'; SpecTrace.Eval dvf env sdv (Some dv) sd]) with sd in B. cbn [app] in T2.
    inversion T2 as [|? ? ? ? _ HC T3]; subst. cbn [after happens] in *. inversion T3 as [|? ? ? ? _ HDV T4]; subst. cbn [after happens] in *. clear T2 T3.
    inversion B as [? ? ? ? ? ? ? E|d1 fm td ld s3 s4 evl td' dw name name' docs s5 s6 s7 s8 r2 F1 F2 F3 F4 F5 F6 F7 F8 F9 F10 F11 FX F12]; subst; [elim (NOERR _ eq_refl E)|].
    inversion T4 as [|? ? ? ? _ _ T5]; subst. cbn [after] in T5. apply trace_app in T5 as (sy & T5).
    assert (IB : In env (env :: form :: stack s)) by (now left).
    assert (FD : is_function d1) by (destruct F12; exact I). assert (FW : is_function dw) by (destruct F12; exact I).
    destruct (function_kept _ _ _ _ _ _ _ _ _ _ _ _ _ _ _ _ T5 IB F7 F9 FD FW) as (B1 & c & B2 & B3 & B4 & B5).
    exists sc, sc', sdv, sd, doc, dv, ok, name, name', docs, d1, fm, dw, c. repeat (split; [assumption|]). assumption.
Qed.
Print Assumptions C71_define_function.
Example C71_witness : form_calls 50 SpDefine (Some (DBool true)).
Proof. apply (text_case _ "(define y as {D+1} [y])" "(define f as (fn (x z) (+ x z)) [f] '(x [an x] z [a z]) howto-ok)"). vm_compute. reflexivity. Qed.
(** A formal that is not documented: an error. *)
Example C71_error : exists d, form_calls 50 SpDefine (Some d) /\ is_err d.
Proof. eexists. split; [eapply (text_case _ "(define y as {D+1} [y])" "(define f as (fn (x z) (+ x z)) [f] '(x [an x]) howto-ok)"); vm_compute; reflexivity|exact I]. Qed.
