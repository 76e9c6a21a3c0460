(** Calls of builtins and functions do what SpecCall.v says. *)
From Coq Require Import NArith ZArith Bool Lia Arith List String.
From Coq Require Import ZifyBool ZifyNat ZifyN.
From Verif Require Import Base OString HMap Heap SpecHeap GcProofs VmProofs ValueOps Env Copy Builtins Specials Eval SafeBase SafeRead SafeLib SafeBuiltins SafeSpecials SafeEval SpecTrace SpecSpecial SpecForm SpecCall TraceProofs SpecialProofs SpecialEval.
Import ListNotations.
Local Open Scope N_scope.

Lemma annotate_plain r s u s' : annotate r s = Ret (u, s') -> forall x d, data_at s' x = Some d -> ~ is_err d -> data_at s x = Some d.
Proof.
  unfold annotate, bind, get_cell. destruct (lookup (all s) r) as [c|] eqn:L; [|discriminate]. cbn [obind fst snd].
  destruct (cdata c) eqn:E; try (now intros [= _ <-]). unfold put_cell. cbn [all with_nextAddr]. rewrite L. intros [= _ <-] x d. unfold data_at. cbn. rewrite lookup_update.
  destruct (N.eqb_spec r x) as [<-|]; [|auto]. rewrite L. cbn. intros [= <-] N. now elim N.
Qed.

Lemma arguments_of P a env s c xs : Inv (a :: P) s -> good (a :: P) s env -> In env (stack s) -> lookup (all s) a = Some c -> cdata c = DVec xs -> arguments s a env xs.
Proof.
  intros A GE IE L E. assert (IA : In a (a :: P)) by now left. constructor.
  - apply sane_inv. eapply inv_unpriv; [exact A|easy].
  - unfold data_at. rewrite L. cbn. now rewrite E.
  - split; [now apply (i_priv _ _ _ A)|exact IE].
  - intros r cr LR. split; intros F; [apply (i_refs _ _ _ A r cr a LR (or_introl F))|apply (i_refs _ _ _ A r cr a LR (or_intror F))]; exact IA.
  - split; [intros F; destruct GE as (_ & G & _); apply G; rewrite <- F; exact IA|]. split; [intros F; destruct (i_genv _ _ _ A) as (_ & G & _); apply G; rewrite <- F; exact IA|].
    intros F. pose proof (i_fret _ _ _ A) as G. rewrite F in G. destruct G as (_ & G & _). now apply G.
Qed.
Lemma arguments_inv s a env xs : arguments s a env xs -> Inv [a] s /\ good [a] s env /\ In env (stack s) /\ exists c, lookup (all s) a = Some c /\ cdata c = DVec xs.
Proof.
  intros [SA VA (HA & HE) OW (N1 & N2 & N3)]. apply sane_inv in SA. split; [|split; [|split; [exact HE|]]].
  - destruct SA as [A B C E F G H T]. constructor; auto; try easy.
    + intros r c x L R. split; [now apply (B r c x L R)|]. intros [<-|[]]. destruct (OW r c L) as (O1 & O2). destruct R; auto.
    + intros x [<-|[]]. exact HA.
    + split; [apply G|]. split; [|apply G]. intros [Z|[]]. now apply N2.
    + destruct (fret s) as [q|]; [|exact I]. split; [apply H|]. split; [|reflexivity]. intros [Z|[]]. apply N3. now rewrite Z.
  - split; [now apply (i_stack _ _ _ SA)|]. split; [|discriminate]. intros [->|[]]. now apply N1.
  - unfold data_at in VA. destruct (lookup (all s) a) as [c|]; [|discriminate]. exists c. split; [reflexivity|]. now injection VA.
Qed.

(** The builtins that change nothing. *)
Lemma only_reads_quiet ev fuel p P a env s c xs : ev_ok true ev -> Inv P s -> In a P -> good P s env -> In env (stack s) -> lookup (all s) a = Some c -> cdata c = DVec xs -> only_reads s p xs ->
  wp (builtin_call fuel ev p a env) (fun r s' => At true P s [] (eq r) s') s.
Proof.
  intros EV A IN GE KE L E O. destruct p; try contradiction; try (eapply wp_mono; [apply (builtin_ok true ev EV fuel _ P a env s A IN GE KE); discriminate|]; intros r s' H; exact H).
  cbn [builtin_call]. unfold b_minus. apply wp_bind, wp_vec_of; [discriminate|]. intros c' l L' E'. rewrite L in L'. injection L' as <-. rewrite E in E'. injection E' as <-.
  pose proof (minus_numerical_ok true P a s A IN) as W. destruct xs as [|x t]; [exact W|]. apply wp_bind, wp_get; [discriminate|]. intros cx LX. cbn in O.
  destruct (cdata cx) eqn:EX; try exact W; [exfalso; eapply O; unfold data_at; rewrite LX; cbn; rewrite EX; reflexivity|]. exact (version_arith_ok true false P a s A IN).
Qed.

Section Calls.
Context (ev : evaluator) (EV : ev_ok true ev) (fuel : nat).
Context (P : list ref) (s0 : vm) (A0 : Inv P s0).
Implicit Types (G : ref -> Prop) (s : vm) (evs : list event).
Notation OT := (OT ev P s0).
Context (v env f : ref) (IV : In v (stack s0)) (IE : In env (stack s0)) (IF : In f (stack s0)) (NE : ~ In env P) (NV : ~ In v P) (NF : ~ In f P).

Lemma ot_new a l G evs s x : OT a l G evs s -> In x (stack s0) -> x <> a.
Proof. intros O J ->. apply (i_stack _ _ _ A0) in J. pose proof (o_new _ _ _ _ _ _ (ot_own _ _ _ _ _ _ _ _ O)). lia. Qed.
Lemma ot_env a l G evs s : OT a l G evs s -> good (a :: P) s env.
Proof. intros O. now apply (own_old _ _ _ _ _ _ env (ot_own _ _ _ _ _ _ _ _ O)). Qed.

(** ** The arguments *)
Lemma form_at_spec addr a l0 G evs s (Q : list ref -> vm -> Prop) : OT a l0 G evs s ->
  (forall l, data_at s v = Some (DVec l) -> (forall x, In x l -> good (a :: P) s x) -> Q l s) -> wp (form_at v addr) Q s.
Proof.
  intros O K. unfold form_at. apply wp_bind, wp_get_at; [discriminate|]. intros c L _. destruct (cdata c) eqn:E; try apply wp_undef. apply wp_ret. apply K.
  - unfold data_at. rewrite L. cbn. now rewrite E.
  - intros x J. eapply (good_dref true); [apply (ot_own _ _ _ _ _ _ _ _ O)|exact L|now rewrite E].
Qed.
Lemma eval_args_spec addr a : forall k i l0 G evs0 s sx, OT a l0 G evs0 s -> data_at s v = data_at sx v ->
  wp (eval_args k ev v addr env a i) (fun o s' => exists evs xs, match o with
    | Some r => exists d, args_run env v sx i evs xs (Some (r, d)) /\ OT a (l0 ++ xs) (eq r) (evs0 ++ evs) s' /\ result_is s' r (Some d)
    | None => args_run env v sx i evs xs None /\ OT a (l0 ++ xs) (fun _ => False) (evs0 ++ evs) s' end) s.
Proof.
  induction k as [|k IH]; intros i l0 G evs0 s sx O DV; cbn [eval_args]; [apply wp_nofuel|].
  apply wp_bind. eapply form_at_spec; [exact O|]. intros l DL GL. rewrite DV in DL. destruct (nth_error l i) as [x|] eqn:EN.
  2:{ apply wp_ret. exists [], []. rewrite !app_nil_r. split; [eapply args_end; eauto|]. eapply ot_weaken; [exact O|easy]. }
  apply wp_bind. eapply (tr_eval ev EV (a :: P) s x env [] G []); [eapply ot_start; exact O|apply GL; eapply nth_error_In; eauto|eapply ot_env; exact O|].
  intros o s1 T1. cbn [app] in T1. set (e := SpecTrace.Eval x env s o s1) in *. pose proof (ot_call1 _ _ _ _ _ _ _ _ _ _ _ O T1 ltac:(discriminate)) as O1.
  apply wp_bind, wp_need. intros r ->. assert (GR : good (a :: P) s1 r) by (apply (o_good _ _ _ _ _ _ (ot_own _ _ _ _ _ _ _ _ O1)); reflexivity).
  apply wp_bind, t_is_error. intros d b DR EB. destruct b.
  - assert (ED : is_err d) by (now apply EB). apply wp_bind. eapply (tr_annotate ev (a :: P) s r [] _ [e]); [exact T1|exact GR|]. intros s2 T2 D2. apply wp_ret. exists [e], []. exists d. rewrite app_nil_r.
    destruct (D2 d DR) as (d' & D3 & K1 & _). split; [eapply args_error; eauto; exists s, s1; auto|]. split; [|exists d'; split; [exact D3|right; auto]].
    eapply ot_weaken; [eapply ot_call1; [exact O|exact T2|discriminate]|]. intros y <-. apply (a_good _ _ _ _ _ _ _ (tr_at _ _ _ _ _ _ _ T2)). reflexivity.
  - assert (ND : ~ is_err d) by (intros F; apply EB in F; discriminate). apply wp_bind. eapply wp_mono; [eapply ot_push; [exact A0|exact O1|exact GR]|]. intros u s2 (O2 & S2).
    eapply wp_mono; [eapply (IH (S i) (l0 ++ [r]) _ _ s2 s1 O2); unfold data_at; rewrite S2; [reflexivity|eapply ot_new; eauto]|].
    assert (GV : gives e x env r d) by (exists s, s1; auto).
    intros o s3 (evs & xs & H). exists (e :: evs), (r :: xs). rewrite <- !app_assoc in H. cbn [app] in H. destruct o as [y|].
    + destruct H as (dy & H1 & H2 & H3). exists dy. split; [eapply args_next; eauto|auto].
    + destruct H as (H1 & H2). split; [eapply args_next; eauto|exact H2].
Qed.

(** ** Builtins *)
Lemma builtin_of_spec (Q : builtin -> vm -> Prop) s : (forall p, data_at s f = Some (DBuiltin p) -> Q p s) -> wp (builtin_of f) Q s.
Proof.
  intros K. unfold builtin_of. apply wp_bind, wp_get; [discriminate|]. intros c L. destruct (cdata c) eqn:E; try apply wp_undef. apply wp_ret. apply K. unfold data_at. rewrite L. cbn. now rewrite E.
Qed.
Lemma call_builtin_spec addr : wp (call_builtin fuel ev v addr f env) (fun r s' => exists evs od, Tr ev P s0 [] (eq r) evs s' /\ builtin_run env v f s0 evs r od /\ result_is s' r od /\ Forall (reads_kept (stack s0)) evs) s0.
Proof.
  unfold call_builtin. apply (ot_bind ev P s0 A0). intros a s O. apply wp_bind.
  eapply wp_mono; [eapply (eval_args_spec addr a fuel 1 [] _ [] s s0 O); apply (ot_at ev P s0 _ _ _ _ _ v O eq_refl); now apply re_root|]. clear O s.
  intros o s (evs & xs & H). cbn [app] in H.
  assert (KA : forall s i evs xs o, args_run env v s i evs xs o -> Forall (reads_kept (stack s0)) evs).
  { intros s1 i evs1 xs1 o1 R. induction R as [|? ? ? ? ? ? ? ? ? ? _ _ (? & ? & -> & _) _ _ IH|? ? ? ? ? ? ? _ _ (? & ? & -> & _) _]; [constructor|constructor; [exact I|exact IH]|repeat constructor]. }
  apply wp_bind. destruct o as [x|].
  - destruct H as (d & R & O & RD). apply wp_ret. eapply ot_pop; [exact O|reflexivity|]. intros s1 T1 E1. exists evs, (Some d). split; [exact T1|]. split; [eapply bi_args; exact R|]. split; [eapply result_same; [exact E1|exact RD]|eapply KA; exact R].
  - destruct H as (R & O). pose proof (KA _ _ _ _ _ R) as KR. clear KA. apply wp_bind, builtin_of_spec. intros p DP.
    destruct (ot_vec _ _ _ _ _ _ _ _ O) as (ca & LA & EA). assert (DA : data_at s a = Some (DVec xs)) by (unfold data_at; rewrite LA; cbn; now rewrite EA).
    pose proof (ot_own _ _ _ _ _ _ _ _ O) as OW. assert (IE1 : In env (stack s)) by (rewrite (ot_stack _ _ _ _ _ _ _ _ O); now right).
    assert (AR : arguments s a env xs) by (eapply arguments_of; [exact (o_inv _ _ _ _ _ _ OW)|exact (ot_env _ _ _ _ _ O)|exact IE1|exact LA|exact EA]).
    assert (B1 : wp (builtin_call fuel ev p a env) (fun r s' => At false (a :: P) s [] (eq r) s' /\ (only_reads s p xs -> keeps (stack s) s s')) s).
    { pose proof (builtin_ok true ev EV fuel p (a :: P) a env s (o_inv _ _ _ _ _ _ OW) (or_introl eq_refl) (ot_env _ _ _ _ _ O) IE1 ltac:(discriminate)) as W1.
      pose proof (only_reads_quiet ev fuel p (a :: P) a env s ca xs EV (o_inv _ _ _ _ _ _ OW) (or_introl eq_refl) (ot_env _ _ _ _ _ O) IE1 LA EA) as W2.
      unfold SafeBase.wp in *. destruct (builtin_call fuel ev p a env s) as [[r s']| | | | |]; auto. split; [eapply at_loud; exact W1|]. intros OR. eapply keeps_at. exact (W2 OR). }
    apply wp_bind. apply wp_record in B1. eapply wp_mono; [exact B1|]. clear B1. intros r s1 ((H1 & K1) & EQ). set (e := Builtin p a env s r s1).
    assert (T1 : Tr ev (a :: P) s [] (eq r) [e] s1).
    { split; [exact H1|]. apply t_event; [apply keeps_refl|exists fuel; exact EQ|apply t_done, keeps_refl]. }
    assert (KE : reads_kept (stack s0) e).
    { cbn. intros ys DY OR. rewrite DA in DY. injection DY as <-. rewrite <- (ot_stack _ _ _ _ _ _ _ _ O). now apply K1. }
    assert (AN : wp (annotate r) (fun _ s' => Tr ev (a :: P) s [] (eq r) [e] s' /\ result_is s' r (data_at s1 r) /\ (forall x d, data_at s' x = Some d -> ~ is_err d -> data_at s1 x = Some d)) s1).
    { assert (AN : wp (annotate r) (fun _ s' => Tr ev (a :: P) s [] (eq r) [e] s' /\ result_is s' r (data_at s1 r)) s1).
      { eapply (tr_annotate ev (a :: P) s); [exact T1|eapply (a_good _ _ _ _ _ _ _ H1); reflexivity|]. intros s2 T2 D2. split; [exact T2|]. unfold result_is. destruct (data_at s1 r) as [d|] eqn:ED; [|exact I].
        destruct (D2 d eq_refl) as (d' & D3 & X1 & X2). exists d'. split; [exact D3|]. destruct (is_error_data d) eqn:EE; [apply is_error_iff in EE; right; auto|left; apply X2; intros F; apply is_error_iff in F; congruence]. }
      apply wp_record in AN. eapply wp_mono; [exact AN|]. intros u s2 ((X1 & X2) & X3). split; [exact X1|]. split; [exact X2|]. eapply annotate_plain; exact X3. }
    apply wp_bind. eapply wp_mono; [exact AN|]. clear AN. intros u s2 (T2 & R2 & PL). apply wp_bind, builtin_of_spec. intros p' DP'.
    assert (DP1 : data_at s1 f = Some (DBuiltin p')) by (apply PL; [exact DP'|intros F; exact F]).
    apply wp_bind. destruct (is_return p') eqn:ER.
    + assert (EP : p' = BiReturn) by (destruct p'; try discriminate; reflexivity). subst p'.
      assert (W : wp (set_fret (Some r)) (fun _ s3 => Tr ev (a :: P) s [] (eq r) [e; Pend (Some r) s2 s3] s3 /\ all s3 = all s2) s2).
      { assert (W : wp (set_fret (Some r)) (fun _ s3 => At false (a :: P) s [] (eq r) s3 /\ all s3 = all s2) s2).
        { eapply r_set_fret; [exact (tr_at _ _ _ _ _ _ _ T2)| |].
          - intros x [= <-]. destruct (a_good _ _ _ _ _ _ _ (tr_at _ _ _ _ _ _ _ T2) r eq_refl) as (X1 & X2 & _). auto.
          - intros s3 H3 E3. split; [exact H3|congruence]. }
        apply wp_record in W. eapply wp_mono; [exact W|]. intros [] s3 ((H3 & E3) & Q3). split; [|exact E3]. split; [exact H3|]. exact (trace_snoc ev (stack s) s [e] (Pend (Some r) s2 s3) (tr_tr _ _ _ _ _ _ _ T2) Q3). }
      eapply wp_mono; [exact W|]. clear W. intros u' s3 (T3 & E3). apply wp_ret. pose proof (ot_call1 _ _ _ _ _ _ _ _ _ _ _ O T3 ltac:(discriminate)) as O3.
      eapply ot_pop; [exact O3|reflexivity|]. intros s4 T4 E4. exists (evs ++ [e; Pend (Some r) s2 s3]), (data_at s1 r). split; [exact T4|]. split; [eapply bi_return; eauto|].
      split; [eapply result_same; [|exact R2]; congruence|]. apply Forall_app. split; [exact KR|]. constructor; [exact KE|]. constructor; [exact I|constructor].
    + apply wp_ret. apply wp_ret. pose proof (ot_call1 _ _ _ _ _ _ _ _ _ _ _ O T2 ltac:(discriminate)) as O3.
      eapply ot_pop; [exact O3|reflexivity|]. intros s4 T4 E4. exists (evs ++ [e]), (data_at s1 r). split; [exact T4|]. split; [eapply bi_call; eauto; intros ->; discriminate|].
      split; [eapply result_same; [exact E4|exact R2]|]. apply Forall_app. split; [exact KR|]. constructor; [exact KE|constructor].
Qed.

(** ** Functions *)
Lemma func_at_spec addr (Q : func -> vm -> Prop) s : (forall g c, lookup (all s) f = Some c -> (cdata c = DFun g \/ cdata c = DMac g) -> holds_fun s f g -> dref (cdata c) (fbody g) -> dref (cdata c) (fformals g) -> dref (cdata c) (fenv g) -> Q g s) -> wp (func_at f addr) Q s.
Proof.
  intros K. unfold func_at. apply wp_bind, wp_get_at; [discriminate|]. intros c L _. destruct (cdata c) eqn:E; try apply wp_undef; apply wp_ret; (eapply K; [exact L|rewrite E; auto| |rewrite E; cbn; auto..]); unfold holds_fun, data_at; rewrite L; cbn; rewrite E; auto.
Qed.
Definition is_last (s : vm) G (last : option ref) (ld : option (ref * data)) : Prop :=
  match last, ld with Some r, Some (r', d) => r' = r /\ G r /\ data_at s r = Some d | None, None => True | _, _ => False end.
End Calls.

Lemma tr_pop_stack ev P s0 r pre (G : ref -> Prop) evs (Q : unit -> vm -> Prop) s : Tr ev P s0 (r :: pre) G evs s ->
  (forall s', Tr ev P s0 pre (fun x => (x = r /\ ~ In r P) \/ G x) evs s' -> (exists st, s' = with_stack s st) -> Q tt s') -> wp (pop r) Q s.
Proof.
  intros T K. assert (W : wp (pop r) (fun _ s' => Tr ev P s0 pre (fun x => (x = r /\ ~ In r P) \/ G x) evs s') s) by (eapply tr_pop; [exact T|auto]).
  apply wp_record in W. eapply wp_mono; [exact W|]. intros [] s' (T' & E). apply K; [exact T'|]. unfold pop in E. destruct (stack s); [discriminate|]. destruct (_ =? _); [|discriminate]. injection E as <-. eauto.
Qed.
Lemma run_body_spec ev (EV : ev_ok true ev) P s0 f addr ext pre : In f (stack s0) -> ~ In f P -> In ext pre -> ~ In ext P ->
  forall k i last ld (G : ref -> Prop) evs0 s sx, Tr ev P s0 pre G evs0 s -> (forall x, data_at s x = data_at sx x) -> is_last s G last ld ->
  wp (run_body k ev f addr ext i last) (fun o s' => exists evs oo, Tr ev P s0 pre (fun r => o = Some r) (evs0 ++ evs) s' /\ fbody_run f ext sx i ld evs oo /\
    match oo with None => o = None | Some (r, od) => o = Some r /\ result_is s' r od end) s.
Proof.
  intros IF NF IX NX. induction k as [|k IH]; intros i last ld G evs0 s sx T DS LD; cbn [run_body]; [apply wp_nofuel|].
  apply wp_bind, func_at_spec. intros g c L EG HG DB _ _. assert (GB : good P s (fbody g)) by (eapply (good_dref true); [eapply tr_inv; exact T|exact L|exact DB]).
  assert (HX : holds_fun sx f g) by (unfold holds_fun in *; now rewrite <- DS).
  apply wp_bind, wp_vec_of; [discriminate|]. intros cb l LB EB. assert (DL : data_at sx (fbody g) = Some (DVec l)) by (rewrite <- DS; unfold data_at; rewrite LB; cbn; now rewrite EB).
  destruct (nth_error l i) as [x|] eqn:EN.
  2:{ apply wp_ret. exists [], (match ld with Some (r, d) => Some (r, Some d) | None => None end). rewrite app_nil_r. split; [|split; [eapply fb_end; eauto|]].
      - eapply tr_weaken; [exact T|]. intros r ->. destruct ld as [[r' d]|]; [|contradiction]. destruct LD as (-> & GR & _). eapply tr_good; [exact T|exact GR].
      - destruct last as [r|], ld as [[r' d]|]; try contradiction; [|reflexivity]. destruct LD as (-> & _ & D). split; [reflexivity|]. now apply result_refl. }
  assert (GX : good P s x) by (eapply (good_dref true); [eapply tr_inv; exact T|exact LB|rewrite EB; eapply nth_error_In; eauto]).
  assert (TX : Tr ev P s0 pre (eq x) evs0 s) by (eapply tr_weaken; [exact T|now intros y <-]).
  apply wp_bind. eapply t_push; [exact TX|reflexivity|]. intros s1 T1 E1.
  apply wp_bind. eapply (tr_eval ev EV P s0 x ext); [exact T1|eapply tr_good; [exact T1|reflexivity]|eapply tr_pre; [exact T1|now right|exact NX]|].
  intros o s2 T2. set (e := SpecTrace.Eval x ext s1 o s2) in *. apply wp_bind, wp_need. intros r ->. apply wp_bind, t_is_error. intros d b DR EE.
  assert (GV : gives e x ext r d) by (exists s1, s2; auto). destruct b.
  - assert (ED : is_err d) by (now apply EE). apply wp_bind. eapply tr_annotate; [exact T2|eapply tr_good; [exact T2|reflexivity]|]. intros s3 T3 D3. apply wp_bind. eapply tr_pop; [exact T3|]. intros s4 T4 E4. apply wp_ret.
    exists [e], (Some (r, Some d)). split; [eapply tr_weaken; [exact T4|]; intros y [= <-]; eapply tr_good; [exact T4|now right]|]. split; [eapply fb_error; eauto|]. split; [reflexivity|].
    destruct (D3 d DR) as (d' & D5 & K1 & _). exists d'. split; [now rewrite (data_same _ _ _ E4)|]. right. auto.
  - assert (ND : ~ is_err d) by (intros F; apply EE in F; discriminate). apply wp_bind. eapply tr_pop_stack; [exact T2|]. intros s3 T3 (st & E3).
    apply wp_bind, wp_read. replace (fret s3) with (fret s2) by (now rewrite E3). assert (D3 : forall x, data_at s3 x = data_at s2 x) by (intros y; rewrite E3; reflexivity). destruct (fret s2) as [y|] eqn:EF.
    + assert (GY : good P s3 y) by (eapply (fret_good true); [eapply tr_inv; exact T3|now rewrite E3]).
      assert (T4 : Tr ev P s0 pre (eq y) (evs0 ++ [e]) s3) by (eapply tr_weaken; [exact T3|now intros z <-]).
      assert (W : wp (set_fret None) (fun _ s4 => Tr ev P s0 pre (eq y) (evs0 ++ [e; Pend None s3 s4]) s4 /\ all s4 = all s3) s3).
      { assert (W : wp (set_fret None) (fun _ s4 => At false P s0 pre (eq y) s4 /\ all s4 = all s3) s3) by (eapply r_set_fret; [exact (tr_at _ _ _ _ _ _ _ T4)|discriminate|intros s4 H4 E4; split; [exact H4|congruence]]).
        apply wp_record in W. eapply wp_mono; [exact W|]. intros [] s4 ((H4 & E4) & Q4). split; [|exact E4]. split; [exact H4|].
        pose proof (trace_snoc ev (stack s0) s0 (evs0 ++ [e]) (Pend None s3 s4) (tr_tr _ _ _ _ _ _ _ T4) Q4) as X. rewrite <- app_assoc in X. exact X. }
      apply wp_bind. eapply wp_mono; [exact W|]. clear W. intros u s4 (T5 & E4). apply wp_ret. exists [e; Pend None s3 s4], (Some (y, data_at s2 y)).
      split; [eapply tr_weaken; [exact T5|]; intros z [= <-]; eapply tr_good; [exact T5|reflexivity]|]. split; [eapply fb_return; eauto|]. split; [reflexivity|].
      assert (DY : data_at s4 y = data_at s2 y) by (rewrite (data_same _ _ _ E4); apply D3). destruct (data_at s2 y) eqn:EY; [|exact I]. apply result_refl. congruence.
    + eapply wp_mono; [eapply (IH (S i) (Some r) (Some (r, d)) _ _ s3 s2 T3 D3)|].
      * split; [reflexivity|]. split; [now right|]. now rewrite D3.
      * intros o s4 (evs & oo & H1 & H2 & H3). exists (e :: evs), oo. rewrite <- app_assoc in H1. split; [exact H1|]. split; [eapply fb_next; eauto|exact H3].
Qed.

Lemma call_function_spec ev (EV : ev_ok true ev) fuel P s0 v f env addr : Inv P s0 -> In v (stack s0) -> In env (stack s0) -> In f (stack s0) -> ~ In env P -> ~ In v P -> ~ In f P ->
  wp (call_function fuel ev v addr f env false false) (fun o s' => exists evs oo, Tr ev P s0 [] (fun r => o = Some r) evs s' /\ function_run env v f s0 evs oo /\
    match oo with None => o = None | Some (r, od) => o = Some r /\ result_is s' r od end) s0.
Proof.
  intros A0 IV IE IF NE NV NF. unfold call_function. apply (ot_bind ev P s0 A0). intros a s O. apply wp_bind.
  eapply wp_mono; [eapply (eval_args_spec ev EV P s0 A0 v env IV IE NE addr a fuel 1 [] _ [] s s0 O); apply (ot_at ev P s0 _ _ _ _ _ v O eq_refl); now apply re_root|]. clear O s.
  intros o s (evs & xs & H). cbn [app] in H. destruct o as [x|].
  - destruct H as (d & R & O & RD). assert (T : Tr ev P s0 [a] (eq x) evs s) by (split; [apply (ot_own _ _ _ _ _ _ _ _ O)|apply O]).
    apply wp_bind. eapply tr_pop; [exact T|]. intros s1 T1 E1. apply wp_ret. exists evs, (Some (x, Some d)). split; [eapply tr_weaken; [exact T1|]; intros y [= <-]; eapply tr_good; [exact T1|now right]|].
    split; [eapply fu_args; exact R|]. split; [reflexivity|]. eapply result_same; [exact E1|exact RD].
  - destruct H as (R & O). pose proof (ot_own _ _ _ _ _ _ _ _ O) as OW. destruct (ot_vec _ _ _ _ _ _ _ _ O) as (ca & LA & EA).
    set (P1 := a :: P). assert (T : Tr ev P1 s [] (fun _ => False) [] s) by (apply (ot_start _ _ _ _ _ _ _ _ O)).
    assert (IA : In a (stack s)) by (rewrite (ot_stack _ _ _ _ _ _ _ _ O); now left). assert (IF1 : In f (stack s)) by (rewrite (ot_stack _ _ _ _ _ _ _ _ O); now right).
    destruct (own_old _ _ _ _ _ _ f OW IF NF) as (GF & _). assert (LTa : a < nextId s) by (now apply (i_stack _ _ _ (o_inv _ _ _ _ _ _ OW))).
    assert (NX0 : nextId s0 <= nextId s) by (apply (a_next _ _ _ _ _ _ _ (o_at _ _ _ _ _ _ OW))).
    apply wp_bind, wp_get_cell; [discriminate|]. intros c L. apply wp_bind, func_at_spec. intros g c' L' EG HG DB DF DE. rewrite L in L'. injection L' as <-.
    assert (GFo : good P1 s (fformals g)) by (eapply (good_dref true); [eapply tr_inv; exact T|exact L|exact DF]).
    assert (GEn : good P1 s (fenv g)) by (eapply (good_dref true); [eapply tr_inv; exact T|exact L|exact DE]).
    apply wp_bind. eapply tr_alloc; [exact T| |].
    { intros x [(t & k' & w & [] & _)|[= <-]]. split; [apply GEn|]. eapply reach_child; [apply re_root; exact IF1|exact L|exact DE]. }
    intros ext s1 T1 NX (ad & LX) S1 OX. 
    assert (LTf : f < nextId s) by apply GF. assert (LTo : fformals g < nextId s) by apply GFo.
    assert (L1 : lookup (all s1) f = Some c) by (rewrite S1; [exact L|now apply re_root]). assert (LA1 : lookup (all s1) a = Some ca) by (rewrite S1; [exact LA|now apply re_root]).
    apply wp_bind. eapply t_push; [exact T1|reflexivity|]. intros s2 T2 E2.
    assert (W : wp (env_extend ext (fformals g) a) (fun o s' => Tr ev P1 s [ext] (fun r => o = Some r) [Extend ext (fformals g) a s2 o s'] s') s2).
    { assert (W : wp (env_extend ext (fformals g) a) (fun o s' => At false P1 s [ext] (fun r => o = Some r) s') s2).
      { eapply (env_extend_ok true P1 s ext (fformals g) a f c [ext]); [exact (tr_at _ _ _ _ _ _ _ T2)|now left|exact NX|lia|lia|lia| |exact IA|exact IF1|rewrite E2; exact L1|exact DF].
        eapply (good_dref true); [eapply tr_inv; exact T2|rewrite E2; exact L1|exact DF]. }
      apply wp_record in W. eapply wp_mono; [exact W|]. intros o s3 (H3 & Q3). split; [exact H3|]. exact (trace_snoc ev (stack s) s [] (Extend ext (fformals g) a s2 o s3) (tr_tr _ _ _ _ _ _ _ T2) Q3). }
    assert (HG2 : holds_fun s2 f g) by (unfold holds_fun, data_at in *; rewrite E2, L1; rewrite L in HG; exact HG).
    assert (DX : data_at s2 ext = Some (DEnv [] (Some (fenv g)))) by (unfold data_at; rewrite E2, LX; reflexivity).
    assert (DA : data_at s2 a = Some (DVec xs)) by (unfold data_at; rewrite E2, LA1; cbn; now rewrite EA).
    apply wp_bind. eapply wp_mono; [exact W|]. clear W. intros o s3 T3. set (e := Extend ext (fformals g) a s2 o s3) in *. cbv beta in T3.
    apply wp_bind. apply (wp_mono true _ (fun o s' => exists evs' oo, Tr ev P1 s [ext] (fun r => o = Some r) evs' s' /\ function_run env v f s0 (evs ++ evs') oo /\ match oo with None => o = None | Some (r, od) => o = Some r /\ result_is s' r od end)).
    + destruct o as [r|].
      * apply wp_ret. exists [e], (Some (r, data_at s3 r)). split; [exact T3|]. split; [eapply fu_refused; eauto; lia|]. split; [reflexivity|]. destruct (data_at s3 r) eqn:ER; [now apply result_refl|exact I].
      * apply wp_bind. eapply wp_mono; [eapply (run_body_spec ev EV P1 s f (caddr c) ext [ext] IF1 ltac:(apply GF) (or_introl eq_refl) NX fuel 0 None None _ [e] s3 s3 T3); [reflexivity|exact I]|].
        intros o s4 (evs' & oo & H1 & H2 & H3). apply wp_ret. exists (e :: evs'), oo. split; [exact H1|]. split; [eapply fu_run; eauto; lia|exact H3].
    + clear T3 e. intros o' s4 (evs' & oo & H1 & H2 & H3).
      assert (T4 : Tr ev P s0 [ext; a] (fun r => o' = Some r) (evs ++ evs') s4).
      { split.
        - pose proof (at_unpriv true _ P P1 _ _ _ _ (tr_at _ _ _ _ _ _ _ H1) (fun x J => or_intror J)) as X. exact (at_call_pre _ _ _ _ _ _ _ _ _ _ _ (o_at _ _ _ _ _ _ OW) X (fun e => e)).
        - eapply trace_app; [apply O|]. eapply trace_incl; [|exact (tr_tr _ _ _ _ _ _ _ H1)]. rewrite (ot_stack _ _ _ _ _ _ _ _ O). intros y; now right. }
      apply wp_bind. eapply (tr_pops ev P s0 [ext; a] []); [exact T4|]. intros s5 T5 E5. apply wp_ret. exists (evs ++ evs'), oo.
      split; [eapply tr_weaken; [exact T5|]; intros y J; eapply tr_good; [exact T5|now right]|]. split; [exact H2|]. destruct oo as [[r od]|]; [|exact H3]. destruct H3 as (H3 & H4). split; [exact H3|]. eapply result_same; [exact E5|exact H4].
Qed.

(** ** Evaluation of a form *)
Section Form.
Context (fuel : nat) (env v x f : ref) (s s2 s' : vm) (o : option ref) (C : calls_form fuel env v s x f s2 o s').
Notation ev := (Eval.eval fuel).
Notation s3 := (with_stack s2 (f :: stack s2)).
Lemma form_operator : Tr ev [] (inside v env s) [f] (eq f) [SpecTrace.Eval x env (inside v env s) (Some f) s2] s3.
Proof.
  destruct C as [SA LV LE QT (xs & DV) CF EV].
  pose proof (inside_inv v env s SA LV LE) as A1. pose proof (eval_safe true fuel) as EVO.
  assert (GX : good [] (inside v env s) x).
  { unfold data_at in DV. destruct (lookup (all s) v) as [c|] eqn:L; [|discriminate]. injection DV as EC'. eapply (good_dref true []); [exact A1|cbn; exact L|rewrite EC'; now left]. }
  assert (GE : good [] (inside v env s) env) by (split; [exact LE|easy]).
  assert (T2 : Tr ev [] (inside v env s) [] (eq f) [SpecTrace.Eval x env (inside v env s) (Some f) s2] s2).
  { pose proof (tr_eval ev EVO [] (inside v env s) x env [] _ [] (fun o s' => Tr ev [] (inside v env s) [] (fun r => o = Some r) [SpecTrace.Eval x env (inside v env s) o s'] s') _ (tr_start ev [] _ A1) GX GE (fun o s' T => T)) as W.
    eapply tr_eq; [exact (wp_ret_inv _ _ _ _ _ W CF)|reflexivity]. }
  exact (t_push ev [] (inside v env s) f [] _ _ (fun _ s' => Tr ev [] (inside v env s) [f] (eq f) [SpecTrace.Eval x env (inside v env s) (Some f) s2] s') _ T2 eq_refl (fun s' T _ => T)).
Qed.
Lemma form_stack : stack s3 = f :: env :: v :: stack s.
Proof. rewrite (a_stack _ _ _ _ _ _ _ (tr_at _ _ _ _ _ _ _ form_operator)). reflexivity. Qed.
Lemma form_next : nextId s <= nextId s2.
Proof. exact (a_next _ _ _ _ _ _ _ (tr_at _ _ _ _ _ _ _ form_operator)). Qed.
Lemma form_trace (G : ref -> Prop) evs s4 st : Tr ev [] s3 [] G evs s4 -> s' = with_stack s4 st -> trace ev (env :: v :: stack s) s (SpecTrace.Eval x env (inside v env s) (Some f) s2 :: evs) s'.
Proof.
  intros T4 ES. pose proof form_stack as STK. pose proof (cf_operator _ _ _ _ _ _ _ _ _ C) as CF. rewrite ES. apply t_event; [apply inside_keeps|exact CF|]. cbn [after]. eapply trace_before; [|eapply trace_after; [eapply trace_incl; [|exact (tr_tr _ _ _ _ _ _ _ T4)]|]].
  + apply keeps_same; reflexivity.
  + rewrite STK. intros y J. now right.
  + apply keeps_same; reflexivity.
Qed.
Lemma eval_builtin_spec p : data_at s2 f = Some (DBuiltin p) -> exists r evs od, o = Some r /\
  trace ev (env :: v :: stack s) s (SpecTrace.Eval x env (inside v env s) (Some f) s2 :: evs) s' /\ builtin_run env v f s2 evs r od /\ result_is s' r od /\ Forall (reads_kept (f :: env :: v :: stack s)) evs.
Proof.
  intros DF. pose proof form_operator as T3. pose proof form_stack as STK. pose proof C as [SA LV LE QT (xs & DV) CF EV].
  destruct (eval_form_inv fuel v env s o s' x xs QT DV EV) as (fo & s2' & addr & EF & _ & _ & K & _). rewrite CF in EF. injection EF as <- <-.
  destruct (K f p eq_refl DF) as (r & s4 & st & EC & EO & ES). clear K.
  pose proof (call_builtin_spec ev (eval_safe true fuel) fuel [] s3 (tr_inv _ _ _ _ _ _ _ T3) v env f ltac:(rewrite STK; cbn; auto) ltac:(rewrite STK; cbn; auto) ltac:(easy) addr) as W.
  destruct (wp_ret_inv _ _ _ _ _ W EC) as (evs & od & T4 & R & RD & K). clear W. exists r, evs, od. split; [exact EO|]. split; [eapply form_trace; eauto|]. rewrite <- STK. split; [|split; [rewrite ES; exact RD|exact K]].
  clear - R. assert (A : forall i evs xs o, args_run env v s3 i evs xs o -> args_run env v s2 i evs xs o).
  { intros i evs0 xs o H. inversion H; subst; [eapply args_end; eauto|eapply args_next; eauto|eapply args_error; eauto]. }
  destruct R; [eapply bi_args; eauto|eapply bi_call; eauto|eapply bi_return; eauto].
Qed.
Lemma eval_function_spec g : data_at s2 f = Some (DFun g) -> exists evs oo,
  trace ev (env :: v :: stack s) s (SpecTrace.Eval x env (inside v env s) (Some f) s2 :: evs) s' /\ function_run env v f s2 evs oo /\
  match oo with None => o = None | Some (r, od) => o = Some r /\ result_is s' r od end.
Proof.
  intros DF. pose proof form_operator as T3. pose proof form_stack as STK. pose proof C as [SA LV LE QT (xs & DV) CF EV].
  destruct (eval_form_inv fuel v env s o s' x xs QT DV EV) as (fo & s2' & addr & EF & _ & _ & _ & K). rewrite CF in EF. injection EF as <- <-.
  destruct (K f g eq_refl DF) as (s4 & st & EC & ES). clear K.
  pose proof (call_function_spec ev (eval_safe true fuel) fuel [] s3 v f env addr (tr_inv _ _ _ _ _ _ _ T3) ltac:(rewrite STK; cbn; auto) ltac:(rewrite STK; cbn; auto) ltac:(rewrite STK; cbn; auto) ltac:(easy) ltac:(easy) ltac:(easy)) as W.
  destruct (wp_ret_inv _ _ _ _ _ W EC) as (evs & oo & T4 & R & RD). clear W. exists evs, oo. split; [eapply form_trace; eauto|]. split.
  - clear - R. assert (A : forall i evs xs o, args_run env v s3 i evs xs o -> args_run env v s2 i evs xs o).
    { intros i evs0 xs o H. inversion H; subst; [eapply args_end; eauto|eapply args_next; eauto|eapply args_error; eauto]. }
    destruct R; [eapply fu_args; eauto|eapply fu_refused; eauto|eapply fu_run; eauto].
  - destruct oo as [[r od]|]; [|exact RD]. destruct RD as (E & RD). split; [exact E|]. rewrite ES. exact RD.
Qed.
End Form.
