(** The special forms do what SpecSpecial.v says. *)
From Coq Require Import NArith ZArith Bool Lia Arith List String.
From Coq Require Import ZifyBool ZifyNat ZifyN.
From Verif Require Import Base OString HMap Heap SpecHeap GcProofs VmProofs ValueOps Env Copy Builtins Specials Eval SafeBase SafeRead SafeLib SafeBuiltins SafeSpecials SafeEval SpecTrace SpecSpecial TraceProofs.
Import ListNotations.
Local Open Scope N_scope.

Lemma data_same s s' r : all s' = all s -> data_at s' r = data_at s r.
Proof. intros E. unfold data_at. now rewrite E. Qed.
Lemma result_refl s r d : data_at s r = Some d -> result_is s r (Some d).
Proof. intros E. exists d. split; [exact E|now left]. Qed.
Lemma result_same s s' r od : all s' = all s -> result_is s r od -> result_is s' r od.
Proof. intros E. unfold result_is. now rewrite (data_same _ _ _ E). Qed.
Lemma text_eqb_true a b : text_eqb a b = true <-> a = b.
Proof. unfold text_eqb. destruct (list_eq_dec N.eq_dec a b); split; congruence. Qed.

Lemma select_same env l evs r od s s' : (forall x, In x l -> is_default s x <-> is_default s' x) -> select_run env s l evs r od -> select_run env s' l evs r od.
Proof.
  intros K Y. destruct Y as [s r|s x y e r od Dx Y|s x y l r d Dx N E|s x y l e t e' r od Dx G1 Y|s x y l e t evs r od Dx G1 Y|s x y l e t d Dx G1 E|s x y l e t dt r d Dx G1 N1 N2 E];
    try (assert (K' : is_default s x <-> is_default s' x) by (apply K; now left)).
  - apply sel_none.
  - apply sel_default; tauto.
  - apply sel_early_default; tauto.
  - eapply sel_true; eauto; tauto.
  - eapply sel_false; eauto; tauto.
  - eapply sel_error; eauto; tauto.
  - eapply sel_not_bool; eauto; tauto.
Qed.

Section Spec.
Context (ev : evaluator) (EV : ev_ok true ev) (P : list ref) (a env : ref) (s0 : vm) (c0 : cell) (l : list ref).
Context (IN : In a P) (L0 : lookup (all s0) a = Some c0) (E0 : cdata c0 = DVec l) (GE : good P s0 env) (A0 : Inv P s0).
Notation Tr := (Tr ev P s0).
Implicit Types (pre : list ref) (G : ref -> Prop) (s : vm) (evs : list event).

Definition ends (evs0 : list event) (R : list event -> ref -> option data -> Prop) (r : ref) (s : vm) : Prop :=
  exists evs od, Tr [] (eq r) (evs0 ++ evs) s /\ R evs r od /\ result_is s r od.
Lemma ends_cons evs0 e (R : list event -> ref -> option data -> Prop) r s : ends (evs0 ++ [e]) (fun evs => R (e :: evs)) r s -> ends evs0 R r s.
Proof. intros (evs & od & T & H & K). exists (e :: evs), od. rewrite <- app_assoc in T. auto. Qed.
Lemma ends_app evs0 evs1 (R : list event -> ref -> option data -> Prop) r s : ends (evs0 ++ evs1) (fun evs => R (evs1 ++ evs)) r s -> ends evs0 R r s.
Proof. intros (evs & od & T & H & K). exists (evs1 ++ evs), od. rewrite <- app_assoc in T. auto. Qed.
Lemma ends_mono evs0 (R R' : list event -> ref -> option data -> Prop) r s : (forall evs od, R evs r od -> R' evs r od) -> ends evs0 R r s -> ends evs0 R' r s.
Proof. intros W (evs & od & T & H & K). exists evs, od. auto. Qed.
Lemma ends_now evs0 (R : list event -> ref -> option data -> Prop) r od s : Tr [] (eq r) evs0 s -> R [] r od -> result_is s r od -> ends evs0 R r s.
Proof. intros T H K. exists [], od. rewrite app_nil_r. auto. Qed.
Lemma wp_ends evs0 evs1 (R : list event -> ref -> option data -> Prop) (m : M ref) s : wp m (ends (evs0 ++ evs1) (fun evs => R (evs1 ++ evs))) s -> wp m (ends evs0 R) s.
Proof. intros W. eapply wp_mono; [exact W|]. intros r s'. apply ends_app. Qed.
Lemma wp_ends_mono evs0 (R R' : list event -> ref -> option data -> Prop) (m : M ref) s : (forall evs r od, R evs r od -> R' evs r od) -> wp m (ends evs0 R) s -> wp m (ends evs0 R') s.
Proof. intros K W. eapply wp_mono; [exact W|]. intros r s'. apply ends_mono. auto. Qed.
Lemma tr_eq pre G evs s r : Tr pre G evs s -> G r -> Tr pre (eq r) evs s.
Proof. intros H K. eapply tr_weaken; [exact H|]. intros x <-. now apply (a_good _ _ _ _ _ _ _ (tr_at _ _ _ _ _ _ _ H)). Qed.
Lemma tr_good pre G evs s x : Tr pre G evs s -> G x -> good P s x.
Proof. intros H. apply (a_good _ _ _ _ _ _ _ (tr_at _ _ _ _ _ _ _ H)). Qed.
Lemma tr_env pre G evs s : Tr pre G evs s -> good P s env.
Proof. intros H. eapply (good_later true); [exact (tr_at _ _ _ _ _ _ _ H)|exact GE|discriminate]. Qed.
Lemma tr_env' pre G evs s e : Tr pre G evs s -> good P s0 e -> good P s e.
Proof. intros H K. eapply (good_later true); [exact (tr_at _ _ _ _ _ _ _ H)|exact K|discriminate]. Qed.
Lemma tr_pre pre G evs s e : Tr pre G evs s -> In e pre -> ~ In e P -> good P s e.
Proof. intros H K N. eapply (at_good true); [exact (tr_at _ _ _ _ _ _ _ H)|has|auto]. Qed.
Lemma tr_inv pre G evs s : Tr pre G evs s -> Inv P s.
Proof. intros H. apply (tr_at _ _ _ _ _ _ _ H). Qed.

Lemma t_push_a pre G evs (Q : unit -> vm -> Prop) s : Tr pre G evs s -> (forall s', Tr (a :: pre) G evs s' -> all s' = all s -> Q tt s') -> wp (push a) Q s.
Proof. intros H K. eapply tr_push; [exact H| |exact K]. right. right. left. apply (i_priv _ _ _ (a_inv0 _ _ _ _ _ _ _ (tr_at _ _ _ _ _ _ _ H))). exact IN. Qed.
Lemma t_push r pre G evs (Q : unit -> vm -> Prop) s : Tr pre G evs s -> G r -> (forall s', Tr (r :: pre) G evs s' -> all s' = all s -> Q tt s') -> wp (push r) Q s.
Proof. intros H GR K. eapply tr_push; [exact H|has|exact K]. Qed.
Lemma t_nargs pre G evs (Q : nat -> vm -> Prop) s : Tr pre G evs s -> Q (List.length l) s -> wp (nargs a) Q s.
Proof.
  intros H K. destruct (tr_vec ev P s0 a l c0 _ _ _ _ H IN L0 E0) as (L & _). unfold nargs. apply wp_bind, wp_vec_of; [discriminate|].
  intros c l' L' E'. rewrite L in L'. injection L' as <-. rewrite E0 in E'. injection E' as <-. now apply wp_ret.
Qed.
Lemma t_arg i pre G evs (Q : ref -> vm -> Prop) s : Tr pre G evs s -> (forall x, nth_error l i = Some x -> good P s x -> Q x s) -> wp (arg a i) Q s.
Proof.
  intros H K. destruct (tr_vec ev P s0 a l c0 _ _ _ _ H IN L0 E0) as (L & GL). apply wp_arg; [discriminate|].
  intros c l' x L' E' N. rewrite L in L'. injection L' as <-. rewrite E0 in E'. injection E' as <-. apply K; [exact N|]. apply GL. eapply nth_error_In; eauto.
Qed.
Lemma t_get x (Q : data -> vm -> Prop) s : (forall d, data_at s x = Some d -> Q d s) -> wp (get x) Q s.
Proof. intros K. apply wp_get; [discriminate|]. intros c L. apply K. unfold data_at. now rewrite L. Qed.
Lemma is_error_iff d : is_error_data d = true <-> is_err d.
Proof. destruct d; cbn; split; try easy; congruence. Qed.
Lemma t_is_error x (Q : bool -> vm -> Prop) s : (forall d b, data_at s x = Some d -> (b = true <-> is_err d) -> Q b s) -> wp (is_error x) Q s.
Proof. intros K. apply wp_is_error; [discriminate|]. intros c L. apply (K (cdata c)); [unfold data_at; now rewrite L|apply is_error_iff]. Qed.
Lemma t_sym_is x str (Q : bool -> vm -> Prop) s : (forall b, (b = true <-> data_at s x = Some (DSym (asc str))) -> Q b s) -> wp (sym_is x str) Q s.
Proof.
  intros K. unfold sym_is. apply wp_bind, t_get. intros d E. destruct d; apply wp_ret, K; try (split; congruence).
  rewrite E, text_eqb_true. split; congruence.
Qed.
Lemma t_ev x e pre G evs (Q : option ref -> vm -> Prop) s : Tr pre G evs s -> good P s x -> good P s e ->
  (forall o s', Tr pre (fun r => o = Some r) (evs ++ [SpecTrace.Eval x e s o s']) s' -> Q o s') -> wp (ev x e) Q s.
Proof. intros H GX Ge K. eapply tr_eval; eauto. Qed.
(** One argument evaluated. *)
Lemma t_evarg i e (K : ref -> M ref) pre G evs (Q : ref -> vm -> Prop) s : Tr pre G evs s -> good P s e ->
  (forall x r s1, nth_error l i = Some x -> Tr pre (eq r) (evs ++ [SpecTrace.Eval x e s (Some r) s1]) s1 -> wp (K r) Q s1) ->
  wp (x <- arg a i ;; o <- ev x e ;; r <- need o ;; K r) Q s.
Proof.
  intros H Ge W. apply wp_bind. eapply t_arg; [exact H|]. intros x N GX. apply wp_bind. eapply t_ev; [exact H|exact GX|exact Ge|].
  intros o s1 H1. apply wp_bind, wp_need. intros r ->. eapply W; [exact N|]. eapply tr_eq; [exact H1|reflexivity].
Qed.
Lemma gives_eval x e s r s1 d : data_at s1 r = Some d -> gives (SpecTrace.Eval x e s (Some r) s1) x e r d.
Proof. intros E. exists s, s1. auto. Qed.
Lemma yields_eval x e s r s1 : yields (SpecTrace.Eval x e s (Some r) s1) x e r (data_at s1 r).
Proof. exists s, s1. auto. Qed.
Lemma result_now s r : result_is s r (data_at s r).
Proof. destruct (data_at s r) as [d|] eqn:E; [|exact I]. now apply result_refl. Qed.
Lemma result_then s s' r : all s' = all s -> result_is s' r (data_at s r).
Proof. intros E. rewrite <- (data_same s s' r E). apply result_now. Qed.

(** Endings. *)
Lemma t_fin G evs (R : list event -> ref -> option data -> Prop) od r s : Tr [a] G evs s -> G r -> R [] r od -> result_is s r od -> wp (pop a ;;; ret r) (ends evs R) s.
Proof.
  intros H GR K D. apply wp_bind. eapply tr_pop; [exact H|]. intros s1 H1 E1. apply wp_ret. eapply ends_now; [|exact K|eapply result_same; eauto].
  eapply tr_eq; [exact H1|]. now right.
Qed.
Lemma t_error pre G evs (R : list event -> ref -> option data -> Prop) s : Tr pre G evs s -> pre = [] -> (forall r d, is_err d -> R [] r (Some d)) -> wp new_error (ends evs R) s.
Proof.
  intros H -> K. eapply tr_error; [exact H|]. intros r s1 d H1 D1 ED. eapply ends_now; [exact H1|apply K; exact ED|now apply result_refl].
Qed.
Lemma t_fin_error G evs (R : list event -> ref -> option data -> Prop) s : Tr [a] G evs s -> (forall r d, is_err d -> R [] r (Some d)) -> wp (pop a ;;; new_error) (ends evs R) s.
Proof. intros H K. apply wp_bind. eapply tr_pop; [exact H|]. intros s1 H1 E1. eapply t_error; [exact H1|reflexivity|exact K]. Qed.
Lemma t_alloc_atom d pre G evs (Q : ref -> vm -> Prop) s : Tr pre G evs s -> (forall x, ~ dref d x) -> (forall r s', Tr pre (eq r) evs s' -> data_at s' r = Some d -> Q r s') -> wp (alloc d) Q s.
Proof.
  intros H N K. eapply tr_alloc; [exact H|intros x R; now apply N in R|]. intros r s1 H1 _ (ad & L) _ _. apply K; [exact H1|]. unfold data_at. now rewrite L.
Qed.
Lemma t_fin_alloc d G evs (R : list event -> ref -> option data -> Prop) s : Tr [a] G evs s -> (forall x, ~ dref d x) -> (forall r, R [] r (Some d)) -> wp (pop a ;;; alloc d) (ends evs R) s.
Proof.
  intros H N K. apply wp_bind. eapply tr_pop; [exact H|]. intros s1 H1 E1. eapply t_alloc_atom; [exact H1|exact N|]. intros r s2 H2 D2. eapply ends_now; [exact H2|apply K|now apply result_refl].
Qed.
(** A quiet part that leaves values on the stack. *)
Lemma t_quiet pre G evs s pre' G' s' : Tr pre G evs s -> At true P s pre' G' s' -> Tr (pre' ++ pre) G' evs s'.
Proof.
  intros H A. split.
  - eapply (at_call_pre true); [exact (tr_at _ _ _ _ _ _ _ H)|exact A|discriminate].
  - eapply trace_after; [exact (tr_tr _ _ _ _ _ _ _ H)|]. eapply keeps_incl; [exact (tr_base _ _ _ _ _ _ _ H)|]. eapply keeps_at; exact A.
Qed.
Lemma const_data d t s : Inv P s -> (forall x, ~ dref d x) -> wp (new_const d t) (fun r s' => At true P s [] (eq r) s' /\ data_at s' r = Some d) s.
Proof.
  intros A ND. unfold new_const. pose proof (at_start true true P s A) as H.
  apply wp_bind, (r_alloc true true P s d [] _ _ _ H); [intros x R; now apply ND in R|discriminate|]. clear H. intros x s1 H AL MX.
  apply wp_bind, (r_push_all true true P s x [] _ _ _ H); [has|]. clear H. intros s2 H E2.
  apply wp_bind, (r_alloc true true P s (DStr t) [x] _ _ _ H); [easy|easy|]. intros y s3 H3 AL3 MY.
  assert (D3 : exists c, lookup (all s3) x = Some c /\ cdata c = d).
  { destruct (al_cell _ _ _ _ _ _ AL) as (ad & L). rewrite (q_same _ _ _ _ (al_quiet _ _ _ _ _ _ AL3)); [rewrite E2, L; eauto|]. apply re_root. rewrite (a_stack _ _ _ _ _ _ _ H). now left. }
  clear H. apply wp_bind, (r_push_all true true P s y [x] _ _ _ H3); [has|]. clear H3. intros s4 H E4.
  apply wp_bind. unfold SafeBase.wp at 1, pop. rewrite (a_stack _ _ _ _ _ _ _ H). cbn [app]. rewrite N.eqb_refl.
  pose proof (r_pop true true P s y [x] _ (fun _ s' => At true P s [x] (fun z => z = y /\ ~ In y P \/ eq y z) s') _ H (fun s' K => K)) as W.
  unfold SafeBase.wp, pop in W. rewrite (a_stack _ _ _ _ _ _ _ H) in W. cbn [app] in W. rewrite N.eqb_refl in W.
  set (s5 := with_stack s4 (x :: stack s)) in *. clear H. rename W into H. assert (E5 : all s5 = all s3) by exact E4.
  assert (GY : good P s5 y) by (apply (a_good _ _ _ _ _ _ _ H); right; reflexivity).
  apply wp_bind, (r_set_docs true true P s x _ _ [x] _ _ _ H); [has|exact MX| | |auto|].
  { intros z [= <-]. exact GY. } { discriminate. }
  clear GY. intros s6 H6 D6 _. rewrite <- E5 in D3. destruct D3 as (c & L & E). destruct (D6 c L) as (c' & L' & E').
  apply wp_bind. unfold SafeBase.wp at 1, pop. rewrite (a_stack _ _ _ _ _ _ _ H6). cbn [app]. rewrite N.eqb_refl.
  pose proof (r_pop true true P s x [] _ (fun _ s' => At true P s [] (fun z => z = x /\ ~ In x P \/ (z = y /\ ~ In y P \/ eq y z)) s') _ H6 (fun s' K => K)) as W.
  unfold SafeBase.wp, pop in W. rewrite (a_stack _ _ _ _ _ _ _ H6) in W. cbn [app] in W. rewrite N.eqb_refl in W.
  apply wp_ret. split.
  - eapply at_eq; [exact W|]. left. split; [reflexivity|apply MX].
  - unfold data_at. cbn. rewrite L'. cbn. congruence.
Qed.
Lemma t_const d t pre G evs (Q : ref -> vm -> Prop) s : Tr pre G evs s -> (forall x, ~ dref d x) -> (forall r s', Tr pre (eq r) evs s' -> data_at s' r = Some d -> Q r s') -> wp (new_const d t) Q s.
Proof.
  intros H N K. eapply wp_mono; [exact (const_data d t s (tr_inv _ _ _ _ H) N)|]. intros r s1 (A & E). apply K; [|exact E].
  exact (t_quiet pre G evs s [] _ s1 H A).
Qed.
(** A new form holding one value. *)
Lemma t_form f g pre G evs s {X} (K : ref -> M X) (QX : X -> vm -> Prop) : Tr pre G evs s -> In f pre -> ~ In f P -> data_at s f = Some (DFun g) ->
  (forall w s', Tr (w :: pre) (eq w) evs s' -> data_at s' w = Some (DVec [f]) -> wp (K w) QX s') ->
  wp (w <- alloc (DVec []) ;; push w ;;; vec_push w f ;;; K w) QX s.
Proof.
  intros T IF NF DF W. pose proof (at_start true true P s (tr_inv _ _ _ _ T)) as H.
  apply wp_bind, (r_alloc true true P s (DVec []) [] _ _ _ H); [easy|easy|]. clear H. intros w s1 H AL MW.
  apply wp_bind, (r_push_all true true P s w [] _ _ _ H); [has|]. clear H. intros s2 H E2.
  assert (IS : In f (stack s)) by (rewrite (a_stack _ _ _ _ _ _ _ (tr_at _ _ _ _ _ _ _ T)); apply in_or_app; auto).
  apply wp_bind. eapply (r_vec_push true true P s w f [w]); [exact H|has|exact MW| |].
  { eapply (at_good true); [exact H|has|auto]. }
  intros s3 H3 _ DW. destruct (al_cell _ _ _ _ _ _ AL) as (ad & L). rewrite E2 in DW. destruct (DW _ _ L eq_refl) as (c' & L' & E').
  apply W.
  - apply (t_quiet pre G evs s [w] (eq w) s3 T). eapply at_eq; [exact H3|reflexivity].
  - unfold data_at. rewrite L'. cbn. now rewrite E'.
Qed.

(** ** quote *)
Lemma quote_spec : wp (s_quote a) (ends [] (quote_run s0 l)) s0.
Proof.
  unfold s_quote. pose proof (tr_start ev P s0 A0) as H. apply wp_bind. eapply t_nargs; [exact H|]. destruct (Nat.eqb_spec (List.length l) 1); cbn [negb].
  - eapply t_arg; [exact H|]. intros x NX GX. assert (EL : l = [x]) by (destruct l as [|x' [|]]; cbn in *; try lia; congruence). rewrite EL.
    eapply ends_now; [|apply quote_one|apply result_now]. eapply tr_weaken; [exact H|]. now intros y <-.
  - eapply t_error; [exact H|reflexivity|]. intros r d ED. now apply quote_arity.
Qed.

(** ** if *)
Lemma if_spec : wp (s_if ev a env) (ends [] (if_run env l)) s0.
Proof.
  unfold s_if. pose proof (tr_start ev P s0 A0) as H. apply wp_bind. eapply t_nargs; [exact H|].
  destruct (negb _) eqn:EN.
  { eapply t_error; [exact H|reflexivity|]. intros r d ED. apply if_arity; [| |exact ED]; lia. }
  assert (LN : List.length l = 2%nat \/ List.length l = 3%nat) by lia. clear EN.
  apply wp_bind. eapply t_push_a; [exact H|]. clear H. intros s1 H _.
  eapply t_evarg; [exact H|eapply tr_env; exact H|]. clear H. intros c t s2 NC H. cbn [app] in H.
  assert (GT : good P s2 t) by (eapply tr_good; [exact H|reflexivity]).
  apply wp_bind. eapply t_push; [exact H|reflexivity|]. clear H. intros s3 H E3. apply wp_bind, t_get. intros dt DT.
  apply wp_bind. apply (wp_mono true _ (fun t s => exists evs, Tr [a] (eq t) evs s /\ forall d, data_at s t = Some d -> test_run env c evs t d)).
  - assert (W : ~ is_func dt -> wp (pop t ;;; ret t) (fun t s => exists evs, Tr [a] (eq t) evs s /\ forall d, data_at s t = Some d -> test_run env c evs t d) s3).
    { intros NF. apply wp_bind. eapply tr_pop; [exact H|]. intros s4 H4 E4. apply wp_ret. eexists. split; [eapply tr_eq; [exact H4|now right]|].
      intros d. rewrite (data_same _ _ _ E4), DT. intros [= <-]. apply test_plain; [|exact NF]. apply gives_eval. now rewrite <- (data_same _ _ _ E3). }
    destruct dt; try (apply W; intros F; exact F). clear W.
    eapply t_form; [exact H|now left|apply GT|exact DT|]. clear H. intros w s4 H DW.
    apply wp_bind. eapply t_ev; [exact H|eapply tr_good; [exact H|reflexivity]|eapply tr_env; exact H|]. clear H. intros o s5 H.
    apply wp_bind. eapply (tr_pops ev P s0 [w; t] [a]); [exact H|]. clear H. intros s6 H E6. apply wp_need. intros r ->.
    eexists. split; [eapply tr_eq; [exact H|now right]|]. intros d DR. cbn [app]. eapply test_call.
    + apply gives_eval. rewrite <- (data_same _ _ _ E3). exact DT.
    + apply gives_eval. rewrite <- (data_same _ _ _ E6). exact DR.
    + exact DW.
  - clear H DT E3 GT. intros t' s4 (evs & H & TR). cbv beta in H. apply wp_bind, t_get. intros d D'. specialize (TR _ D').
    assert (SPLIT : exists x l', l = c :: x :: l' /\ (List.length l' <= 1)%nat).
    { destruct l as [|c' [|x l']]; cbn in LN; try lia. injection NC as ->. exists x, l'. split; [reflexivity|lia]. }
    destruct SPLIT as (x & l' & EL & LL). assert (LT : List.length l = S (S (List.length l'))) by (rewrite EL; reflexivity). rewrite LT. clear LN.
    assert (BRANCH : forall i y, nth_error l i = Some y -> (forall r e od, yields e y env r od -> if_run env l (evs ++ [e]) r od) ->
       wp (r <- (y <- arg a i ;; o <- ev y env ;; need o) ;; pop a ;;; ret r) (ends [] (if_run env l)) s4).
    { intros i y NY K. apply wp_bind, wp_bind. eapply t_arg; [exact H|]. intros y' NY' GY. rewrite NY in NY'. injection NY' as <-.
      apply wp_bind. eapply t_ev; [exact H|exact GY|eapply tr_env; exact H|]. intros o s5 H5. apply wp_need. intros r ->.
      apply wp_bind. eapply tr_pop; [exact H5|]. intros s6 H6 E6. apply wp_ret.
      eexists _, _. split; [eapply tr_eq; [exact H6|now right]|]. split; [apply K, yields_eval|]. now apply result_then. }
    assert (BAD : ~ is_bool d -> ~ is_err d -> wp (pop a ;;; new_error) (ends [] (if_run env l)) s4).
    { intros NB NE. apply (wp_ends [] evs). eapply t_fin_error; [exact H|]. intros r d' ED. rewrite app_nil_r, EL. eapply if_not_bool; eauto. }
    destruct d; try (apply BAD; intros F; exact F); clear BAD.
    + destruct b.
      * assert (K : forall r e od, yields e x env r od -> if_run env l (evs ++ [e]) r od) by (intros; rewrite EL; eapply if_true; eauto).
        destruct (Nat.eqb _ _); apply (BRANCH 1%nat x); auto; now rewrite EL.
      * destruct (Nat.eqb_spec (S (S (List.length l'))) 2) as [E2|E2].
        -- destruct l'; [|discriminate]. apply (wp_ends [] evs). apply wp_bind. eapply t_const; [exact H|intros x' R; exact R|]. intros r s5 H5 D5. cbn [app].
           eapply t_fin; [exact H5|reflexivity| |apply result_refl; exact D5]. rewrite app_nil_r, EL. eapply if_false_nil; eauto.
        -- destruct l' as [|y [|z l']]; cbn in LL, E2; try lia. apply (BRANCH 2%nat y); [now rewrite EL|]. intros r e od Y. rewrite EL. eapply if_false; eauto.
    + apply (wp_ends [] evs). eapply t_fin; [exact H|reflexivity| |apply result_refl; exact D']. rewrite app_nil_r, EL. eapply if_error; eauto. exact I.
Qed.

(** ** select *)
Lemma skipn_two {A} (x : A) m i : nth_error m i = Some x -> skipn i m = x :: skipn (S i) m.
Proof. revert m. induction i as [|i IH]; intros [|y m] E; try discriminate; [now injection E as ->|]. cbn [skipn]. now apply IH. Qed.
Lemma t_ev_fin i y e G evs (R : list event -> ref -> option data -> Prop) s : Tr [a] G evs s -> nth_error l i = Some y -> good P s e -> (forall r s' od, yields (SpecTrace.Eval y e s (Some r) s') y e r od -> R [SpecTrace.Eval y e s (Some r) s'] r od) ->
  wp (x <- arg a i ;; o <- ev x e ;; r <- need o ;; pop a ;;; ret r) (ends evs R) s.
Proof.
  intros H NY Ge K. eapply t_evarg; [exact H|exact Ge|]. intros y' r s1 N' H1. rewrite NY in N'. injection N' as <-.
  apply (wp_ends evs [SpecTrace.Eval y e s (Some r) s1]). eapply t_fin; [exact H1|reflexivity| |apply result_now]. cbn [app]. apply K, yields_eval.
Qed.
Lemma select_loop_spec : forall k i G evs s, Tr [a] G evs s -> List.length l = (i + 2 * k)%nat ->
  wp (select_loop k ev a env i) (ends evs (select_run env s (skipn i l))) s.
Proof.
  induction k as [|k IH]; intros i G evs s H LN; cbn [select_loop].
  - rewrite skipn_all2 by lia. eapply t_fin_alloc; [exact H|intros x R; exact R|]. intros r. apply sel_none.
  - apply wp_bind. eapply t_arg; [exact H|]. intros x NX GX. destruct (nth_error l (S i)) as [y|] eqn:NY; [|apply nth_error_None in NY; lia].
    rewrite (skipn_two x), (skipn_two y) by assumption.
    apply wp_bind, t_sym_is. intros b DB. destruct b.
    + assert (DX : is_default s x) by (now apply DB). destruct k.
      * rewrite skipn_all2 by lia. eapply t_ev_fin; [exact H|exact NY|eapply tr_env; exact H|]. intros r s' od Y. now apply sel_default.
      * eapply t_fin_error; [exact H|]. intros r d ED. apply sel_early_default; [exact DX| |exact ED]. intros E. apply (f_equal (@List.length _)) in E. rewrite skipn_length in E. cbn in E. lia.
    + assert (DX : ~ is_default s x) by (intros F; apply DB in F; discriminate). clear DB.
      apply wp_bind. eapply t_ev; [exact H|exact GX|eapply tr_env; exact H|]. intros o s1 H1. apply wp_bind, wp_need. intros t ->. apply wp_bind, t_get. intros d D1.
      apply (wp_ends evs [SpecTrace.Eval x env s (Some t) s1]). cbn [app]. assert (GV : gives (SpecTrace.Eval x env s (Some t) s1) x env t d) by (now apply gives_eval).
      assert (BAD : ~ is_bool d -> ~ is_err d -> wp (pop a ;;; new_error) (ends (evs ++ [SpecTrace.Eval x env s (Some t) s1]) (fun evs => select_run env s (x :: y :: skipn (S (S i)) l) (SpecTrace.Eval x env s (Some t) s1 :: evs))) s1).
      { intros NB NE. eapply t_fin_error; [exact H1|]. intros r d' ED. eapply sel_not_bool; eauto. }
      destruct d; try (apply BAD; intros F; exact F); clear BAD.
      * destruct b.
        -- eapply t_ev_fin; [exact H1|exact NY|eapply tr_env; exact H1|]. intros r s' od Y. eapply sel_true; eauto.
        -- eapply wp_ends_mono; [|eapply IH; [exact H1|lia]]. intros evs' r od Y. eapply sel_false; eauto.
      * eapply t_fin; [exact H1|reflexivity| |apply result_refl; exact D1]. eapply sel_error; eauto. exact I.
Qed.
Lemma select_spec : wp (s_select ev a env) (ends [] (fun evs r od => select_form env s0 l evs r od)) s0.
Proof.
  unfold s_select. pose proof (tr_start ev P s0 A0) as H. apply wp_bind. eapply t_nargs; [exact H|].
  destruct (_ || _)%bool eqn:EB.
  - eapply t_error; [exact H|reflexivity|]. intros r d ED. apply sf_arity; [|exact ED]. apply orb_true_iff in EB. rewrite Nat.ltb_lt in EB. exact EB.
  - apply orb_false_iff in EB as (E1 & E2). apply Nat.ltb_ge in E1. assert (EV2 : Nat.even (List.length l) = true) by (rewrite <- Nat.negb_odd, E2; reflexivity).
    apply wp_bind. eapply t_push_a; [exact H|]. clear H. intros s1 H ES.
    eapply wp_ends_mono; [|eapply (select_loop_spec _ 0%nat); [exact H|]].
    + cbn [skipn]. intros evs r od Y. apply sf_run; [exact E1|exact EV2|]. eapply select_same; [|exact Y]. intros x _. unfold is_default. now rewrite (data_same _ _ _ ES).
    + apply Nat.even_spec in EV2 as (m & ->). rewrite Nat.div2_double. reflexivity.
Qed.

(** ** Bodies and while *)
Lemma run_forms_spec e : forall k j pre G evs s, Tr pre G evs s -> In e pre \/ e = env -> ~ In e P -> List.length l = (j + k)%nat ->
  wp (run_forms k ev a e j) (fun o s' => exists evs' oo, Tr pre (fun r => o = Some r) (evs ++ evs') s' /\ body_run e (skipn j l) evs' oo /\
     match o, oo with None, None => True | Some r, Some (r', od) => r = r' /\ result_is s' r od | _, _ => False end) s.
Proof.
  induction k as [|k IH]; intros j pre G evs s H IE NE LN; cbn [run_forms].
  - apply wp_ret. exists [], None. rewrite app_nil_r, skipn_all2 by lia. split; [eapply tr_weaken; [exact H|discriminate]|]. split; [apply body_end|exact I].
  - apply wp_bind. eapply t_arg; [exact H|]. intros x NX GX. rewrite (skipn_two x) by assumption.
    assert (GE' : good P s e) by (destruct IE as [IE| ->]; [eapply tr_pre; eauto|eapply tr_env; exact H]).
    apply wp_bind. eapply t_ev; [exact H|exact GX|exact GE'|]. intros o s1 H1. apply wp_bind, wp_need. intros r ->. apply wp_bind, t_is_error. intros d b D1 EB.
    assert (GV : gives (SpecTrace.Eval x e s (Some r) s1) x e r d) by (now apply gives_eval). destruct b.
    + apply wp_ret. assert (ED : is_err d) by (now apply EB). eexists _, (Some (r, Some d)). split; [exact H1|]. split; [now apply body_error|]. split; [reflexivity|now apply result_refl].
    + assert (ND : ~ is_err d) by (intros F; apply EB in F; discriminate). apply wp_bind, wp_read. destruct (fret s1) as [v|] eqn:EF.
      * apply wp_ret. eexists _, (Some (v, None)). split; [|split; [eapply body_return; eauto|split; [reflexivity|exact I]]].
        eapply tr_weaken; [exact H1|]. intros y [= <-]. eapply fret_good; [eapply tr_inv; exact H1|exact EF].
      * eapply wp_mono; [eapply (IH (S j)); [exact H1|exact IE|exact NE|lia]|]. intros o s2 (evs' & oo & H2 & B & K). eexists (_ :: evs'), oo. rewrite <- app_assoc in H2. split; [exact H2|]. split; [eapply body_next; eauto|exact K].
Qed.
Lemma while_loop_spec c : nth_error l 0 = Some c -> forall f z G evs s, Tr [a] G evs s ->
  wp (while_loop f ev a env (List.length l) z) (ends evs (while_run env c (tl l) z)) s.
Proof.
  intros NC. assert (LP : (1 <= List.length l)%nat) by (destruct l; [discriminate|cbn; lia]). assert (ET : tl l = skipn 1 l) by reflexivity.
  induction f as [|f IH]; intros z G evs s H; cbn [while_loop]; [apply wp_nofuel|].
  eapply t_evarg; [exact H|eapply tr_env; exact H|]. intros c' t s1 NC' H1. rewrite NC in NC'. injection NC' as <-. apply wp_bind, t_get. intros d D1.
  apply (wp_ends evs [SpecTrace.Eval c env s (Some t) s1]). cbn [app]. assert (GV : gives (SpecTrace.Eval c env s (Some t) s1) c env t d) by (now apply gives_eval).
  set (e := SpecTrace.Eval c env s (Some t) s1) in *.
  assert (BAD : ~ is_bool d -> ~ is_err d -> wp (pop a ;;; new_error) (ends (evs ++ [e]) (fun evs => while_run env c (tl l) z (e :: evs))) s1).
  { intros NB NE. eapply t_fin_error; [exact H1|]. intros r d' ED. eapply while_not_bool; eauto. }
  destruct d; try (apply BAD; intros F; exact F); clear BAD.
  - destruct b.
    + apply wp_bind. eapply wp_mono; [eapply (run_forms_spec env); [exact H1|now right|apply GE|lia]|]. intros o s2 (evs' & oo & H2 & B & K). cbv beta in H2. rewrite <- ET in B. destruct o as [v|].
      * destruct oo as [[v' od]|]; [|easy]. destruct K as (<- & K). apply (wp_ends _ evs'). eapply t_fin; [exact H2|reflexivity| |exact K]. rewrite app_nil_r. eapply while_stop; eauto.
      * destruct oo; [easy|]. apply wp_bind, wp_lift; [discriminate|]. intros z' EZ. assert (EZ' : z' = (z + 1)%Z).
        { unfold int32_op in EZ. destruct (in_int32 (z + 1)); [now injection EZ|discriminate]. } subst z'.
        apply (wp_ends _ evs'). eapply wp_ends_mono; [|eapply IH; exact H2]. intros evs2 r od Y. eapply while_round; eauto.
    + eapply t_fin_alloc; [exact H1|intros x R; exact R|]. intros r. eapply while_end; eauto.
  - eapply t_fin; [exact H1|reflexivity| |apply result_refl; exact D1]. eapply while_error; eauto. exact I.
Qed.
Lemma while_spec fuel : wp (s_while fuel ev a env) (ends [] (while_form env l)) s0.
Proof.
  unfold s_while. pose proof (tr_start ev P s0 A0) as H. apply wp_bind. eapply t_nargs; [exact H|]. destruct (Nat.ltb_spec (List.length l) 2).
  - eapply t_error; [exact H|reflexivity|]. intros r d ED. now apply wf_arity.
  - apply wp_bind. eapply t_push_a; [exact H|]. clear H. intros s1 H ES. assert (EL : exists c body, l = c :: body) by (destruct l as [|c body]; [cbn in *; lia|eauto]). destruct EL as (c & body & EL).
    eapply wp_ends_mono; [|eapply (while_loop_spec c); [now rewrite EL|exact H]]. intros evs r od Y. rewrite EL in Y. cbn [tl] in Y. eapply wf_run; [exact EL| |exact Y]. destruct body; [rewrite EL in *; cbn in *; lia|discriminate].
Qed.

(** ** and, or, do *)
Lemma logic_loop_spec stop : forall k i last G evs s, Tr [] G evs s -> List.length l = (i + S k)%nat ->
  wp (logic_loop (S k) ev stop a env i last) (ends evs (logic_run env stop (skipn i l))) s.
Proof.
  induction k as [|k IH]; intros i last G evs s H LN; set (K0 := logic_loop) in *; unfold K0; cbn [logic_loop];
    (apply wp_bind; eapply t_arg; [exact H|]; intros x NX GX; rewrite (skipn_two x) by assumption;
     apply wp_bind; eapply t_ev; [exact H|exact GX|eapply tr_env; exact H|]; intros o s1 H1; set (e := SpecTrace.Eval x env s o s1) in *;
     apply (wp_ends evs [e]); cbn [app]; apply wp_bind, wp_read; destruct (fret s1) as [v|] eqn:EF;
     [apply wp_ret; eapply (ends_now _ _ _ None); [|now apply logic_return|exact I]; eapply tr_weaken; [exact H1|]; intros y <-; eapply fret_good; [eapply tr_inv; exact H1|exact EF]|];
     apply wp_bind, wp_need; intros r ->; apply wp_bind, t_get; intros d D1;
     assert (GV : gives e x env r d) by (now apply gives_eval);
     assert (PE : pending e = None) by exact EF).
  - rewrite skipn_all2 by lia. assert (LAST : d <> DBool stop -> wp (need (Some r)) (ends (evs ++ [e]) (fun evs => logic_run env stop [x] (e :: evs))) s1).
    { intros ND. apply wp_ret. eapply ends_now; [eapply tr_eq; [exact H1|reflexivity]|apply logic_last; eauto|now apply result_refl]. }
    destruct d; try (apply LAST; discriminate). destruct (Bool.eqb b stop) eqn:EB.
    + apply Bool.eqb_prop in EB as ->. apply wp_ret. eapply ends_now; [eapply tr_eq; [exact H1|reflexivity]|apply logic_stop; eauto|now apply result_refl].
    + apply LAST. intros [= ->]. now rewrite Bool.eqb_reflx in EB.
  - assert (NEXT : d <> DBool stop -> wp (logic_loop (S k) ev stop a env (S i) (Some r)) (ends (evs ++ [e]) (fun evs => logic_run env stop (x :: skipn (S i) l) (e :: evs))) s1).
    { intros ND. eapply wp_ends_mono; [|eapply (IH (S i) (Some r)); [exact H1|lia]]. intros evs' r' od Y. eapply logic_next; eauto. intros E. apply (f_equal (@List.length _)) in E. rewrite skipn_length in E. cbn in E. lia. }
    destruct d; try (apply NEXT; discriminate). destruct (Bool.eqb b stop) eqn:EB.
    + apply Bool.eqb_prop in EB as ->. apply wp_ret. eapply ends_now; [eapply tr_eq; [exact H1|reflexivity]|apply logic_stop; eauto|now apply result_refl].
    + apply NEXT. intros [= ->]. now rewrite Bool.eqb_reflx in EB.
Qed.
Lemma logic_spec stop : wp (s_logic ev stop a env) (ends [] (logic_run env stop l)) s0.
Proof.
  unfold s_logic. pose proof (tr_start ev P s0 A0) as H. apply wp_bind. eapply t_nargs; [exact H|]. destruct (List.length l) as [|n] eqn:EL.
  - assert (NL : l = []) by (destruct l; [reflexivity|discriminate]). rewrite NL. eapply t_alloc_atom; [exact H|intros x R; exact R|]. intros r s' H' D'. eapply ends_now; [exact H'|apply logic_empty|now apply result_refl].
  - eapply (logic_loop_spec stop n 0%nat); [exact H|lia].
Qed.
Lemma do_loop_spec : forall k i last G evs s, Tr [] G evs s -> List.length l = (i + S k)%nat ->
  wp (do_loop (S k) ev a env i last) (ends evs (do_run env (skipn i l))) s.
Proof.
  induction k as [|k IH]; intros i last G evs s H LN; set (K0 := do_loop) in *; unfold K0; cbn [do_loop];
    (apply wp_bind; eapply t_arg; [exact H|]; intros x NX GX; rewrite (skipn_two x) by assumption;
     apply wp_bind; eapply t_ev; [exact H|exact GX|eapply tr_env; exact H|]; intros o s1 H1; set (e := SpecTrace.Eval x env s o s1) in *;
     apply (wp_ends evs [e]); cbn [app]; apply wp_bind, wp_read; destruct (fret s1) as [v|] eqn:EF;
     [apply wp_ret; eapply (ends_now _ _ _ None); [|now apply do_return|exact I]; eapply tr_weaken; [exact H1|]; intros y <-; eapply fret_good; [eapply tr_inv; exact H1|exact EF]|];
     apply wp_bind, wp_need; intros r ->; apply wp_bind, t_is_error; intros d b D1 EB;
     assert (GV : gives e x env r d) by (now apply gives_eval);
     assert (PE : pending e = None) by exact EF;
     assert (ERR : forall t, is_err d -> wp (annotate r ;;; ret r) (ends (evs ++ [e]) (fun evs => do_run env (x :: t) (e :: evs))) s1)
      by (intros t ED; apply wp_bind; eapply tr_annotate; [exact H1|eapply tr_good; [exact H1|reflexivity]|]; intros s2 H2 D2; destruct (D2 _ D1) as (d' & D2' & K1 & K2);
          apply wp_ret; eapply ends_now; [eapply tr_eq; [exact H2|reflexivity]|eapply do_error; eauto|exists d'; split; [exact D2'|right; auto]])).
  - rewrite skipn_all2 by lia. destruct b; [apply ERR; now apply EB|]. apply wp_ret. eapply ends_now; [eapply tr_eq; [exact H1|reflexivity]|apply do_last; eauto|now apply result_refl]. intros F; apply EB in F; discriminate.
  - destruct b; [apply ERR; now apply EB|]. eapply wp_ends_mono; [|eapply (IH (S i) (Some r)); [exact H1|lia]]. intros evs' r' od Y. eapply do_next; eauto; [intros F; apply EB in F; discriminate|]. intros E. apply (f_equal (@List.length _)) in E. rewrite skipn_length in E. cbn in E. lia.
Qed.
Lemma do_spec : wp (s_do ev a env) (ends [] (do_run env l)) s0.
Proof.
  unfold s_do. pose proof (tr_start ev P s0 A0) as H. apply wp_bind. eapply t_nargs; [exact H|]. destruct (List.length l) as [|n] eqn:EL.
  - assert (NL : l = []) by (destruct l; [reflexivity|discriminate]). rewrite NL. eapply t_error; [exact H|reflexivity|]. intros r d ED. now apply do_empty.
  - eapply (do_loop_spec n 0%nat); [exact H|lia].
Qed.

(** ** Comparison *)
Definition decides (eq : ref -> ref -> M bool) (holds : heap -> ref -> ref -> bool -> Prop) : Prop :=
  forall x y s (Q : bool -> vm -> Prop), (forall b, holds (all s) x y b -> Q b s) -> wp (eq x y) Q s.
Lemma by_value_decides cmp : decides (by_value cmp) (fun h x y b => cmp h x y = Ret b).
Proof. intros x y s Q K. unfold by_value. apply wp_heap; [discriminate|]. exact K. Qed.
Lemma by_uid_decides : decides by_uid (fun h x y b => b = (x =? y)).
Proof. intros x y s Q K. unfold by_uid. apply wp_bind, wp_get_cell; [discriminate|]. intros _ _. apply wp_bind, wp_get_cell; [discriminate|]. intros _ _. apply wp_ret, K. reflexivity. Qed.
Lemma t_pops_const d t l' G evs (R : list event -> ref -> option data -> Prop) s : Tr l' G evs s -> (forall x, ~ dref d x) -> (forall r, R [] r (Some d)) -> wp (pops l' ;;; new_const d t) (ends evs R) s.
Proof.
  intros H N K. apply wp_bind. eapply (tr_pops ev P s0 l' []); [rewrite app_nil_r; exact H|]. intros s1 H1 _. eapply t_const; [exact H1|exact N|].
  intros r s2 H2 D2. eapply ends_now; [exact H2|apply K|now apply result_refl].
Qed.
Lemma equal_loop_spec eq holds x : decides eq holds -> ~ In x P -> forall k i G evs s, Tr [x; a] G evs s -> List.length l = (i + k)%nat ->
  wp (equal_loop k ev eq a env x i) (ends evs (compare_rest env holds true x (skipn i l))) s.
Proof.
  intros DE NX. induction k as [|k IH]; intros i G evs s H LN; cbn [equal_loop].
  - rewrite skipn_all2 by lia. eapply t_pops_const; [exact H|easy|]. intros r. apply cmp_all.
  - apply wp_bind. eapply t_arg; [exact H|]. intros y NY GY. rewrite (skipn_two y) by assumption.
    apply wp_bind. eapply t_ev; [exact H|exact GY|eapply tr_env; exact H|]. intros o s1 H1. apply wp_bind, wp_need. intros t ->.
    set (e := SpecTrace.Eval y env s (Some t) s1) in *. apply (wp_ends evs [e]). cbn [app].
    apply wp_bind. eapply t_push; [exact H1|reflexivity|]. intros s2 H2 E2. apply wp_bind, DE. intros b HB. rewrite E2 in HB. destruct b.
    + apply wp_bind. eapply tr_pop; [exact H2|]. intros s3 H3 E3. eapply wp_ends_mono; [|eapply (IH (S i)); [exact H3|lia]]. intros evs' r od Y. now apply cmp_next.
    + eapply t_pops_const; [exact H2|easy|]. intros r. now apply cmp_fails.
Qed.
Lemma order_loop_spec cmp x : ~ In x P -> forall k i G evs s, Tr [x; a] G evs s -> List.length l = (i + k)%nat ->
  wp (order_loop k ev cmp a env x i) (ends evs (compare_rest env (fun h x y b => cmp h x y = Ret b) true x (skipn i l))) s.
Proof.
  intros NX. induction k as [|k IH]; intros i G evs s H LN; cbn [order_loop].
  - rewrite skipn_all2 by lia. eapply t_pops_const; [exact H|easy|]. intros r. apply cmp_all.
  - apply wp_bind. eapply t_arg; [exact H|]. intros y NY GY. rewrite (skipn_two y) by assumption.
    apply wp_bind. eapply t_ev; [exact H|exact GY|eapply tr_env; exact H|]. intros o s1 H1. apply wp_bind, wp_need. intros t ->.
    set (e := SpecTrace.Eval y env s (Some t) s1) in *. apply (wp_ends evs [e]). cbn [app].
    apply wp_bind, by_value_decides. intros b HB. destruct b.
    + eapply wp_ends_mono; [|eapply (IH (S i)); [exact H1|lia]]. intros evs' r od Y. now apply cmp_next.
    + eapply t_pops_const; [exact H1|easy|]. intros r. now apply cmp_fails.
Qed.
Lemma two_parts : (2 <= List.length l)%nat -> exists y l', l = y :: l' /\ l' <> [].
Proof. intros LN. destruct l as [|y [|z l']]; cbn in LN; try lia. exists y, (z :: l'). split; [reflexivity|discriminate]. Qed.
Lemma equal_with_spec eq holds : decides eq holds -> wp (equal_with ev eq a env) (ends [] (compare_run env holds true l)) s0.
Proof.
  intros DE. unfold equal_with. pose proof (tr_start ev P s0 A0) as H. apply wp_bind. eapply t_nargs; [exact H|]. destruct (Nat.ltb_spec (List.length l) 2).
  - eapply t_error; [exact H|reflexivity|]. intros r d ED. now apply cmp_arity.
  - apply wp_bind. eapply t_push_a; [exact H|]. clear H. intros s1 H ES. destruct two_parts as (y & l' & EL & NL); [assumption|].
    eapply t_evarg; [exact H|eapply tr_env; exact H|]. clear H. intros y' x s2 NY H. rewrite EL in NY. injection NY as <-. cbn [app] in H.
    assert (GX : good P s2 x) by (eapply tr_good; [exact H|reflexivity]). apply wp_bind. eapply t_push; [exact H|reflexivity|]. clear H. intros s3 H E3.
    eapply (wp_ends [] [_]). cbn [app]. eapply wp_ends_mono; [|eapply equal_loop_spec; [exact DE|apply GX|exact H|lia]].
    intros evs r od Y. rewrite EL in Y |- *. apply cmp_first; auto.
Qed.
Lemma order_spec cmp : wp (s_order ev cmp a env) (ends [] (compare_run env (fun h x y b => cmp h x y = Ret b) true l)) s0.
Proof.
  unfold s_order. pose proof (tr_start ev P s0 A0) as H. apply wp_bind. eapply t_nargs; [exact H|]. destruct (Nat.ltb_spec (List.length l) 2).
  - eapply t_error; [exact H|reflexivity|]. intros r d ED. now apply cmp_arity.
  - apply wp_bind. eapply t_push_a; [exact H|]. clear H. intros s1 H ES. destruct two_parts as (y & l' & EL & NL); [assumption|].
    eapply t_evarg; [exact H|eapply tr_env; exact H|]. clear H. intros y' x s2 NY H. rewrite EL in NY. injection NY as <-. cbn [app] in H.
    assert (GX : good P s2 x) by (eapply tr_good; [exact H|reflexivity]). apply wp_bind. eapply t_push; [exact H|reflexivity|]. clear H. intros s3 H E3.
    eapply (wp_ends [] [_]). cbn [app]. eapply wp_ends_mono; [|eapply order_loop_spec; [apply GX|exact H|lia]].
    intros evs r od Y. rewrite EL in Y |- *. apply cmp_first; auto.
Qed.
Lemma rest_flip holds x l' evs r od : compare_rest env holds true x l' evs r od -> exists b, od = Some (DBool b) /\ forall r', compare_rest env holds false x l' evs r' (Some (DBool (negb b))).
Proof.
  intros Y. induction Y as [r|y l' s t s' evs r od HB Y (b & -> & IH)|y l' s t s' r HB].
  - exists true. split; [reflexivity|]. intros. apply cmp_all.
  - exists b. split; [reflexivity|]. intros. apply cmp_next; auto.
  - exists false. split; [reflexivity|]. intros. now apply cmp_fails.
Qed.
Lemma run_flip holds l' evs r od : compare_run env holds true l' evs r od ->
  (exists b, od = Some (DBool b) /\ forall r', compare_run env holds false l' evs r' (Some (DBool (negb b)))) \/ (exists d, od = Some d /\ is_err d /\ compare_run env holds false l' evs r od).
Proof.
  intros [l1 r1 d LN ED|y l1 s x s' evs1 r1 od1 NL Y]; [right; exists d; split; [reflexivity|]; split; [exact ED|now apply cmp_arity]|left].
  apply rest_flip in Y as (b & -> & K). exists b. split; [reflexivity|]. intros. apply cmp_first; auto.
Qed.
Lemma not_equal_spec fuel : wp (s_not_equal fuel ev a env) (ends [] (compare_run env (fun h x y b => vequal fuel h x y = Ret b) false l)) s0.
Proof.
  unfold s_not_equal. apply wp_bind. eapply wp_mono; [apply equal_with_spec; apply by_value_decides|]. intros r s1 (evs & od & H & Y & D1). cbn [app] in H.
  apply wp_bind, t_get. intros d D'. apply run_flip in Y as [(b & -> & K)|(d0 & -> & ED & K)]; destruct D1 as (d1 & D1 & [E|(E1 & E2)]); rewrite D1 in D'; injection D' as <-.
  - rewrite E in D1 |- *. eapply t_alloc_atom; [exact H|easy|]. intros r' s2 H2 D2. exists evs, (Some (DBool (negb b))). split; [exact H2|]. split; [apply K|now apply result_refl].
  - easy.
  - rewrite E in D1 |- *. destruct d0; try easy. apply wp_ret. eexists evs, _. split; [exact H|]. split; [exact K|now apply result_refl].
  - destruct d1; try easy. apply wp_ret. exists evs, (Some d0). split; [exact H|]. split; [exact K|]. eexists. split; [exact D1|]. right. split; [exact ED|exact I].
Qed.
End Spec.
