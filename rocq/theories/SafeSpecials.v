(** Every special form preserves the invariant and leaves its argument vector
    alone, given that evaluation does. *)
From Coq Require Import NArith ZArith Bool Lia Arith List String.
From Coq Require Import ZifyBool ZifyNat ZifyN.
From Verif Require Import Base OString HMap Heap SpecHeap GcProofs VmProofs ValueOps Env Copy Builtins Specials SafeBase SafeRead SafeLib SafeBuiltins.
Import ListNotations.
Local Open Scope N_scope.

Section Safe.
Context (D : bool).
Notation wp := (wp D).
Notation Inv := (Inv D).
Notation At := (At D).
Notation good := (good D).
Notation src := (src D).
Ltac has := solve [unfold has; cbn [In app]; auto 15].
Ltac err := (eapply out_error; eassumption).

(** An environment that stays alive: on the stack, or held by a private value. *)
Definition kept (P : list ref) (s : vm) (e : ref) : Prop :=
  In e (stack s) \/ exists p c, In p P /\ lookup (all s) p = Some c /\ dref (cdata c) e.
Definition ev_ok (ev : evaluator) : Prop := forall P s v env, Inv P s -> good P s v -> good P s env -> (D = false -> kept P s env) ->
  wp (ev v env) (fun o s' => At false P s [] (fun r => o = Some r) s') s.
Lemma kept_later q P s0 pre G s e : At q P s0 pre G s -> kept P s0 e -> kept P s e.
Proof.
  intros H [K|(p & c & I & L & R)]; [left|right].
  - rewrite (a_stack _ _ _ _ _ _ _ H). apply in_or_app. auto.
  - exists p, c. split; [auto|]. split; [|auto]. rewrite (a_same _ _ _ _ _ _ _ H); auto.
Qed.
Lemma kept_live P s e : Inv P s -> D = false -> kept P s e -> live s e.
Proof. intros A E [K|(p & c & I & L & R)]; [now apply (i_stack _ _ _ A)|]. apply (i_closed _ _ _ A E p c e L). apply refers_iff. auto. Qed.
Lemma good_later q P s0 pre G s e : At q P s0 pre G s -> good P s0 e -> (D = false -> kept P s0 e) -> good P s e.
Proof.
  intros H (G1 & G2 & _) K. split; [pose proof (a_next _ _ _ _ _ _ _ H); lia|]. split; [exact G2|]. intros E.
  eapply kept_live; [apply H|exact E|]. eapply kept_later; eauto.
Qed.

Lemma r_push_all q P s0 r pre G (Q : unit -> vm -> Prop) s : At q P s0 pre G s -> has q s0 pre G r ->
  (forall s', At q P s0 (r :: pre) G s' -> all s' = all s -> Q tt s') -> wp (push r) Q s.
Proof.
  intros H R K. unfold SafeBase.wp, push. apply K; [|reflexivity].
  pose proof (r_push D q P s0 r pre G (fun _ s' => At q P s0 (r :: pre) G s') s H R (fun s' H' => H')) as W. exact W.
Qed.
Lemma r_pops q P s0 l : forall pre G (Q : unit -> vm -> Prop) s, At q P s0 (l ++ pre) G s ->
  (forall s', At q P s0 pre (fun x => (In x l /\ ~ In x P) \/ G x) s' -> Q tt s') -> wp (pops l) Q s.
Proof.
  induction l as [|r l IH]; intros pre G Q s H K.
  - apply wp_ret. apply K. eapply at_weaken; [exact H|]. intros x [([] & _)|W]. now apply (a_good _ _ _ _ _ _ _ H).
  - unfold pops. cbn [iterM]. apply wp_bind. cbn [app] in H. apply (r_pop D q P s0 r _ _ _ _ H). clear H. intros s1 H.
    apply (IH pre _ _ _ H). intros s2 H2. apply K. eapply at_weaken; [exact H2|]. intros x [([<-|I] & N)|W]; apply (a_good _ _ _ _ _ _ _ H2); auto.
Qed.
Lemma r_pops0 q P s0 l G (Q : unit -> vm -> Prop) s : At q P s0 l G s ->
  (forall s', At q P s0 [] (fun x => (In x l /\ ~ In x P) \/ G x) s' -> Q tt s') -> wp (pops l) Q s.
Proof. intros H. apply (r_pops q P s0 l []). now rewrite app_nil_r. Qed.
Lemma kept_mono P P' s e : incl P P' -> kept P s e -> kept P' s e.
Proof. intros I [K|(p & c & J & K)]; [now left|right]. exists p, c. split; [now apply I|exact K]. Qed.

Section Spec.
Context (ev : evaluator) (EV : ev_ok ev) (P : list ref) (a env : ref) (s0 : vm) (c0 : cell) (l : list ref).
Context (IN : In a P) (L0 : lookup (all s0) a = Some c0) (E0 : cdata c0 = DVec l) (GE : good P s0 env) (KE : In env (stack s0)).
Notation A pre G s := (At false P s0 pre G s).
Implicit Types (pre : list ref) (G : ref -> Prop) (s : vm).

Lemma env_good q pre G s : At q P s0 pre G s -> good P s env.
Proof. intros H. eapply good_later; [exact H|exact GE|now left]. Qed.
Lemma r_ev x pre G (Q : option ref -> vm -> Prop) s : A pre G s -> good P s x ->
  (forall o s', A pre (fun r => o = Some r) s' -> Q o s') -> wp (ev x env) Q s.
Proof.
  intros H GX K. eapply (r_use D false false P s0 pre G _ (fun o r => o = Some r)); [exact H| |auto|exact K].
  apply EV; [apply H|exact GX|eapply env_good; eauto|]. intros ED. eapply kept_later; [exact H|now left].
Qed.
Lemma r_ev_in e x pre G (Q : option ref -> vm -> Prop) s : A pre G s -> good P s x -> good P s e -> (D = false -> kept P s e) ->
  (forall o s', A pre (fun r => o = Some r) s' -> Q o s') -> wp (ev x e) Q s.
Proof.
  intros H GX Ge Ke K. eapply (r_use D false false P s0 pre G _ (fun o r => o = Some r)); [exact H| |auto|exact K].
  apply EV; [apply H|exact GX|exact Ge|exact Ke].
Qed.
Lemma r_argn i pre G (Q : ref -> vm -> Prop) s : A pre G s -> (forall x, In x l -> nth_error l i = Some x -> A pre (fun y => y = x \/ G y) s -> Q x s) -> wp (arg a i) Q s.
Proof.
  intros H K. eapply (r_arg_later D); eauto. intros x N J. apply K; auto. apply at_more; [exact H|]. intros y ->. eapply arg_good; eauto.
Qed.
Lemma ev_arg i (K : ref -> M ref) pre G (Q : ref -> vm -> Prop) s : A pre G s -> (forall r s', A pre (eq r) s' -> wp (K r) Q s') ->
  wp (x <- arg a i ;; o <- ev x env ;; r <- need o ;; K r) Q s.
Proof.
  intros H W. apply wp_bind. eapply r_argn; [exact H|]. intros x J _ H1. apply wp_bind. eapply r_ev; [exact H1|apply (a_good _ _ _ _ _ _ _ H1); now left|].
  intros o s1 H2. apply wp_bind, wp_need. intros r ->. apply W. eapply at_weaken; [exact H2|]. intros y <-. now apply (a_good _ _ _ _ _ _ _ H2).
Qed.
Definition fin (r : ref) (s : vm) : Prop := A [] (eq r) s.
Lemma fin_ret pre G s r (l' : list ref) : A l' G s -> (G r \/ In r l' /\ ~ In r P) -> wp (pops l' ;;; ret r) fin s.
Proof.
  intros H W. apply wp_bind. apply (r_pops false P s0 l' [] G); [now rewrite app_nil_r|]. intros s' H'. apply wp_ret.
  eapply at_eq; [exact H'|]. destruct W as [W|W]; auto.
Qed.
Lemma fin_error G s (l' : list ref) : A l' G s -> wp (pops l' ;;; new_error) fin s.
Proof. intros H. apply wp_bind. apply (r_pops false P s0 l' [] G); [now rewrite app_nil_r|]. intros s' H'. eapply out_error; eauto. Qed.
Lemma fin_error' G s (l' : list ref) : A l' G s -> wp (r <- new_error ;; pops l' ;;; ret r) fin s.
Proof. intros H. apply wp_bind. apply (r_new_error D false P s0 l' G); [exact H|]. intros r s' H'. eapply fin_ret; eauto. Qed.
Lemma fin_pop G s r b : A [b] G s -> (G r \/ r = b /\ ~ In r P) -> wp (pop b ;;; ret r) fin s.
Proof.
  intros H W. apply wp_bind. apply (r_pop D false P s0 b [] G); [exact H|]. intros s' H'. apply wp_ret.
  eapply at_eq; [exact H'|]. destruct W as [W|(-> & W)]; auto.
Qed.
Lemma fin_pop_error G s b : A [b] G s -> wp (pop b ;;; new_error) fin s.
Proof. intros H. apply wp_bind. apply (r_pop D false P s0 b [] G); [exact H|]. intros s' H'. eapply out_error; eauto. Qed.
Lemma push_a pre G (Q : unit -> vm -> Prop) s : A pre G s -> (forall s', A (a :: pre) G s' -> Q tt s') -> wp (push a) Q s.
Proof.
  intros H K. apply (r_push D false P s0 a pre G _ s H); [|exact K]. right. right. left. apply (i_priv _ _ _ (a_inv0 _ _ _ _ _ _ _ H)). exact IN.
Qed.
Lemma sym_is_ok x str pre G (Q : bool -> vm -> Prop) s : A pre G s -> good P s x -> (forall b, Q b s) -> wp (sym_is x str) Q s.
Proof. intros H GX K. unfold sym_is. apply wp_bind, wp_get; [apply GX|]. intros c L. destruct (cdata c); apply wp_ret; auto. Qed.


Lemma r_nargs_a pre G (Q : nat -> vm -> Prop) s : A pre G s -> Q (List.length l) s -> wp (nargs a) Q s.
Proof.
  intros H K. unfold nargs. apply wp_bind, wp_vec_of; [eapply at_live; [exact H|]; right; right; left; apply (i_priv _ _ _ (a_inv0 _ _ _ _ _ _ _ H)); exact IN|].
  intros c l' L E. rewrite (a_same _ _ _ _ _ _ _ H) in L by auto. rewrite L0 in L. injection L as <-. rewrite E0 in E. injection E as <-. now apply wp_ret.
Qed.
Lemma get_good x pre G (Q : data -> vm -> Prop) s : A pre G s -> good P s x -> (forall c, lookup (all s) x = Some c -> Q (cdata c) s) -> wp (get x) Q s.
Proof. intros H GX K. apply wp_get; [apply GX|exact K]. Qed.
Lemma is_error_good x pre G (Q : bool -> vm -> Prop) s : A pre G s -> good P s x -> (forall b, Q b s) -> wp (is_error x) Q s.
Proof. intros H GX K. apply wp_is_error; [apply GX|]. intros; apply K. Qed.
Lemma arg_in i x pre G s : A pre G s -> nth_error l i = Some x -> good P s x.
Proof. intros H N. eapply arg_good; eauto. eapply nth_error_In; eauto. Qed.
Context (A0 : Inv P s0).
Let H0 : A [] (fun _ => False) s0 := at_start D false P s0 A0.
Ltac eqg H := apply (a_good _ _ _ _ _ _ _ H); reflexivity.
Ltac inc H := apply (a_good _ _ _ _ _ _ _ H); auto.

(** ** quote, select, if *)
Lemma quote_ok : wp (s_quote a) fin s0.
Proof.
  unfold s_quote. apply wp_bind, (r_nargs_a [] _ _ _ H0). destruct (negb _); [eapply out_error; exact H0|].
  eapply r_argn; [exact H0|]. intros x _ _ H. eapply at_eq; [exact H|now left].
Qed.
Lemma select_loop_ok : forall k i G s, A [a] G s -> wp (select_loop k ev a env i) fin s.
Proof.
  induction k as [|k IH]; intros i G s H; cbn [select_loop].
  - apply wp_bind, (r_pop D false P s0 a [] G); [exact H|]. intros s' H'. eapply out_alloc; [exact H'|easy|exact I].
  - apply wp_bind. eapply r_argn; [exact H|]. intros x _ N H1. apply wp_bind. eapply sym_is_ok; [exact H1|inc H1|]. intros b. destruct b.
    + destruct k.
      * eapply ev_arg; [exact H1|]. intros r s2 H2. eapply fin_pop; [exact H2|now left].
      * eapply fin_pop_error; exact H1.
    + apply wp_bind. eapply r_ev; [exact H1|inc H1|]. intros o s2 H2. apply wp_bind, wp_need. intros t ->.
      apply wp_bind. eapply get_good; [exact H2|eqg H2|]. intros c L. destruct (cdata c); try (eapply fin_pop_error; exact H2).
      * destruct b.
        -- eapply ev_arg; [exact H2|]. intros r s3 H3. eapply fin_pop; [exact H3|now left].
        -- eapply IH; exact H2.
      * eapply fin_pop; [exact H2|now left].
Qed.
Lemma select_ok : wp (s_select ev a env) fin s0.
Proof.
  unfold s_select. apply wp_bind, (r_nargs_a [] _ _ _ H0). destruct (_ || _)%bool; [eapply out_error; exact H0|].
  apply wp_bind. eapply push_a; [exact H0|]. intros s1 H. eapply select_loop_ok; exact H.
Qed.
Lemma if_ok : wp (s_if ev a env) fin s0.
Proof.
  unfold s_if. apply wp_bind, (r_nargs_a [] _ _ _ H0). destruct (negb _); [eapply out_error; exact H0|].
  apply wp_bind. eapply push_a; [exact H0|]. intros s1 H. eapply ev_arg; [exact H|]. clear H s1. intros t s1 H.
  assert (NT : ~ In t P) by (apply (a_good _ _ _ _ _ _ _ H); reflexivity).
  apply wp_bind, (r_push D false P s0 t [a] _ _ _ H); [has|]. clear H s1. intros s1 H.
  apply wp_bind. eapply get_good; [exact H|eqg H|]. intros c L.
  apply wp_bind. apply (wp_mono D _ (fun t s => A [a] (eq t) s)).
  - assert (W : forall s, A [t; a] (eq t) s -> wp (pop t ;;; ret t) (fun t s => A [a] (eq t) s) s).
    { intros s H1. apply wp_bind, (r_pop D false P s0 t [a] _ _ _ H1). intros s2 H2. apply wp_ret. eapply at_eq; [exact H2|now right]. }
    destruct (cdata c); try (apply W; exact H). clear W.
    apply wp_bind, (r_alloc D false P s0 (DVec []) [t; a] _ _ _ H); [easy|easy|]. clear H L. intros w s2 H _ MW.
    apply wp_bind, (r_push D false P s0 w [t; a] _ _ _ H); [has|]. clear H. intros s3 H.
    apply wp_bind. eapply (r_vec_push D false P s0 w t [w; t; a]); [exact H|has|exact MW| |].
    { eapply at_good; [exact H|has|right; exact NT]. }
    clear H. intros s4 H _ _. apply wp_bind. eapply r_ev; [exact H|inc H|]. clear H. intros o s5 H.
    apply wp_bind. apply (r_pops false P s0 [w; t] [a] _ _ _ H). clear H. intros s6 H. apply wp_need. intros r ->. eapply at_eq; [exact H|now right].
  - clear H L s1 c t NT. intros t s1 H. apply wp_bind. eapply get_good; [exact H|eqg H|]. intros c L.
    destruct (cdata c); try (eapply fin_pop_error; exact H); [|eapply fin_pop; [exact H|now left]].
    apply wp_bind. apply (wp_mono D _ (fun r s => A [a] (eq r) s)); [|intros r s2 H2; eapply fin_pop; [exact H2|now left]].
    assert (W : forall i, wp (x <- arg a i ;; o <- ev x env ;; need o) (fun r s => A [a] (eq r) s) s1).
    { intros i. apply wp_bind. eapply r_argn; [exact H|]. intros x _ _ H1. apply wp_bind. eapply r_ev; [exact H1|inc H1|]. intros o s2 H2.
      apply wp_need. intros r ->. eapply at_eq; [exact H2|reflexivity]. }
    destruct (Nat.eqb _ _); [destruct b; [apply W|]|apply W]. eapply (r_use D false true P s0 [a] _ _ (fun x => eq x)); [exact H|apply value_nil_ok; apply H|discriminate|auto].
Qed.

(** ** Loops *)
Lemma run_forms_ok e : forall k j pre G s, A pre G s -> In e pre \/ e = env -> ~ In e P -> wp (run_forms k ev a e j) (fun o s' => A pre (fun r => o = Some r) s') s.
Proof.
  induction k as [|k IH]; intros j pre G s H IE NE; cbn [run_forms].
  - apply wp_ret. eapply at_weaken; [exact H|discriminate].
  - apply wp_bind. eapply r_argn; [exact H|]. intros x _ _ H1. apply wp_bind.
    apply (wp_mono D _ (fun o s' => A pre (fun r => o = Some r) s')).
    { destruct IE as [IE| ->]; [|eapply r_ev; [exact H1|inc H1|auto]].
      eapply r_ev_in; [exact H1|inc H1| | |auto].
      - eapply at_good; [exact H1|has|auto].
      - intros _. left. rewrite (a_stack _ _ _ _ _ _ _ H1). apply in_or_app. auto. }
    intros o s2 H2. apply wp_bind, wp_need. intros r ->. apply wp_bind. eapply is_error_good; [exact H2|eqg H2|]. intros b. destruct b.
    + apply wp_ret. exact H2.
    + apply wp_bind, wp_read. destruct (fret s2) as [v|] eqn:EF; [|eapply IH; eauto].
      apply wp_ret. eapply at_weaken; [exact H2|]. intros y [= <-].
      pose proof (i_fret _ _ _ (a_inv _ _ _ _ _ _ _ H2)) as F. rewrite EF in F. destruct F as (F1 & F2 & F3). split; [auto|]. split; [auto|]. now rewrite F3.
Qed.
Lemma while_loop_ok : forall f n c G s, A [a] G s -> wp (while_loop f ev a env n c) fin s.
Proof.
  induction f as [|f IH]; intros n c G s H; cbn [while_loop]; [apply wp_nofuel|].
  eapply ev_arg; [exact H|]. clear H s. intros t s H. apply wp_bind. eapply get_good; [exact H|eqg H|]. intros d L.
  destruct (cdata d); try (eapply fin_pop_error; exact H).
  - destruct b.
    + apply wp_bind. eapply wp_mono; [eapply run_forms_ok; [exact H|now right|apply GE]|]. clear H L s d. intros o s H. destruct o as [v|].
      * eapply fin_pop; [exact H|now left].
      * apply wp_bind, wp_lift; [intros; apply nd_int32|]. intros c' _. eapply IH; exact H.
    + apply wp_bind, (r_pop D false P s0 a [] _ _ _ H). clear H. intros s1 H. eapply out_alloc; [exact H|easy|exact I].
  - eapply fin_pop; [exact H|now left].
Qed.
Lemma while_ok fuel : wp (s_while fuel ev a env) fin s0.
Proof.
  unfold s_while. apply wp_bind, (r_nargs_a [] _ _ _ H0). destruct (Nat.ltb _ _); [eapply out_error; exact H0|].
  apply wp_bind. eapply push_a; [exact H0|]. intros s1 H. eapply while_loop_ok; exact H.
Qed.
Lemma for_loop_ok ext k item : forall f i n step j cnt c pre G s, In ext pre -> ~ In ext P -> In k l ->
  (forall i G s, A pre G s -> wp (item i) (fun r s' => A pre (eq r) s') s) ->
  A pre G s -> wp (for_loop f ev a ext k item i n step j cnt c) (fun o s' => A pre (fun r => o = inl r) s') s.
Proof.
  induction f as [|f IH]; intros i n step j cnt c pre G s IE NE IK HI H; cbn [for_loop]; [apply wp_nofuel|].
  destruct (n <=? i); [apply wp_ret; eapply at_weaken; [exact H|discriminate]|].
  apply wp_bind. eapply wp_mono; [eapply HI; exact H|]. clear H s. intros x s H. apply wp_bind.
  eapply (r_env_set D false P s0 ext k x pre); [exact H|eapply at_live; [exact H|has]|split; [exact NE|discriminate]|exact (arg_good D P a s0 c0 l IN L0 E0 _ _ _ s k H IK)|eqg H|].
  clear H s. intros s H. apply wp_bind. eapply wp_mono; [eapply run_forms_ok; [exact H|now left|exact NE]|]. clear H s. intros o s H. destruct o as [v|].
  - apply wp_ret. eapply at_weaken; [exact H|]. intros y [= <-]. inc H.
  - apply wp_bind, wp_lift; [intros; apply nd_int32|]. intros c' _. eapply IH; eauto.
Qed.
Lemma for_result_ok o l' s : A l' (fun r => o = inl r) s -> wp (for_result o l') fin s.
Proof.
  intros H. unfold for_result. apply wp_bind. eapply (r_pops0 false P s0 l'); [exact H|]. intros s' H'.
  destruct o as [v|c]; [apply wp_ret; eapply at_eq; [exact H'|now right]|]. eapply out_alloc; [exact H'|easy|exact I].
Qed.
Lemma for_step_ok i n pre G s : A pre G s -> wp (for_step a i n) (fun o s' => A pre (fun r => o = StepBad (Some r)) s') s.
Proof.
  intros H. unfold for_step. apply wp_bind. eapply r_argn; [exact H|]. intros x _ _ H1. apply wp_bind. eapply sym_is_ok; [exact H1|inc H1|].
  intros b. destruct b; [|apply wp_ret; eapply at_weaken; [exact H|discriminate]].
  destruct (Nat.ltb _ _); [apply wp_ret; eapply at_weaken; [exact H|discriminate]|].
  apply wp_bind. eapply r_argn; [exact H|]. intros y _ _ H2. apply wp_bind. eapply get_good; [exact H2|inc H2|]. intros c L.
  assert (W : wp (r <- new_error ;; ret (StepBad (Some r))) (fun o s' => A pre (fun r => o = StepBad (Some r)) s') s).
  { apply wp_bind. apply (r_new_error D false P s0 pre G); [exact H|]. intros r s' H'. apply wp_ret. eapply at_weaken; [exact H'|]. intros z [= <-]. eqg H'. }
  destruct (cdata c); try exact W. destruct (z <=? 0)%Z; [exact W|]. apply wp_ret. eapply at_weaken; [exact H|discriminate].
Qed.
Lemma step_fail_ok o l' s : A l' (fun r => StepBad o = StepBad (Some r)) s -> wp (step_fail o l') fin s.
Proof.
  intros H. unfold step_fail. apply wp_bind. eapply (r_pops0 false P s0 l'); [exact H|]. intros s' H'.
  destruct o as [r|]; [apply wp_ret; eapply at_eq; [exact H'|now right]|]. eapply out_error; exact H'.
Qed.
Lemma for_item_ok fuel c addr i pre G s : A pre G s -> In c pre -> wp (for_item fuel c addr i) (fun r s' => A pre (eq r) s') s.
Proof.
  intros H IC. unfold for_item. apply wp_bind. eapply (r_get_at D false P s0 c); [exact H|has|]. intros d L _ H1.
  assert (RC : reach s c) by (apply re_root; rewrite (a_stack _ _ _ _ _ _ _ H); apply in_or_app; auto).
  destruct (cdata d) eqn:ED; try apply wp_unmodelled.
  - apply wp_bind, wp_lift; [intros; apply nd_str_get|]. intros x _. apply (r_alloc D false P s0 _ pre _ _ _ H); [easy|easy|auto].
  - apply wp_need. intros r N. eapply at_eq; [exact H1|]. left. cbn. eapply nth_error_In; eauto.
  - destruct (map_get_at_index m (Z.of_N i)) as [e|] eqn:EM; [|apply wp_undef]. apply wp_bind, wp_lift; [intros; apply nd_single|]. intros v EV1.
    apply get_at_index_in in EM. apply single_in in EV1.
    apply (r_alloc D false P s0 _ pre _ _ _ H); [|easy|auto]. intros y J.
    assert (DY : dref (cdata d) y) by (rewrite ED; cbn; exists e; split; [exact EM|]; destruct J as [<-|[<-|[]]]; auto).
    split; [eapply at_dref; [exact H|exact L|exact DY]|]. right. right. right. eapply reach_child; eauto.
  - apply wp_need. intros r N. eapply at_eq; [exact H1|]. left. cbn. eapply nth_error_In; eauto.
  - destruct (nth_error l0 (N.to_nat i)) eqn:N; [|apply wp_abort]. apply wp_ret. eapply at_eq; [exact H1|]. left. cbn. eapply nth_error_In; eauto.
Qed.

Lemma for_in_ok fuel k n G s : In k l -> A [a] G s -> wp (for_in fuel ev a env k n) fin s.
Proof.
  intros IK H. unfold for_in. eapply ev_arg; [exact H|]. clear H s. intros c s H. assert (NC : ~ In c P) by (apply (a_good _ _ _ _ _ _ _ H); reflexivity).
  apply wp_bind, (r_push D false P s0 c [a] _ _ _ H); [has|]. clear H s. intros s H.
  apply wp_bind. eapply wp_get_cell; [eapply at_live; [exact H|has]|]. intros cc L. destruct (for_length (cdata cc)) as [len|].
  - apply wp_bind. eapply wp_mono; [eapply for_step_ok; exact H|]. clear H L s. intros o s H. destruct o as [r|step j]; [eapply step_fail_ok; exact H|].
    apply wp_bind, (r_alloc D false P s0 _ [c; a] _ _ _ H); [|easy|].
    { intros x [(t & k' & v & [] & _)|[= <-]]. split; [apply GE|auto]. }
    clear H. intros ext s1 H _ ME. apply wp_bind, (r_push D false P s0 ext [c; a] _ _ _ H); [has|]. clear H. intros s2 H.
    apply wp_bind. eapply wp_get_cell; [eapply at_live; [exact H|has]|]. intros cc' L. apply wp_bind.
    eapply wp_mono; [eapply (for_loop_ok ext k _ _ _ _ _ _ _ _ [ext; c; a]); [now left|apply ME|exact IK| |exact H]|].
    + intros i G' s' H'. eapply for_item_ok; [exact H'|right; now left].
    + intros o s3 H3. eapply for_result_ok; exact H3.
  - destruct (cdata cc); try apply wp_unmodelled; eapply fin_error'; exact H.
Qed.
Lemma int_of_ok x pre G (Q : Z -> vm -> Prop) s : A pre G s -> good P s x -> (forall z c, lookup (all s) x = Some c -> cdata c = DInt z -> Q z s) -> wp (int_of x) Q s.
Proof. intros H GX K. unfold int_of. apply wp_bind. eapply get_good; [exact H|exact GX|]. intros c L. destruct (cdata c) eqn:E; try apply wp_undef. apply wp_ret. eauto. Qed.
Lemma from_item_ok fuel from sign i pre G s : A pre G s -> In from pre -> wp (from_item fuel from sign i) (fun r s' => A pre (eq r) s') s.
Proof.
  intros H IF. unfold from_item. apply wp_bind. eapply (r_copy D false P s0 fuel from); [exact H|eapply src_stack; [exact H|auto]|].
  clear H. intros x s1 H NX. apply wp_bind. eapply int_of_ok; [exact H|eqg H|]. intros z c L E. apply wp_bind.
  eapply (r_put D false P s0 x); [exact H|has|split; [apply (a_good _ _ _ _ _ _ _ H); reflexivity|discriminate]|easy|easy| |].
  - intros _ c' L' F. rewrite L in L'. injection L' as <-. now rewrite E in F.
  - intros s2 H2 _ _. apply wp_ret. exact H2.
Qed.
Lemma wp_cmp (cmp : heap -> ref -> ref -> outcome bool) x y pre G (Q : bool -> vm -> Prop) s : A pre G s -> good P s x -> good P s y ->
  (forall h a b, closed h -> lookup h a <> None -> lookup h b <> None -> nd (cmp h a b)) -> (forall b, Q b s) -> wp (heap_op (fun h => cmp h x y)) Q s.
Proof.
  intros H GX GY NDc K. apply wp_heap; [|auto]. intros ED. apply NDc; [eapply at_closed; eauto|now apply GX|now apply GY].
Qed.
Lemma nd_less_eq fuel h x y : closed h -> lookup h x <> None -> lookup h y <> None -> nd (vless_eq fuel h x y).
Proof. intros C X Y. unfold vless_eq. apply nd_pred. now apply nd_compare. Qed.
Lemma for_from_ok fuel k n G s : In k l -> A [a] G s -> wp (for_from fuel ev a env k n) fin s.
Proof.
  intros IK H. unfold for_from. eapply ev_arg; [exact H|]. clear H s. intros from s H. assert (NF : ~ In from P) by (apply (a_good _ _ _ _ _ _ _ H); reflexivity).
  apply wp_bind, (r_push D false P s0 from [a] _ _ _ H); [has|]. clear H s. intros s H.
  apply wp_bind. eapply get_good; [exact H|eqg H|]. intros c L. destruct (cdata c); try (eapply fin_error'; exact H). clear c L z.
  eapply ev_arg; [exact H|]. clear H s. intros to s H. assert (NT : ~ In to P) by (apply (a_good _ _ _ _ _ _ _ H); reflexivity).
  apply wp_bind, (r_push D false P s0 to [from; a] _ _ _ H); [has|]. clear H s. intros s H.
  assert (GF : forall G s, A [to; from; a] G s -> good P s from) by (intros ? ? K; eapply at_good; [exact K|has|auto]).
  assert (GT : forall G s, A [to; from; a] G s -> good P s to) by (intros ? ? K; eapply at_good; [exact K|has|auto]).
  apply wp_bind. eapply get_good; [exact H|eapply GF; exact H|]. intros c L. apply wp_bind. eapply get_good; [exact H|eapply GT; exact H|]. intros c' L'.
  destruct (negb _); [eapply fin_error'; exact H|].
  apply wp_bind. eapply wp_mono; [eapply for_step_ok; exact H|]. clear H L L' s. intros o s H. destruct o as [r|step j]; [eapply step_fail_ok; exact H|].
  apply wp_bind, (r_alloc D false P s0 _ [to; from; a] _ _ _ H); [|easy|].
  { intros x [(t & k' & v & [] & _)|[= <-]]. split; [apply GE|auto]. }
  clear H. intros ext s1 H _ ME. apply wp_bind, (r_push D false P s0 ext [to; from; a] _ _ _ H); [has|]. clear H. intros s2 H.
  assert (GF2 : good P s2 from) by (eapply at_good; [exact H|has|auto]). assert (GT2 : good P s2 to) by (eapply at_good; [exact H|has|auto]).
  apply wp_bind. eapply (wp_cmp (vless_eq fuel)); [exact H|exact GF2|exact GT2|apply nd_less_eq|]. intros up.
  apply wp_bind. eapply int_of_ok; [exact H|exact GF2|]. intros p cp _ _. apply wp_bind. eapply int_of_ok; [exact H|exact GT2|]. intros q cq _ _.
  apply wp_bind, wp_lift; [intros; apply nd_int32|]. intros m _. apply wp_bind.
  eapply wp_mono; [eapply (for_loop_ok ext k _ _ _ _ _ _ _ _ [ext; to; from; a]); [now left|apply ME|exact IK| |exact H]|].
  + intros i G' s' H'. eapply from_item_ok; [exact H'|cbn; auto].
  + intros o s3 H3. eapply for_result_ok; exact H3.
Qed.
Lemma for_ok fuel : wp (s_for fuel ev a env) fin s0.
Proof.
  unfold s_for. apply wp_bind. eapply push_a; [exact H0|]. intros s H. apply wp_bind, (r_nargs_a [a] _ _ _ H).
  destruct (Nat.ltb _ _); [eapply fin_pop_error; exact H|]. apply wp_bind. eapply r_argn; [exact H|]. intros k IK _ H1. apply wp_bind. eapply get_good; [exact H1|inc H1|].
  intros c L. destruct (cdata c); try (eapply fin_pop_error; exact H). apply wp_bind. eapply r_argn; [exact H|]. intros m _ _ H2. apply wp_bind. eapply get_good; [exact H2|inc H2|].
  intros c' L'. destruct (cdata c'); try (eapply fin_pop_error; exact H).
  destruct (text_eqb _ _); [eapply for_in_ok; [exact IK|exact H]|]. destruct (text_eqb _ _); [eapply for_from_ok; [exact IK|exact H]|apply wp_undef].
Qed.

(** ** Comparison *)
Definition eq_ok (eq : ref -> ref -> M bool) : Prop := forall x y pre G s (Q : bool -> vm -> Prop), A pre G s -> good P s x -> good P s y -> (forall b, Q b s) -> wp (eq x y) Q s.
Lemma by_value_ok cmp : (forall h a b, closed h -> lookup h a <> None -> lookup h b <> None -> nd (cmp h a b)) -> eq_ok (by_value cmp).
Proof. intros N x y pre G s Q H GX GY K. unfold by_value. eapply wp_cmp; eauto. Qed.
Lemma by_uid_ok : eq_ok by_uid.
Proof.
  intros x y pre G s Q H GX GY K. unfold by_uid. apply wp_bind, wp_get_cell; [apply GX|]. intros c L. apply wp_bind, wp_get_cell; [apply GY|]. intros d L'. apply wp_ret. auto.
Qed.
Lemma const_ok m l' G s : A l' G s -> (forall P s, Inv P s -> wp m (fun r s' => At true P s [] (eq r) s') s) -> wp (pops l' ;;; m) fin s.
Proof.
  intros H W. apply wp_bind. eapply (r_pops0 false P s0 l'); [exact H|]. clear H. intros s' H.
  eapply (r_use D false true P s0 [] _ _ (fun x => eq x)); [exact H|apply W; apply H|discriminate|auto].
Qed.
Lemma equal_loop_ok eq x : eq_ok eq -> ~ In x P -> forall k i G s, A [x; a] G s -> wp (equal_loop k ev eq a env x i) fin s.
Proof.
  intros EO NX. induction k as [|k IH]; intros i G s H; cbn [equal_loop].
  - eapply const_ok; [exact H|apply value_true_ok].
  - eapply ev_arg; [exact H|]. clear H s. intros y s H. apply wp_bind, (r_push D false P s0 y [x; a] _ _ _ H); [has|]. clear H s. intros s H.
    apply wp_bind. eapply EO; [exact H|eapply at_good; [exact H|has|auto]|eqg H|]. intros b. destruct b.
    + apply wp_bind, (r_pop D false P s0 y [x; a] _ _ _ H). clear H s. intros s H. eapply IH; exact H.
    + eapply const_ok; [exact H|apply value_false_ok].
Qed.
Lemma equal_with_ok eq : eq_ok eq -> wp (equal_with ev eq a env) fin s0.
Proof.
  intros EO. unfold equal_with. apply wp_bind, (r_nargs_a [] _ _ _ H0). destruct (Nat.ltb _ _); [eapply out_error; exact H0|].
  apply wp_bind. eapply push_a; [exact H0|]. intros s H. eapply ev_arg; [exact H|]. clear H s. intros x s H.
  assert (NX : ~ In x P) by (apply (a_good _ _ _ _ _ _ _ H); reflexivity).
  apply wp_bind, (r_push D false P s0 x [a] _ _ _ H); [has|]. clear H s. intros s H. eapply equal_loop_ok; eauto.
Qed.
Lemma order_loop_ok cmp x : (forall h a b, closed h -> lookup h a <> None -> lookup h b <> None -> nd (cmp h a b)) -> ~ In x P ->
  forall k i G s, A [x; a] G s -> wp (order_loop k ev cmp a env x i) fin s.
Proof.
  intros NDc NX. induction k as [|k IH]; intros i G s H; cbn [order_loop].
  - eapply const_ok; [exact H|apply value_true_ok].
  - eapply ev_arg; [exact H|]. clear H s. intros y s H.
    apply wp_bind. eapply (by_value_ok cmp NDc); [exact H|eapply at_good; [exact H|has|auto]|eqg H|]. intros b. destruct b.
    + eapply IH; exact H.
    + eapply const_ok; [exact H|apply value_false_ok].
Qed.
Lemma order_ok cmp : (forall h a b, closed h -> lookup h a <> None -> lookup h b <> None -> nd (cmp h a b)) -> wp (s_order ev cmp a env) fin s0.
Proof.
  intros NDc. unfold s_order. apply wp_bind, (r_nargs_a [] _ _ _ H0). destruct (Nat.ltb _ _); [eapply out_error; exact H0|].
  apply wp_bind. eapply push_a; [exact H0|]. intros s H. eapply ev_arg; [exact H|]. clear H s. intros x s H.
  assert (NX : ~ In x P) by (apply (a_good _ _ _ _ _ _ _ H); reflexivity).
  apply wp_bind, (r_push D false P s0 x [a] _ _ _ H); [has|]. clear H s. intros s H. eapply order_loop_ok; eauto.
Qed.
Lemma not_equal_ok fuel : wp (s_not_equal fuel ev a env) fin s0.
Proof.
  unfold s_not_equal. apply wp_bind. eapply wp_mono; [apply (equal_with_ok (by_value (vequal fuel)))|].
  - apply by_value_ok. intros h x y C X Y. unfold vequal. apply nd_pred. now apply nd_compare.
  - intros r s H. apply wp_bind. eapply get_good; [exact H|eqg H|]. intros c L. destruct (cdata c); try apply wp_abort.
    + eapply out_alloc; [exact H|easy|exact I].
    + apply wp_ret. exact H.
Qed.

(** ** fn and macro *)
Lemma body_forms_ok body : ~ In body P -> forall k i pre G s, In body pre -> A pre G s ->
  wp (body_forms k a body i) (fun o s' => A pre (fun r => o = Some r) s') s.
Proof.
  intros NB. induction k as [|k IH]; intros i pre G s IB H; cbn [body_forms].
  - apply wp_ret. eapply at_weaken; [exact H|discriminate].
  - apply wp_bind. eapply r_argn; [exact H|]. intros x IX _ H1. apply wp_bind. eapply is_error_good; [exact H1|inc H1|]. intros b. destruct b.
    + apply wp_ret. eapply at_weaken; [exact H1|]. intros y [= <-]. inc H1.
    + apply wp_bind. eapply (r_vec_push D false P s0 body x pre); [exact H1|has|split; [exact NB|discriminate]|inc H1|]. intros s2 H2 _ _. eapply IH; [exact IB|exact H2].
Qed.
Lemma formal_texts_ok : forall fs (Q : option (list text) -> vm -> Prop) pre G s, A pre G s -> (forall x, In x fs -> good P s x) -> (forall o, Q o s) -> wp (formal_texts fs) Q s.
Proof.
  induction fs as [|f fs IH]; intros Q pre G s H GF K; cbn [formal_texts]; [apply wp_ret; auto|].
  apply wp_bind, wp_sym_of; [apply GF; now left|]. intros o. destruct o; [|apply wp_ret; auto]. apply wp_bind.
  eapply IH; [exact H|intros; apply GF; now right|]. intros o. apply wp_ret. auto.
Qed.
Lemma valid_formals_ok f pre G (Q : bool -> vm -> Prop) s : A pre G s -> good P s f -> (forall b, Q b s) -> wp (valid_formals f) Q s.
Proof.
  intros H GF K. unfold valid_formals. apply wp_bind, wp_vec_of; [apply GF|]. intros c fs L E. apply wp_bind.
  eapply formal_texts_ok; [exact H| |].
  - intros x J. eapply at_dref; [exact H|exact L|]. now rewrite E.
  - intros o. destruct o; [|apply wp_ret; auto]. destruct (count_dots l0 0 0). apply wp_ret. auto.
Qed.
Lemma fn_ok mk : (forall f x, dref (mk f) x -> x = fformals f \/ x = fbody f \/ x = fenv f) -> (forall f, is_fun (mk f)) -> (forall f, tame (mk f)) -> wp (s_fn mk a env) fin s0.
Proof.
  intros RM FM TM. unfold s_fn. apply wp_bind. eapply push_a; [exact H0|]. intros s H.
  assert (NE : ~ In env P) by apply GE.
  apply wp_bind, (r_push D false P s0 env [a] _ _ _ H); [has|]. clear H s. intros s H. apply wp_bind, (r_nargs_a _ _ _ _ H).
  destruct (Nat.ltb _ _); [eapply fin_error; exact H|].
  apply wp_bind. eapply r_argn; [exact H|]. intros fo IF _ H1. apply wp_bind. eapply get_good; [exact H1|inc H1|]. intros c L.
  destruct (cdata c); try (eapply fin_error; exact H). clear H1 L c.
  apply wp_bind, (r_alloc D false P s0 (DVec []) [env; a] _ _ _ H); [easy|easy|]. clear H. intros body s1 H _ MB.
  apply wp_bind, (r_push D false P s0 body [env; a] _ _ _ H); [has|]. clear H s1 s. intros s H.
  apply wp_bind. eapply wp_mono; [eapply (body_forms_ok body) with (pre := [body; env; a]); [apply MB|now left|exact H]|]. clear H s. intros o s H. destruct o as [x|].
  { eapply fin_ret; [exact []|exact H|now left]. }
  assert (GF : good P s fo) by exact (arg_good D P a s0 c0 l IN L0 E0 _ _ _ s fo H IF).
  apply wp_bind. eapply valid_formals_ok; [exact H|exact GF|]. intros ok. destruct ok; cbn [negb]; [|eapply fin_error'; exact H].
  apply wp_bind, (r_alloc D false P s0 _ [body; env; a] _ _ _ H); [|auto|].
  { intros x R. apply RM in R as [->|[->| ->]]; cbn [fformals fbody fenv].
    - split; [apply GF|]. right. right. right. exact (arg_reach D P a s0 c0 l IN L0 E0 _ _ _ s fo H IF).
    - split; [apply MB|]. left. now left.
    - split; [exact NE|]. left. right. now left. }
  clear GF. intros r s2 H2 AL MR. apply wp_bind, (r_push D false P s0 r [body; env; a] _ _ _ H2); [has|]. clear H2. intros s3 H3.
  apply wp_bind, (r_alloc D false P s0 (DStr []) [r; body; env; a] _ _ _ H3); [easy|easy|]. intros doc s4 H4 AL4 _.
  apply wp_bind, (r_set_docs D false P s0 r _ _ [r; body; env; a] _ _ _ H4); [has|exact MR| | | |].
  { intros z [= <-]. inc H4. } { discriminate. } { auto. }
  intros s5 H5 _ _. apply wp_bind, (r_pop D false P s0 r [body; env; a] _ _ _ H5). intros s6 H6. eapply fin_ret; [exact []|exact H6|]. left. left. split; [reflexivity|apply MR].
Qed.

(** ** and, or, do *)
Lemma fret_good s v pre G : A pre G s -> fret s = Some v -> good P s v.
Proof.
  intros H EF. pose proof (i_fret _ _ _ (a_inv _ _ _ _ _ _ _ H)) as F. rewrite EF in F. destruct F as (F1 & F2 & F3). split; [auto|]. split; [auto|]. now rewrite F3.
Qed.
Lemma logic_loop_ok stop : forall k i last G s, A [] G s -> (k = O -> forall r, last = Some r -> G r) -> wp (logic_loop k ev stop a env i last) fin s.
Proof.
  induction k as [|k IH]; intros i last G s H K; cbn [logic_loop].
  - apply wp_need. intros r ->. eapply at_eq; [exact H|]. now apply K.
  - apply wp_bind. eapply r_argn; [exact H|]. intros x _ _ H1. apply wp_bind. eapply r_ev; [exact H1|inc H1|]. clear H H1 s. intros o s H.
    apply wp_bind, wp_read. destruct (fret s) as [v|] eqn:EF.
    + apply wp_ret. eapply at_weaken; [exact H|]. intros y <-. eapply fret_good; eauto.
    + apply wp_bind, wp_need. intros r ->. apply wp_bind. eapply get_good; [exact H|eqg H|]. intros c L.
      assert (W : wp (logic_loop k ev stop a env (S i) (Some r)) fin s) by (eapply IH; [exact H|intros _ y [= <-]; reflexivity]).
      destruct (cdata c); try exact W. destruct (Bool.eqb b stop); [|exact W]. apply wp_ret. eapply at_eq; [exact H|reflexivity].
Qed.
Lemma logic_ok stop : wp (s_logic ev stop a env) fin s0.
Proof.
  unfold s_logic. apply wp_bind, (r_nargs_a [] _ _ _ H0). destruct (List.length l); [eapply out_alloc; [exact H0|easy|exact I]|].
  eapply logic_loop_ok; [exact H0|discriminate].
Qed.
Lemma do_loop_ok : forall k i last G s, A [] G s -> (k = O -> forall r, last = Some r -> G r) -> wp (do_loop k ev a env i last) fin s.
Proof.
  induction k as [|k IH]; intros i last G s H K; cbn [do_loop].
  - apply wp_need. intros r ->. eapply at_eq; [exact H|]. now apply K.
  - apply wp_bind. eapply r_argn; [exact H|]. intros x _ _ H1. apply wp_bind. eapply r_ev; [exact H1|inc H1|]. clear H H1 s. intros o s H.
    apply wp_bind, wp_read. destruct (fret s) as [v|] eqn:EF.
    + apply wp_ret. eapply at_weaken; [exact H|]. intros y <-. eapply fret_good; eauto.
    + apply wp_bind, wp_need. intros r ->. apply wp_bind. eapply is_error_good; [exact H|eqg H|]. intros b. destruct b.
      * apply wp_bind. eapply r_annotate; [exact H|eqg H|]. intros s1 H1 _ _. apply wp_ret. eapply at_eq; [exact H1|reflexivity].
      * eapply IH; [exact H|intros _ y [= <-]; reflexivity].
Qed.
Lemma do_ok : wp (s_do ev a env) fin s0.
Proof.
  unfold s_do. apply wp_bind, (r_nargs_a [] _ _ _ H0). destruct (List.length l); [eapply out_error; exact H0|].
  eapply do_loop_ok; [exact H0|discriminate].
Qed.

(** ** eval *)
Lemma hold pre G s e : A pre G s -> In e pre \/ e = env \/ In e l -> ~ In e P -> good P s e /\ kept P s e.
Proof.
  intros H I N. assert (K : kept P s e).
  { destruct I as [I|[->|I]].
    - left. rewrite (a_stack _ _ _ _ _ _ _ H). apply in_or_app. auto.
    - left. rewrite (a_stack _ _ _ _ _ _ _ H). apply in_or_app. auto.
    - right. exists a, c0. split; [exact IN|]. split; [exact (arg_cell D P a s0 c0 IN L0 _ _ _ s H)|]. now rewrite E0. }
  split; [|exact K]. destruct I as [I|[->|I]].
  - eapply at_good; [exact H|has|auto].
  - eapply env_good; exact H.
  - exact (arg_good D P a s0 c0 l IN L0 E0 _ _ _ s e H I).
Qed.
Lemma eval_twice_ok x e pre G s : A pre G s -> good P s x -> In e pre \/ e = env \/ In e l -> ~ In e P ->
  wp (eval_twice ev x e) (fun r s' => A pre (eq r) s') s.
Proof.
  intros H GX IE NE. unfold eval_twice. apply wp_bind. destruct (hold pre G s e H IE NE) as (GE1 & KE1).
  eapply r_ev_in; [exact H|exact GX|exact GE1|auto|]. clear H GX GE1 KE1. intros o s1 H. apply wp_bind, wp_need. intros r ->.
  apply wp_bind, (r_push D false P s0 r pre _ _ _ H); [has|]. clear H s1. intros s1 H.
  destruct (hold (r :: pre) _ s1 e H) as (GE1 & KE1); [destruct IE as [?|?]; [left; now right|now right]|exact NE|].
  apply wp_bind. eapply r_ev_in; [exact H|eqg H|exact GE1|auto|]. clear H GE1 KE1 s1. intros o s1 H. apply wp_bind, wp_need. intros y ->.
  apply wp_bind, (r_pop D false P s0 r pre _ _ _ H). clear H. intros s2 H. apply wp_ret. eapply at_eq; [exact H|now right].
Qed.
Lemma apply_args_ok v : ~ In v P -> forall k i pre G s, In v pre -> A pre G s -> wp (apply_args k ev a env v i) (fun _ s' => A pre (fun _ => False) s') s.
Proof.
  intros NV. induction k as [|k IH]; intros i pre G s IV H; cbn [apply_args]; [apply wp_ret; eapply at_weaken; [exact H|easy]|].
  apply wp_bind. eapply r_argn; [exact H|]. intros x _ _ H1. apply wp_bind. eapply r_ev; [exact H1|inc H1|]. clear H H1 s. intros o s H.
  apply wp_bind. apply (wp_mono D _ (fun _ s' => A pre (fun _ => False) s')); [|intros u s1 H1; eapply IH; [exact IV|exact H1]].
  destruct o as [r|]; [|apply wp_ret; eapply at_weaken; [exact H|easy]].
  apply wp_bind. eapply get_good; [exact H|eqg H|]. intros c L.
  assert (W : forall y s, A pre (fun z => z = y) s -> wp (vec_push v y) (fun _ s' => A pre (fun z => z = y) s') s).
  { intros y s' H'. eapply (r_vec_push D false P s0 v y pre); [exact H'|has|split; [exact NV|discriminate]|eqg H'|]. auto. }
  assert (W2 : wp (vec_push v r) (fun _ s' => A pre (fun _ => False) s') s).
  { eapply wp_mono; [apply W; eapply at_weaken; [exact H|intros y ->; eqg H]|]. intros u s' H'. eapply at_weaken; [exact H'|easy]. }
  destruct (cdata c) eqn:ED; try exact W2. destruct (N.eqb_spec r v); [apply wp_unmodelled|].
  assert (HL : A pre (fun y => In y l0) s) by (eapply at_weaken; [exact H|]; intros y J; eapply at_dref; [exact H|exact L|now rewrite ED]).
  eapply wp_mono; [apply (wp_iterM D _ (fun s' => A pre (fun y => In y l0) s')); [|exact HL]|intros u s' H'; eapply at_weaken; [exact H'|easy]].
  intros y s1 J H1. eapply (r_vec_push D false P s0 v y pre); [exact H1|has|split; [exact NV|discriminate]|inc H1|]. auto.
Qed.
Lemma apply_ok n : wp (s_apply ev a env n) fin s0.
Proof.
  unfold s_apply. eapply ev_arg; [exact H0|]. intros f s H. assert (NF : ~ In f P) by (apply (a_good _ _ _ _ _ _ _ H); reflexivity).
  apply wp_bind, (r_push D false P s0 f [] _ _ _ H); [has|]. clear H s. intros s H. apply wp_bind. eapply get_good; [exact H|eqg H|]. intros c L.
  destruct (negb _); [eapply fin_pop_error; exact H|]. clear c L.
  eapply ev_arg; [exact H|]. clear H s. intros e s H. assert (NE : ~ In e P) by (apply (a_good _ _ _ _ _ _ _ H); reflexivity).
  apply wp_bind, (r_push D false P s0 e [f] _ _ _ H); [has|]. clear H s. intros s H. apply wp_bind. eapply get_good; [exact H|eqg H|]. intros c L.
  destruct (cdata c); try (eapply fin_error; exact H). clear c L.
  apply wp_bind, (r_alloc D false P s0 (DVec []) [e; f] _ _ _ H); [easy|easy|]. clear H. intros v s1 H _ MV. clear s. rename s1 into s.
  apply wp_bind, (r_push D false P s0 v [e; f] _ _ _ H); [has|]. clear H s. intros s H.
  apply wp_bind. eapply (r_vec_push D false P s0 v f [v; e; f]); [exact H|has|exact MV|eapply at_good; [exact H|has|auto]|]. clear H. intros s1 H _ _. clear s. rename s1 into s.
  apply wp_bind. eapply wp_mono; [eapply (apply_args_ok v) with (pre := [v; e; f]); [apply MV|now left|exact H]|]. clear H s. intros u s H.
  destruct (hold _ _ s e H) as (GE1 & KE1); [left; cbn; auto|exact NE|].
  apply wp_bind. eapply r_ev_in; [exact H|eapply at_good; [exact H|has|right; apply MV]|exact GE1|auto|]. clear H GE1 KE1 s. intros o s H. apply wp_bind, wp_need. intros r ->.
  eapply fin_ret; [exact []|exact H|now left].
Qed.
Lemma eval_ok' : wp (s_eval ev a env) fin s0.
Proof.
  unfold s_eval. apply wp_bind, (r_nargs_a [] _ _ _ H0). destruct (List.length l) as [|[|[|n]]].
  - eapply out_error; exact H0.
  - apply wp_bind. eapply r_argn; [exact H0|]. intros x IX _ H. apply wp_bind. eapply push_a; [exact H|]. clear H. intros s H.
    apply wp_bind. eapply wp_mono; [eapply eval_twice_ok with (pre := [a]); [exact H|inc H|auto|apply GE]|]. clear H s. intros r s H. eapply fin_pop; [exact H|now left].
  - apply wp_bind. eapply r_argn; [exact H0|]. intros x IX _ H. apply wp_bind. eapply push_a; [exact H|]. clear H. intros s H.
    apply wp_bind. eapply r_argn; [exact H|]. intros e IE _ H1. clear H. apply wp_bind. eapply get_good; [exact H1|inc H1|]. intros c L.
    assert (NE : ~ In e P) by (apply (a_good _ _ _ _ _ _ _ H1); auto).
    assert (W : wp (o <- ev e env ;; e <- need o ;; d <- get e ;; match d with DErr _ _ => pop a ;;; ret e | DEnv _ _ => push e ;;; r <- eval_twice ev x e ;; pops [e; a] ;;; ret r | _ => pop a ;;; new_error end) fin s).
    { apply wp_bind. eapply r_ev; [exact H1|inc H1|]. clear H1 L s. intros o s H. apply wp_bind, wp_need. intros e1 ->.
      assert (NE1 : ~ In e1 P) by (apply (a_good _ _ _ _ _ _ _ H); auto). apply wp_bind. eapply get_good; [exact H|eqg H|]. intros c1 L1.
      destruct (cdata c1); try (eapply fin_pop_error; exact H); [eapply fin_pop; [exact H|now left]|].
      apply wp_bind, (r_push D false P s0 e1 [a] _ _ _ H); [has|]. clear H L1 s. intros s H. apply wp_bind.
      eapply wp_mono; [eapply eval_twice_ok with (pre := [e1; a]); [exact H|exact (arg_good D P a s0 c0 l IN L0 E0 _ _ _ s x H IX)|left; now left|exact NE1]|].
      clear H s. intros r s H. eapply fin_ret; [exact []|exact H|now left]. }
    destruct (cdata c); try exact W. clear W.
    apply wp_bind. eapply wp_mono; [eapply eval_twice_ok with (pre := [a]); [exact H1|inc H1|auto|exact NE]|]. clear H1 L s. intros r s H. eapply fin_pop; [exact H|now left].
  - apply apply_ok.
Qed.

(** ** define *)
Lemma annotate_copy v doc pre G s : A pre G s -> In v pre -> ~ In v P -> In doc pre -> ~ In doc P ->
  wp (c <- get_cell v ;; set_docs v (Some doc) (cdocvec c)) (fun _ s' => A pre G s') s.
Proof.
  intros H IV NV ID NDc. apply wp_bind. eapply wp_get_cell; [eapply at_live; [exact H|has]|]. intros c L.
  eapply (r_set_docs D false P s0 v); [exact H|has|split; [exact NV|discriminate]| | | |].
  - intros x [= <-]. eapply at_good; [exact H|has|auto].
  - intros x E. eapply at_docvec; [exact H|exact L|exact E].
  - intros ED c' L'. rewrite L in L'. injection L' as <-. destruct (cdocvec c) as [y|] eqn:EY; [right|now left]. eapply at_docvec_fun; eauto.
  - auto.
Qed.
Lemma define_var_ok fuel k v G s : A [v; k] G s -> ~ In v P -> ~ In k P -> wp (define_var fuel ev k v a env) (fun r s' => A [v; k] (eq r) s') s.
Proof.
  intros H NV NK. unfold define_var. apply wp_bind. eapply push_a; [exact H|]. clear H s. intros s H.
  apply wp_bind. eapply r_argn; [exact H|]. intros x1 _ _ H1. apply wp_bind. eapply sym_is_ok; [exact H1|inc H1|]. clear H1. intros ok. destruct ok; cbn [negb].
  2:{ apply wp_bind. apply (r_new_error D false P s0 _ _ _ _ H). clear H s. intros r s H. apply wp_bind, (r_pop D false P s0 a [v; k] _ _ _ H). clear H s. intros s H. apply wp_ret. eapply at_eq; [exact H|now right]. }
  eapply ev_arg; [exact H|]. clear H s. intros doc s H. assert (NDc : ~ In doc P) by (apply (a_good _ _ _ _ _ _ _ H); reflexivity).
  apply wp_bind, (r_push D false P s0 doc [a; v; k] _ _ _ H); [has|]. clear H s. intros s H. apply wp_bind. eapply get_good; [exact H|eqg H|]. intros c L.
  assert (W : wp (r <- new_error ;; pops [doc; a] ;;; ret r) (fun r s' => A [v; k] (eq r) s') s).
  { apply wp_bind. apply (r_new_error D false P s0 _ _ _ _ H). clear H L s. intros r s H. apply wp_bind, (r_pops false P s0 [doc; a] [v; k] _ _ _ H). clear H s. intros s H. apply wp_ret. eapply at_eq; [exact H|now right]. }
  destruct (cdata c); try exact W. clear W L c.
  apply wp_bind. eapply (r_copy_atom D false P s0 fuel v); [exact H|eapply src_stack; [exact H|cbn; auto 12]|eapply at_good; [exact H|has|auto]|]. clear H s. intros v' s H.
  assert (NV' : ~ In v' P) by (apply (a_good _ _ _ _ _ _ _ H); reflexivity).
  apply wp_bind, (r_push D false P s0 v' [doc; a; v; k] _ _ _ H); [has|]. clear H s. intros s H.
  assert (W : forall m, wp (c <- get_cell v' ;; set_docs v' (Some doc) (cdocvec c)) (fun _ s' => wp (m : M ref) (fun r s' => A [v; k] (eq r) s') s') s -> wp (c <- get_cell v' ;; set_docs v' (Some doc) (cdocvec c) ;;; m) (fun r s' => A [v; k] (eq r) s') s).
  { intros m W. unfold SafeBase.wp, bind in *. destruct (get_cell v' s) as [[c s']| | | | |]; cbn in *; auto. destruct (set_docs v' (Some doc) (cdocvec c) s') as [[c' s'']| | | | |]; cbn in *; auto. }
  apply W. clear W. eapply wp_mono; [eapply annotate_copy; [exact H|cbn; auto|exact NV'|cbn; auto|exact NDc]|]. clear H s. intros u s H. cbv beta in H.
  apply wp_bind. eapply (r_env_set D false P s0 env k v'); [exact H|apply (env_good _ _ _ _ H)|split; [apply GE|discriminate]|eapply at_good; [exact H|has|auto]|eapply at_good; [exact H|has|auto]|]. clear H s. intros s H.
  apply wp_bind, (r_pops false P s0 [v'; doc; a] [v; k] _ _ _ H). clear H s. intros s H. apply (r_alloc D false P s0 _ [v; k] _ _ _ H); [easy|easy|auto].
Qed.
Lemma define_var_in_ok fuel k v G s : A [v; k] G s -> ~ In v P -> ~ In k P -> wp (define_var_in fuel ev k v a env) (fun r s' => A [v; k] (eq r) s') s.
Proof.
  intros H NV NK. unfold define_var_in. apply wp_bind. eapply push_a; [exact H|]. clear H s. intros s H.
  assert (W0 : wp (r <- new_error ;; pop a ;;; ret r) (fun r s' => A [v; k] (eq r) s') s).
  { apply wp_bind. apply (r_new_error D false P s0 _ _ _ _ H). clear H s. intros r s H. apply wp_bind, (r_pop D false P s0 a [v; k] _ _ _ H). clear H s. intros s H. apply wp_ret. eapply at_eq; [exact H|now right]. }
  apply wp_bind. eapply r_argn; [exact H|]. intros x1 _ _ H1. apply wp_bind. eapply sym_is_ok; [exact H1|inc H1|]. clear H1. intros ok. destruct ok; cbn [negb]; [|exact W0].
  apply wp_bind. eapply r_argn; [exact H|]. intros x4 _ _ H1. apply wp_bind. eapply sym_is_ok; [exact H1|inc H1|]. clear H1. intros ok. destruct ok; cbn [negb]; [|exact W0]. clear W0.
  eapply ev_arg; [exact H|]. clear H s. intros doc s H. assert (NDc : ~ In doc P) by (apply (a_good _ _ _ _ _ _ _ H); reflexivity).
  apply wp_bind, (r_push D false P s0 doc [a; v; k] _ _ _ H); [has|]. clear H s. intros s H. apply wp_bind. eapply get_good; [exact H|eqg H|]. intros c L.
  assert (W : wp (r <- new_error ;; pops [doc; a] ;;; ret r) (fun r s' => A [v; k] (eq r) s') s).
  { apply wp_bind. apply (r_new_error D false P s0 _ _ _ _ H). clear H L s. intros r s H. apply wp_bind, (r_pops false P s0 [doc; a] [v; k] _ _ _ H). clear H s. intros s H. apply wp_ret. eapply at_eq; [exact H|now right]. }
  destruct (cdata c); try exact W. clear W L c.
  eapply ev_arg; [exact H|]. clear H s. intros e s H. assert (NE : ~ In e P) by (apply (a_good _ _ _ _ _ _ _ H); reflexivity).
  apply wp_bind, (r_push D false P s0 e [doc; a; v; k] _ _ _ H); [has|]. clear H s. intros s H. apply wp_bind. eapply get_good; [exact H|eqg H|]. intros c L.
  assert (W : wp (r <- new_error ;; pops [e; doc; a] ;;; ret r) (fun r s' => A [v; k] (eq r) s') s).
  { apply wp_bind. apply (r_new_error D false P s0 _ _ _ _ H). clear H L s. intros r s H. apply wp_bind, (r_pops false P s0 [e; doc; a] [v; k] _ _ _ H). clear H s. intros s H. apply wp_ret. eapply at_eq; [exact H|now right]. }
  destruct (cdata c); try exact W. clear W L c.
  apply wp_bind. eapply (r_copy_atom D false P s0 fuel v); [exact H|eapply src_stack; [exact H|cbn; auto 12]|eapply at_good; [exact H|has|auto]|]. clear H s. intros v' s H.
  assert (NV' : ~ In v' P) by (apply (a_good _ _ _ _ _ _ _ H); reflexivity).
  apply wp_bind, (r_push D false P s0 v' [e; doc; a; v; k] _ _ _ H); [has|]. clear H s. intros s H.
  assert (W : forall m, wp (c <- get_cell v' ;; set_docs v' (Some doc) (cdocvec c)) (fun _ s' => wp (m : M ref) (fun r s' => A [v; k] (eq r) s') s') s -> wp (c <- get_cell v' ;; set_docs v' (Some doc) (cdocvec c) ;;; m) (fun r s' => A [v; k] (eq r) s') s).
  { intros m W. unfold SafeBase.wp, bind in *. destruct (get_cell v' s) as [[c s']| | | | |]; cbn in *; auto. destruct (set_docs v' (Some doc) (cdocvec c) s') as [[c' s'']| | | | |]; cbn in *; auto. }
  apply W. clear W. eapply wp_mono; [eapply annotate_copy; [exact H|cbn; auto|exact NV'|cbn; auto|exact NDc]|]. clear H s. intros u s H. cbv beta in H.
  apply wp_bind. eapply (r_env_set D false P s0 e k v'); [exact H|eapply at_live; [exact H|has]|split; [exact NE|discriminate]|eapply at_good; [exact H|has|auto]|eapply at_good; [exact H|has|auto]|]. clear H s. intros s H.
  apply wp_bind, (r_pops false P s0 [v'; e; doc; a] [v; k] _ _ _ H). clear H s. intros s H. apply (r_alloc D false P s0 _ [v; k] _ _ _ H); [easy|easy|auto].
Qed.
Lemma mentioned_ok name : forall n dv (Q : bool -> vm -> Prop) pre G s, (List.length dv <= n)%nat -> A pre G s -> (forall x, In x dv -> good P s x) -> (forall b, Q b s) -> wp (mentioned name dv) Q s.
Proof.
  induction n as [|n IH]; intros dv Q pre G s LE H GD K; (destruct dv as [|x dv]; cbn [mentioned]; [apply wp_ret; apply K|]); cbn in LE; [lia|].
  apply wp_bind. eapply get_good; [exact H|apply GD; now left|]. intros c L. destruct (cdata c); try apply wp_abort. destruct (text_eqb _ _).
  - destruct dv as [|y dv]; [apply wp_ret; apply K|]. apply wp_bind. eapply get_good; [exact H|apply GD; right; now left|]. intros c' L'. destruct (cdata c'); apply wp_ret; apply K.
  - destruct dv as [|y dv]; [apply wp_ret; apply K|]. eapply IH; [cbn in LE; lia|exact H|intros z J; apply GD; right; now right|exact K].
Qed.
Lemma all_mentioned_ok f dv pre G (Q : bool -> vm -> Prop) s : A pre G s -> good P s f -> good P s dv -> (forall b, Q b s) -> wp (all_mentioned f dv) Q s.
Proof.
  intros H GF GD K. unfold all_mentioned. apply wp_bind, wp_vec_of; [apply GF|]. intros c fs L E. apply wp_bind, wp_vec_of; [apply GD|]. intros c' ds L' E'.
  apply wp_bind. assert (GFS : forall x, In x fs -> good P s x) by (intros x J; eapply at_dref; [exact H|exact L|now rewrite E]).
  assert (GDS : forall x, In x ds -> good P s x) by (intros x J; eapply at_dref; [exact H|exact L'|now rewrite E']).
  apply (wp_mono D _ (fun _ s' => s' = s)); [|intros oks s' ->; apply wp_ret; apply K].
  clear L E. induction fs as [|x fs IH]; cbn [mapM]; [now apply wp_ret|]. apply wp_bind. apply (wp_mono D _ (fun _ s' => s' = s)).
  - apply wp_bind, wp_formal_name; [apply GFS; now left|]. intros c1 t _ _. eapply mentioned_ok; [reflexivity|exact H|exact GDS|reflexivity].
  - intros b s' ->. apply wp_bind. eapply wp_mono; [apply IH; intros; apply GFS; now right|]. intros r s' ->. now apply wp_ret.
Qed.
Lemma put_doc_ok doc u u' pre G (Q : unit -> vm -> Prop) s c : A pre G s -> In doc pre -> ~ In doc P -> lookup (all s) doc = Some c -> cdata c = DStr u' ->
  (forall s', A pre G s' -> (forall x, x <> doc -> lookup (all s') x = lookup (all s) x) -> Q tt s') -> wp (put doc (DStr u)) Q s.
Proof.
  intros H ID NDc L E K. eapply (r_put D false P s0 doc); [exact H|has|split; [exact NDc|discriminate]|easy|easy| |].
  - intros _ c' L' F. rewrite L in L'. injection L' as <-. now rewrite E in F.
  - intros s' H' _ O. apply K; auto.
Qed.
Lemma append_docs_ok doc : ~ In doc P -> forall n dv pre G (s : vm), (List.length dv <= n)%nat -> In doc pre -> A pre G s -> (forall x, In x dv -> G x) ->
  wp (append_docs doc dv) (fun _ s' => A pre G s' /\ (forall x, x <> doc -> lookup (all s') x = lookup (all s) x)) s.
Proof.
  intros NDc. induction n as [|n IH]; intros dv pre G s LE ID H GD; (destruct dv as [|x dv]; cbn [append_docs]; [apply wp_ret; auto|]); cbn in LE; [lia|].
  apply wp_bind. eapply get_good; [exact H|inc H; apply GD; now left|]. intros c L. destruct (cdata c); try apply wp_abort. destruct dv as [|y dv]; [apply wp_abort|].
  apply wp_bind. eapply get_good; [exact H|inc H; apply GD; right; now left|]. intros c' L'. apply wp_bind. eapply get_good; [exact H|eapply at_good; [exact H|has|auto]|]. intros cd Ld.
  destruct (cdata c'); try apply wp_abort. destruct (cdata cd) eqn:ED; try apply wp_abort. destruct (y =? doc); [apply wp_undef|].
  apply wp_bind, wp_lift; [intros; apply nd_c_string_copy|]. intros t' _. apply wp_bind, wp_lift; [intros; apply nd_c_string_copy|]. intros u' _. apply wp_bind.
  eapply put_doc_ok; [exact H|exact ID|exact NDc|exact Ld|exact ED|]. intros s9 H1 O1. eapply wp_mono; [eapply IH; [cbn in LE; lia|exact ID|exact H1|intros z J; apply GD; right; now right]|].
  intros u s8 (H2 & O2). split; [exact H2|]. intros z NZ. rewrite O2 by exact NZ. now apply O1.
Qed.
Lemma finish_fun_ok yes k v e doc dv used G s : A (used ++ [v; k]) G s -> In dv used -> In doc used -> ~ In v P -> ~ In k P -> ~ In doc P -> ~ In dv P -> (forall s1 pre G1, A pre G1 s1 -> incl used pre -> good P s1 e) ->
  wp (finish_fun yes k v e doc dv used) (fun r s' => A [v; k] (eq r) s') s.
Proof.
  intros H IDV IDOC NV NK NDc NDV GOODE. unfold finish_fun.
  assert (IN1 : forall pre, incl (used ++ [v; k]) pre -> In dv pre /\ In doc pre /\ In v pre /\ In k pre /\ incl used pre).
  { intros pre I. repeat split; try (intros z J); apply I; rewrite in_app_iff; cbn; auto. }
  destruct (IN1 _ (incl_refl _)) as (U1 & U2 & U3 & U4 & U5).
  assert (GV : forall x pre G1 s1, A pre G1 s1 -> In x pre -> ~ In x P -> good P s1 x) by (intros x pre G1 s1 H1 J N; eapply at_good; [exact H1|has|auto]).
  apply wp_bind. eapply get_good; [exact H|eauto|]. intros cv LV.
  match goal with |- wp (match cdata cv with DFun g1 => @?B g1 | DMac g2 => @?C g2 | _ => _ end) _ _ => cut (forall f, is_fun (cdata cv) -> (forall x, x = fformals f \/ x = fbody f \/ x = fenv f -> dref (cdata cv) x) -> wp (B f) (fun r s' => A [v; k] (eq r) s') s) end.
  { intros W. destruct (cdata cv); try apply wp_undef; apply (W f I); intros x J; exact J. }
  intros f FV RV.
  assert (GFo : good P s (fformals f)) by (eapply at_dref; [exact H|exact LV|apply RV; auto]).
  apply wp_bind. eapply all_mentioned_ok; [exact H|exact GFo|eauto|]. intros ok. destruct ok; cbn [negb].
  2:{ apply wp_bind, (r_pops false P s0 used [v; k] _ _ _ H). clear H LV GFo s. intros s H. apply (r_new_error D false P s0 _ _ _ _ H). auto. }
  apply wp_bind. eapply get_good; [exact H|eauto|]. intros cd Ld. destruct (cdata cd) eqn:ED; try (apply wp_bind, wp_undef).
  assert (NEQ : v <> doc) by (intros ->; rewrite LV in Ld; injection Ld as <-; rewrite ED in FV; exact FV).
  apply wp_bind. eapply put_doc_ok; [exact H|exact U2|exact NDc|exact Ld|exact ED|]. intros sa H1 O1. clear H.
  apply wp_bind. eapply wp_vec_of; [eapply at_live; [exact H1|has]|]. intros c1 l1 L1 E1.
  assert (H2 : A (used ++ [v; k]) (fun y => In y l1) sa) by (eapply at_weaken; [exact H1|]; intros y J; eapply at_dref; [exact H1|exact L1|now rewrite E1]).
  apply wp_bind. eapply wp_mono; [eapply (append_docs_ok doc NDc _ l1 (used ++ [v; k])); [reflexivity|exact U2|exact H2|auto]|]. clear H1 H2. intros u sb (H2 & O2).
  assert (LV2 : lookup (all sb) v = Some cv) by (rewrite O2, O1 by exact NEQ; exact LV).
  apply wp_bind, (r_push_all false P s0 v _ _ _ _ H2); [has|]. clear H2. intros sc H EA.
  assert (V1 : forall x, In x (used ++ [v; k]) -> In x (v :: used ++ [v; k])) by (intros; now right).
  apply wp_bind, (r_set_docs D false P s0 v _ _ _ _ _ _ H); [has|split; [exact NV|discriminate]| | | |].
  - intros x [= <-]. eauto.
  - intros x [= <-]. split; [eapply at_lt; [exact H|has]|exact NDV].
  - intros _ c2 L2. right. rewrite EA, LV2 in L2. injection L2 as <-. exact FV.
  - clear H. intros s4 H _ _. apply wp_bind. eapply get_good; [exact H|eauto|]. intros ck LK. apply wp_bind. eapply get_good; [exact H|eauto|]. intros cd2 Ld2.
    apply wp_bind. eapply get_good; [exact H|eauto|]. intros cv2 Lv2.
    destruct (cdata ck); try apply wp_undef. destruct (cdata cd2); try apply wp_undef.
    apply wp_bind, wp_lift; [intros; apply nd_c_string_copy|]. intros t' _. apply wp_bind, wp_lift; [intros; apply nd_c_string_copy|]. intros u' _. apply wp_bind.
    assert (W2 : forall d, (forall x, dref d x -> dref (cdata cv2) x) -> is_fun d -> tame d -> wp (put v d) (fun _ s' => A (v :: used ++ [v; k]) (fun y => In y l1) s') s4).
    { intros d RD FD TD. eapply (r_put D false P s0 v); [exact H|has|split; [exact NV|discriminate]| |auto|auto|auto]. intros x R. eapply at_dref; [exact H|exact Lv2|auto]. }
    eapply wp_mono; [destruct (cdata cv2); try apply wp_undef; apply W2; try easy|]. intros u2 se H5. cbv beta in H5.
    assert (GEe : good P se e) by (eapply GOODE; [exact H5|]; intros z J; auto).
    apply wp_bind. eapply (r_env_set D false P s0 e k v); [exact H5|apply GEe|split; [apply GEe|discriminate]|eauto|eauto|]. intros sf H6.
    apply wp_bind, (r_pops false P s0 (v :: used) [v; k] _ _ _ H6). intros sg H7. apply (r_alloc D false P s0 _ [v; k] _ _ _ H7); [easy|easy|auto].
Qed.
Lemma define_fun_ok k v G s : A [v; k] G s -> ~ In v P -> ~ In k P -> wp (define_fun ev k v a env) (fun r s' => A [v; k] (eq r) s') s.
Proof.
  intros H NV NK. unfold define_fun. apply wp_bind. eapply push_a; [exact H|]. clear H s. intros s H.
  assert (W0 : wp (r <- new_error ;; pop a ;;; ret r) (fun r s' => A [v; k] (eq r) s') s).
  { apply wp_bind. apply (r_new_error D false P s0 _ _ _ _ H). clear H s. intros r s H. apply wp_bind, (r_pop D false P s0 a [v; k] _ _ _ H). clear H s. intros s H. apply wp_ret. eapply at_eq; [exact H|now right]. }
  apply wp_bind. eapply r_argn; [exact H|]. intros x1 _ _ H1. apply wp_bind. eapply sym_is_ok; [exact H1|inc H1|]. clear H1. intros ok. destruct ok; cbn [negb]; [|exact W0].
  apply wp_bind. eapply r_argn; [exact H|]. intros x5 _ _ H1. apply wp_bind. eapply sym_is_ok; [exact H1|inc H1|]. intros yes. apply wp_bind. eapply sym_is_ok; [exact H1|inc H1|]. clear H1.
  intros no. destruct (negb (yes || no)); [exact W0|]. clear W0.
  eapply ev_arg; [exact H|]. clear H s. intros doc s H. assert (NDc : ~ In doc P) by (apply (a_good _ _ _ _ _ _ _ H); reflexivity).
  apply wp_bind, (r_push D false P s0 doc [a; v; k] _ _ _ H); [has|]. clear H s. intros s H. apply wp_bind. eapply get_good; [exact H|eqg H|]. intros c L.
  assert (W : wp (r <- new_error ;; pops [doc; a] ;;; ret r) (fun r s' => A [v; k] (eq r) s') s).
  { apply wp_bind. apply (r_new_error D false P s0 _ _ _ _ H). clear H L s. intros r s H. apply wp_bind, (r_pops false P s0 [doc; a] [v; k] _ _ _ H). clear H s. intros s H. apply wp_ret. eapply at_eq; [exact H|now right]. }
  destruct (cdata c); try exact W. clear W L c.
  eapply ev_arg; [exact H|]. clear H s. intros dv s H. assert (NDV : ~ In dv P) by (apply (a_good _ _ _ _ _ _ _ H); reflexivity).
  apply wp_bind, (r_push D false P s0 dv [doc; a; v; k] _ _ _ H); [has|]. clear H s. intros s H. apply wp_bind. eapply get_good; [exact H|eqg H|]. intros c L.
  assert (W : wp (r <- new_error ;; pops [dv; doc; a] ;;; ret r) (fun r s' => A [v; k] (eq r) s') s).
  { apply wp_bind. apply (r_new_error D false P s0 _ _ _ _ H). clear H L s. intros r s H. apply wp_bind, (r_pops false P s0 [dv; doc; a] [v; k] _ _ _ H). clear H s. intros s H. apply wp_ret. eapply at_eq; [exact H|now right]. }
  destruct (cdata c) eqn:EDV; try exact W. clear W.
  eapply (finish_fun_ok yes k v env doc dv [dv; doc; a]); [exact H|cbn; auto|cbn; auto|exact NV|exact NK|exact NDc|exact NDV|]. intros s9 pre G1 H1 _. apply (env_good _ _ _ _ H1).
Qed.
Lemma define_fun_in_ok k v G s : A [v; k] G s -> ~ In v P -> ~ In k P -> wp (define_fun_in ev k v a env) (fun r s' => A [v; k] (eq r) s') s.
Proof.
  intros H NV NK. unfold define_fun_in. apply wp_bind. eapply push_a; [exact H|]. clear H s. intros s H.
  assert (W0 : wp (r <- new_error ;; pop a ;;; ret r) (fun r s' => A [v; k] (eq r) s') s).
  { apply wp_bind. apply (r_new_error D false P s0 _ _ _ _ H). clear H s. intros r s H. apply wp_bind, (r_pop D false P s0 a [v; k] _ _ _ H). clear H s. intros s H. apply wp_ret. eapply at_eq; [exact H|now right]. }
  apply wp_bind. eapply r_argn; [exact H|]. intros x1 _ _ H1. apply wp_bind. eapply sym_is_ok; [exact H1|inc H1|]. clear H1. intros ok. destruct ok; cbn [negb]; [|exact W0].
  apply wp_bind. eapply r_argn; [exact H|]. intros x5 _ _ H1. apply wp_bind. eapply sym_is_ok; [exact H1|inc H1|]. clear H1. intros ok. destruct ok; cbn [negb]; [|exact W0].
  apply wp_bind. eapply r_argn; [exact H|]. intros x7 _ _ H1. apply wp_bind. eapply sym_is_ok; [exact H1|inc H1|]. intros yes. apply wp_bind. eapply sym_is_ok; [exact H1|inc H1|]. clear H1.
  intros no. destruct (negb (yes || no)); [exact W0|]. clear W0.
  eapply ev_arg; [exact H|]. clear H s. intros doc s H. assert (NDc : ~ In doc P) by (apply (a_good _ _ _ _ _ _ _ H); reflexivity).
  apply wp_bind, (r_push D false P s0 doc [a; v; k] _ _ _ H); [has|]. clear H s. intros s H. apply wp_bind. eapply get_good; [exact H|eqg H|]. intros c L.
  assert (W : wp (r <- new_error ;; pops [doc; a] ;;; ret r) (fun r s' => A [v; k] (eq r) s') s).
  { apply wp_bind. apply (r_new_error D false P s0 _ _ _ _ H). clear H L s. intros r s H. apply wp_bind, (r_pops false P s0 [doc; a] [v; k] _ _ _ H). clear H s. intros s H. apply wp_ret. eapply at_eq; [exact H|now right]. }
  destruct (cdata c); try exact W. clear W L c.
  eapply ev_arg; [exact H|]. clear H s. intros e s H. assert (NE : ~ In e P) by (apply (a_good _ _ _ _ _ _ _ H); reflexivity).
  apply wp_bind, (r_push D false P s0 e [doc; a; v; k] _ _ _ H); [has|]. clear H s. intros s H. apply wp_bind. eapply get_good; [exact H|eqg H|]. intros c L.
  assert (W : wp (r <- new_error ;; pops [e; doc; a] ;;; ret r) (fun r s' => A [v; k] (eq r) s') s).
  { apply wp_bind. apply (r_new_error D false P s0 _ _ _ _ H). clear H L s. intros r s H. apply wp_bind, (r_pops false P s0 [e; doc; a] [v; k] _ _ _ H). clear H s. intros s H. apply wp_ret. eapply at_eq; [exact H|now right]. }
  destruct (cdata c); try exact W. clear W L c.
  eapply ev_arg; [exact H|]. clear H s. intros dv s H. assert (NDV : ~ In dv P) by (apply (a_good _ _ _ _ _ _ _ H); reflexivity).
  apply wp_bind, (r_push D false P s0 dv [e; doc; a; v; k] _ _ _ H); [has|]. clear H s. intros s H. apply wp_bind. eapply get_good; [exact H|eqg H|]. intros c L.
  assert (W : wp (r <- new_error ;; pops [dv; e; doc; a] ;;; ret r) (fun r s' => A [v; k] (eq r) s') s).
  { apply wp_bind. apply (r_new_error D false P s0 _ _ _ _ H). clear H L s. intros r s H. apply wp_bind, (r_pops false P s0 [dv; e; doc; a] [v; k] _ _ _ H). clear H s. intros s H. apply wp_ret. eapply at_eq; [exact H|now right]. }
  destruct (cdata c) eqn:EDV; try exact W. clear W.
  eapply (finish_fun_ok yes k v e doc dv [dv; e; doc; a]); [exact H|cbn; auto|cbn; auto|exact NV|exact NK|exact NDc|exact NDV|]. intros s9 pre G1 H1 I. eapply at_good; [exact H1|right; left; apply I; cbn; auto|auto].
Qed.
Lemma define_ok fuel : wp (s_define fuel ev a env) fin s0.
Proof.
  unfold s_define. apply wp_bind, (r_nargs_a [] _ _ _ H0). destruct (negb _); [eapply out_error; exact H0|].
  apply wp_bind. eapply r_argn; [exact H0|]. intros k0 _ _ H. apply wp_bind. eapply get_good; [exact H|inc H|]. intros c L.
  apply wp_bind. apply (wp_mono D _ (fun o s => A [] (fun r => o = inl r \/ o = inr r) s)).
  { assert (W : wp (ret (inl k0)) (fun (o : ref + ref) s => A [] (fun r => o = inl r \/ o = inr r) s) s0).
    { apply wp_ret. eapply at_weaken; [exact H|]. intros x [[= <-]|[=]]. inc H. }
    destruct (cdata c); try exact W. clear W. apply wp_bind. eapply r_ev; [exact H|inc H|]. clear H L. intros o s H. apply wp_bind, wp_need. intros r ->.
    apply wp_bind. eapply is_error_good; [exact H|eqg H|]. intros b. apply wp_ret. eapply at_weaken; [exact H|]. intros x J. apply (a_good _ _ _ _ _ _ _ H). destruct b, J as [[=]|[=]]; congruence. }
  clear H L c k0. intros o s H. destruct o as [k|e]; [|apply wp_ret; eapply at_eq; [exact H|now right]].
  assert (NK : ~ In k P) by (apply (a_good _ _ _ _ _ _ _ H); now left).
  apply wp_bind. eapply get_good; [exact H|inc H|]. intros c L. destruct (cdata c); try (eapply out_error; exact H). clear L c.
  apply wp_bind, (r_push D false P s0 k [] _ _ _ H); [has|]. clear H s. intros s H.
  eapply ev_arg; [exact H|]. clear H s. intros v s H. assert (NV : ~ In v P) by (apply (a_good _ _ _ _ _ _ _ H); reflexivity).
  apply wp_bind. eapply is_error_good; [exact H|eqg H|]. intros b. destruct b; [eapply fin_pop; [exact H|now left]|].
  apply wp_bind, (r_push D false P s0 v [k] _ _ _ H); [has|]. clear H s. intros s H. apply wp_bind. eapply get_good; [exact H|eqg H|]. intros c L.
  apply wp_bind. apply (wp_mono D _ (fun r s' => A [v; k] (eq r) s')); [|intros r s' H'; eapply fin_ret; [exact []|exact H'|now left]].
  destruct (Nat.eqb _ _); [eapply define_var_ok; eauto|]. destruct (Nat.eqb _ _); [|eapply define_fun_in_ok; eauto].
  destruct (cdata c); try (eapply define_var_in_ok; eauto); eapply define_fun_ok; eauto.
Qed.
(** ** generate *)
Lemma collect_ok r x pre G (Q : unit -> vm -> Prop) s : A pre G s -> In r pre -> ~ In r P -> good P s x -> (forall s', A pre G s' -> Q tt s') -> wp (collect r x) Q s.
Proof.
  intros H IR NR GX K. unfold collect. apply wp_bind, wp_get; [eapply at_live; [exact H|has]|]. intros c L. destruct (cdata c) eqn:E; try apply wp_abort; [| apply wp_unmodelled|].
  - apply wp_bind, wp_get; [apply GX|]. intros cx LX. destruct (cdata cx) as [| | | | |[|ch t]| | | | | | | | | | | |]; try apply wp_abort.
    eapply (r_put D false P s0 r); [exact H|has|split; [exact NR|discriminate]|easy|easy| |auto].
    intros _ c2 L2 F2. rewrite L in L2. injection L2 as <-. now rewrite E in F2.
  - eapply (r_vec_push D false P s0 r x); [exact H|has|split; [exact NR|discriminate]|exact GX|auto].
Qed.
Lemma generate_same_ok res x pre : In res pre -> ~ In res P -> In x pre -> ~ In x P ->
  forall k G s, A pre G s -> wp (generate_same k res x) (fun _ s' => A pre (fun _ => False) s') s.
Proof.
  intros IR NR IX NX. induction k as [|k IH]; intros G s H; cbn [generate_same].
  - apply wp_ret. eapply at_weaken; [exact H|easy].
  - apply wp_bind. eapply collect_ok; [exact H|exact IR|exact NR|eapply at_good; [exact H|has|auto]|]. intros s1 H1. eapply IH; exact H1.
Qed.
Lemma generate_calls_ok res gen pre j : In res pre -> ~ In res P -> nth_error l j = Some gen ->
  forall k i G s, A pre G s -> wp (generate_calls k ev env gen res i) (fun _ s' => A pre (fun _ => False) s') s.
Proof.
  intros IR NR NG. induction k as [|k IH]; intros i G s H; cbn [generate_calls].
  - apply wp_ret. eapply at_weaken; [exact H|easy].
  - apply wp_bind, (r_alloc D false P s0 (DInt (wrap32 (Z.of_nat i))) pre _ _ _ H); [easy|easy|]. intros ix s9 H9 _ MI. clear H s. rename s9 into s, H9 into H.
    apply wp_bind, (r_push D false P s0 ix pre _ _ _ H); [has|]. clear H s. intros s H.
    apply wp_bind, (r_alloc D false P s0 (DVec []) (ix :: pre) _ _ _ H); [easy|easy|]. intros q s9 H9 _ MQ. clear H s. rename s9 into s, H9 into H.
    apply wp_bind, (r_push D false P s0 q (ix :: pre) _ _ _ H); [has|]. clear H s. intros s H.
    apply wp_bind, (r_alloc D false P s0 (DSym (asc "quote")) (q :: ix :: pre) _ _ _ H); [easy|easy|]. intros sy s9 H9 _ MS. clear H s. rename s9 into s, H9 into H.
    apply wp_bind. eapply (r_vec_push D false P s0 q sy (q :: ix :: pre)); [exact H|has|exact MQ|inc H|]. intros s9 H9 _ _. clear H s. rename s9 into s, H9 into H.
    apply wp_bind. eapply (r_vec_push D false P s0 q res (q :: ix :: pre)); [exact H|has|exact MQ|eapply at_good; [exact H|has|auto]|]. intros s9 H9 _ _. clear H s. rename s9 into s, H9 into H.
    apply wp_bind, (r_alloc D false P s0 (DVec [gen; q; ix]) (q :: ix :: pre) _ _ _ H).
    { assert (IG : In gen l) by (eapply nth_error_In; exact NG).
      intros x [<-|[<-|[<-|[]]]]; (split; [|auto with datatypes]); [eapply arg_good; eauto| |apply MQ|apply MI].
      right. right. right. exact (arg_reach D P a s0 c0 l IN L0 E0 _ _ _ s gen H IG). }
    { easy. }
    intros form s9 H9 _ MF. clear H s. rename s9 into s, H9 into H. apply wp_bind, (r_push D false P s0 form (q :: ix :: pre) _ _ _ H); [has|]. clear H s. intros s H.
    apply wp_bind. eapply r_ev; [exact H|eapply at_good; [exact H|has|right; apply MF]|]. clear H s. intros o s H. apply wp_bind, wp_need. intros e ->.
    apply wp_bind. eapply collect_ok; [exact H|has|exact NR|inc H|]. clear H s. intros s H.
    apply wp_bind. apply (r_pops false P s0 [form; q; ix] pre _ _ _ H). clear H s. intros s H. eapply IH; exact H.
Qed.
Lemma generate_of_ok : wp (s_generate_of ev a env) fin s0.
Proof.
  unfold s_generate_of. eapply ev_arg; [exact H0|]. intros t s H. assert (NT : ~ In t P) by (apply (a_good _ _ _ _ _ _ _ H); reflexivity).
  apply wp_bind, (r_push D false P s0 t [] _ _ _ H); [has|]. clear H s. intros s H.
  apply wp_bind. eapply get_good; [exact H|eqg H|]. intros c L. destruct (generated_kind (cdata c)) as [d|] eqn:EK; [|eapply fin_pop_error; exact H].
  assert (KD : (forall x, ~ dref d x) /\ tame d) by (unfold generated_kind in EK; destruct (cdata c); try discriminate; destruct (text_eqb _ _); [injection EK as <-; easy|]; destruct (text_eqb _ _); [injection EK as <-; easy|discriminate]).
  clear L EK c. apply wp_bind, (r_alloc D false P s0 d [t] _ _ _ H); [intros x R; now apply KD in R|intros _; apply KD|]. intros res s9 H9 _ MR. clear H s. rename s9 into s, H9 into H.
  apply wp_bind, (r_push D false P s0 res [t] _ _ _ H); [has|]. clear H s. intros s H.
  apply wp_bind. eapply r_argn; [exact H|]. intros w _ _ H1. apply wp_bind. eapply sym_is_ok; [exact H1|inc H1|]. clear H1. intros ok. destruct ok; cbn [negb]; [|eapply fin_error'; exact H].
  apply wp_bind. eapply r_argn; [exact H|]. intros x _ _ H1. apply wp_bind. eapply r_ev; [exact H1|inc H1|]. clear H H1 s. intros o s H.
  destruct o as [n|]; [|apply wp_undef]. assert (NN : ~ In n P) by (apply (a_good _ _ _ _ _ _ _ H); reflexivity).
  apply wp_bind. eapply get_good; [exact H|eqg H|]. intros c L. apply wp_bind, wp_lift.
  { intros _. unfold element_count. destruct (cdata c) as [| | |f| | | | | | | | | | | | | |]; try discriminate. destruct f as [|[]| |[]]; cbn; try discriminate; destruct (_ <? _)%Z; discriminate. }
  intros [[k|]|] _; [| |eapply fin_error'; exact H].
  2:{ apply wp_bind, (r_push D false P s0 n [res; t] _ _ _ H); [has|]. clear H L s. intros s H. eapply fin_error; exact H. }
  apply wp_bind, (r_push D false P s0 n [res; t] _ _ _ H); [has|]. clear H L s c x. intros s H.
  apply wp_bind. eapply r_argn; [exact H|]. intros gen _ NG H1. apply wp_bind. eapply r_ev; [exact H1|inc H1|]. clear H H1 s. intros o s H. apply wp_bind, wp_need. intros g ->.
  assert (NGg : ~ In g P) by (apply (a_good _ _ _ _ _ _ _ H); reflexivity).
  apply wp_bind, (r_push D false P s0 g [n; res; t] _ _ _ H); [has|]. clear H s. intros s H.
  apply wp_bind. eapply get_good; [exact H|eqg H|]. intros c L. clear L. apply wp_bind.
  apply (wp_mono D _ (fun _ s' => A [g; n; res; t] (fun _ => False) s')).
  - destruct (callable (cdata c)); [eapply generate_calls_ok; [cbn; auto|apply MR|exact NG|exact H]|eapply generate_same_ok; [cbn; auto|apply MR|cbn; auto|exact NGg|exact H]].
  - clear H s. intros u s H. eapply fin_ret; [exact []|exact H|]. right. split; [cbn; auto|apply MR].
Qed.
Lemma mapped_vectors_ok vs pre : In vs pre -> ~ In vs P -> forall k i m G s, A pre G s ->
  wp (mapped_vectors k ev a env vs i m) (fun o s' => A pre (fun r => o = inl r) s') s.
Proof.
  intros IV NV. induction k as [|k IH]; intros i m G s H; cbn [mapped_vectors].
  - apply wp_ret. eapply at_weaken; [exact H|discriminate].
  - apply wp_bind. eapply r_argn; [exact H|]. intros x _ _ H1. apply wp_bind. eapply get_good; [exact H1|inc H1|]. intros c _.
    assert (W : wp (r <- new_error ;; ret (inl r)) (fun (o : ref + nat) s' => A pre (fun r => o = inl r) s') s).
    { apply wp_bind. apply (r_new_error D false P s0 _ _ _ _ H). intros r s2 H2. apply wp_ret. eapply at_weaken; [exact H2|]. intros y [= <-]. inc H2. }
    destruct (cdata c); try exact W. clear W. apply wp_bind. eapply r_ev; [exact H1|inc H1|]. clear H H1 s. intros o s H. destruct o as [v|]; [|apply wp_undef].
    apply wp_bind. eapply (r_vec_push D false P s0 vs v pre); [exact H|has|split; [exact NV|discriminate]|inc H|]. intros s9 H9 _ _. clear H s. rename s9 into s, H9 into H.
    apply wp_bind, wp_vec_of; [eapply at_live; [exact H|now left]|]. intros c1 l1 _ _. eapply IH; exact H.
Qed.
Lemma push_elements_ok form vs i pre G s : A pre G s -> In form pre -> ~ In form P -> In vs pre -> wp (push_elements form vs i) (fun _ s' => A pre (fun _ => False) s') s.
Proof.
  intros H IF NF IV. unfold push_elements. apply wp_bind. eapply (r_vec_of D false P s0 vs pre); [exact H|has|]. intros c l1 _ _ H1. clear H.
  assert (H : A pre (fun x => In x l1) s) by (eapply at_weaken; [exact H1|]; intros x J; inc H1). clear H1.
  apply (wp_mono D _ (fun _ s' => A pre (fun x => In x l1) s')); [|intros u s1 H1; eapply at_weaken; [exact H1|easy]].
  eapply (wp_iterM D _ (fun s => A pre (fun x => In x l1) s)); [|exact H]. intros v s1 J H1.
  apply wp_bind. eapply (r_arg D false P s0 v i pre); [exact H1|now left|]. intros c2 l2 x _ _ _ H2.
  eapply (r_vec_push D false P s0 form x pre); [exact H2|has|split; [exact NF|discriminate]|inc H2|]. intros s3 H3 _ _. eapply at_weaken; [exact H3|]. intros y K. inc H3.
Qed.
Lemma generate_mapped_ok f vs res pre : In f pre -> ~ In f P -> In vs pre -> In res pre -> ~ In res P -> forall k i G s, A pre G s ->
  wp (generate_mapped k ev env f vs res i) (fun _ s' => A pre (fun _ => False) s') s.
Proof.
  intros IF NF IV IR NR. induction k as [|k IH]; intros i G s H; cbn [generate_mapped].
  - apply wp_ret. eapply at_weaken; [exact H|easy].
  - apply wp_bind, (r_alloc D false P s0 (DVec []) pre _ _ _ H); [easy|easy|]. intros form s9 H9 _ MF. clear H s. rename s9 into s, H9 into H.
    apply wp_bind, (r_push D false P s0 form pre _ _ _ H); [has|]. clear H s. intros s H.
    apply wp_bind. eapply (r_vec_push D false P s0 form f (form :: pre)); [exact H|has|exact MF|eapply at_good; [exact H|has|auto]|]. intros s9 H9 _ _. clear H s. rename s9 into s, H9 into H.
    apply wp_bind. eapply wp_mono; [eapply push_elements_ok; [exact H|now left|apply MF|now right]|]. clear H s. intros u s H. cbv beta in H.
    apply wp_bind. eapply r_ev; [exact H|eapply at_good; [exact H|has|right; apply MF]|]. clear H s. intros o s H. apply wp_bind, wp_need. intros e ->.
    apply wp_bind. eapply (r_vec_push D false P s0 res e (form :: pre)); [exact H|has|split; [exact NR|discriminate]|inc H|]. intros s9 H9 _ _. clear H s. rename s9 into s, H9 into H.
    apply wp_bind. apply (r_pop D false P s0 form pre _ _ _ H). clear H s. intros s H. eapply IH; exact H.
Qed.
Lemma generate_map_ok n : wp (s_generate_map n ev a env) fin s0.
Proof.
  unfold s_generate_map. eapply ev_arg; [exact H0|]. intros t s H. assert (NT : ~ In t P) by (apply (a_good _ _ _ _ _ _ _ H); reflexivity).
  apply wp_bind, (r_push D false P s0 t [] _ _ _ H); [has|]. clear H s. intros s H.
  apply wp_bind. eapply get_good; [exact H|eqg H|]. intros c L. destruct (generated_kind (cdata c)) as [d|] eqn:EK; [|eapply fin_pop_error; exact H].
  assert (KD : (forall x, ~ dref d x) /\ tame d) by (unfold generated_kind in EK; destruct (cdata c); try discriminate; destruct (text_eqb _ _); [injection EK as <-; easy|]; destruct (text_eqb _ _); [injection EK as <-; easy|discriminate]).
  clear L EK c. apply wp_bind, (r_alloc D false P s0 d [t] _ _ _ H); [intros x R; now apply KD in R|intros _; apply KD|]. intros res s9 H9 _ MR. clear H s. rename s9 into s, H9 into H.
  apply wp_bind, (r_push D false P s0 res [t] _ _ _ H); [has|]. clear H s. intros s H.
  apply wp_bind. eapply r_argn; [exact H|]. intros w _ _ H1. apply wp_bind. eapply sym_is_ok; [exact H1|inc H1|]. clear H1. intros ok. destruct ok; cbn [negb]; [|eapply fin_error'; exact H].
  eapply ev_arg; [exact H|]. clear H s. intros f s H. assert (NF : ~ In f P) by (apply (a_good _ _ _ _ _ _ _ H); reflexivity).
  apply wp_bind. eapply get_good; [exact H|eqg H|]. intros c _. destruct (callable (cdata c)); cbn [negb]; [|eapply fin_error'; exact H].
  apply wp_bind, (r_push D false P s0 f [res; t] _ _ _ H); [has|]. clear H s. intros s H.
  apply wp_bind. eapply r_argn; [exact H|]. intros w2 _ _ H1. apply wp_bind. eapply sym_is_ok; [exact H1|inc H1|]. clear H1. intros ok. destruct ok; cbn [negb]; [|eapply fin_error'; exact H].
  apply wp_bind, (r_alloc D false P s0 (DVec []) [f; res; t] _ _ _ H); [easy|easy|]. intros vs s9 H9 _ MV. clear H s. rename s9 into s, H9 into H.
  apply wp_bind, (r_push D false P s0 vs [f; res; t] _ _ _ H); [has|]. clear H s. intros s H.
  apply wp_bind. eapply wp_mono; [eapply (mapped_vectors_ok vs [vs; f; res; t]); [cbn; auto|apply MV|exact H]|]. clear H s. intros o s H. cbv beta in H. destruct o as [r|k].
  - eapply fin_ret; [exact []|exact H|now left].
  - apply wp_bind. eapply wp_mono; [eapply (generate_mapped_ok f vs res [vs; f; res; t]); [cbn; auto|exact NF|cbn; auto|cbn; auto|apply MR|exact H]|]. clear H s. intros u s H. cbv beta in H.
    eapply fin_ret; [exact []|exact H|]. right. split; [cbn; auto|apply MR].
Qed.
Lemma generate_ok : wp (s_generate ev a env) fin s0.
Proof.
  unfold s_generate. apply wp_bind, (r_nargs_a [] _ _ _ H0). destruct (Nat.ltb _ _); [eapply out_error; exact H0|].
  destruct (Nat.eqb _ _); [apply generate_of_ok|apply generate_map_ok].
Qed.

(** ** template *)
Lemma insert_ok res x pre G s : A pre G s -> (forall r, res = Some r -> In r pre /\ ~ In r P) -> good P s x ->
  wp (insert res x) (fun o s' => A pre (fun r => o = Some r) s' /\ (forall r, res = Some r -> o = Some r)) s.
Proof.
  intros H IR GX. unfold insert. destruct res as [r|].
  - destruct (IR r eq_refl) as (I & N). apply wp_bind. eapply (r_vec_push D false P s0 r x pre); [exact H|has|split; [exact N|discriminate]|exact GX|]. intros s1 H1 _ _.
    apply wp_ret. split; [|auto]. eapply at_weaken; [exact H1|]. intros y [= <-]. eapply at_good; [exact H1|has|auto].
  - apply wp_ret. split; [|discriminate]. eapply at_weaken; [exact H|]. intros y [= <-]. exact GX.
Qed.
Lemma splice_ok res x pre G s : A pre G s -> (forall r, res = Some r -> In r pre /\ ~ In r P) -> good P s x ->
  wp (splice res x) (fun o s' => A pre (fun r => o = Some r) s' /\ (forall r, res = Some r -> o = Some r)) s.
Proof.
  intros H IR GX. unfold splice. apply wp_bind, wp_get; [apply GX|]. intros c L.
  assert (W := insert_ok res x pre G s H IR GX). destruct (cdata c) eqn:E; try exact W. destruct res as [r|]; [|exact W]. clear W. destruct (IR r eq_refl) as (I & N).
  apply wp_bind. apply (wp_mono D _ (fun _ s' => A pre (fun y => In y l0) s')).
  - eapply (wp_iterM D _ (fun s => A pre (fun y => In y l0) s)).
    + intros y s1 J H1. eapply (r_vec_push D false P s0 r y pre); [exact H1|has|split; [exact N|discriminate]|inc H1|auto].
    + eapply at_weaken; [exact H|]. intros y J. eapply at_dref; [exact H|exact L|]. now rewrite E.
  - intros u s1 H1. apply wp_ret. split; [|auto]. eapply at_weaken; [exact H1|]. intros y [= <-]. eapply at_good; [exact H1|has|auto].
Qed.
Context (ED : D = true).
Lemma template_loop_ok pre item : 
  (forall i res G s, A pre G s -> (forall r, res = Some r -> In r pre /\ ~ In r P) ->
     wp (item i res) (fun q s' => A pre (fun r => fst q = Some r) s' /\ (forall r, res = Some r -> fst q = Some r)) s) ->
  forall k n i res G s, A pre G s -> (forall r, res = Some r -> In r pre /\ ~ In r P) -> (res = None -> n <= 1)%nat -> 
     (forall i res s q s', item i res s = Ret (q, s') -> i < snd q)%nat ->
  wp (template_loop k item n i res) (fun o s' => A pre (fun r => o = Some r) s' /\ (forall r, res = Some r -> o = Some r)) s.
Proof.
  intros IT. induction k as [|k IH]; intros n i res G s H IR N1 AD; cbn [template_loop]; [apply wp_nofuel|].
  apply wp_bind. pose proof (IT i res G s H IR) as W. unfold SafeBase.wp in W |- *. destruct (item i res s) as [[[o j] s1]| | | | |] eqn:E; try exact W. destruct W as (H1 & K1). cbn [fst snd] in *.
  apply AD in E. cbn [snd] in E. destruct (Nat.leb_spec n j) as [LE|LT]; [now split|].
  destruct res as [r|]; [|specialize (N1 eq_refl); lia]. specialize (K1 r eq_refl). subst o.
  eapply wp_mono; [eapply IH; [exact H1|exact IR|discriminate|exact AD]|]. intros o s2 (H2 & K2). auto.
Qed.
(** The next element is a later one. *)
Definition later {X} (T : X -> Prop) (m : M X) : Prop := forall s q s', m s = Ret (q, s') -> T q.
Lemma later_bind {X Y} (T : Y -> Prop) (m : M X) (k : X -> M Y) : (forall x, later T (k x)) -> later T (bind m k).
Proof. intros H s q s'. unfold bind. destruct (m s) as [[x s1]| | | | |]; try discriminate. apply H. Qed.
Lemma later_ret {X} (T : X -> Prop) (x : X) : T x -> later T (ret x).
Proof. intros H s q s' [= <- _]. exact H. Qed.
Lemma template_item_later f v i res : later (fun q => i < snd q)%nat (template_item f ev env v i res).
Proof.
  destruct f as [|f]; [discriminate|]. cbn [template_item]. do 3 (apply later_bind; intros ?).
  assert (W : forall m : M (option ref), later (fun q => i < snd q)%nat (r <- m ;; ret (r, S i))).
  { intros m. apply later_bind. intros r. apply later_ret. cbn [snd]. lia. }
  match goal with |- later _ (match ?d with _ => _ end) => destruct d end; try apply W.
  - destruct (text_eqb _ _ || text_eqb _ _)%bool; [|destruct (text_eqb _ _); [|apply W]].
    + destruct (Nat.eqb _ _); repeat (apply later_bind; intros ?); apply later_ret; cbn [snd]; lia.
    + repeat (apply later_bind; intros ?); apply later_ret; cbn [snd]; lia.
  - repeat (apply later_bind; intros ?); apply later_ret; cbn [snd]; lia.
Qed.
Lemma template_item_ok : forall f v i res pre G s, A pre G s -> (forall r, res = Some r -> In r pre /\ ~ In r P) ->
  wp (template_item f ev env v i res) (fun q s' => A pre (fun r => fst q = Some r) s' /\ (forall r, res = Some r -> fst q = Some r)) s.
Proof.
  induction f as [|f IH]; intros v i res pre G s H IR; cbn [template_item]; [apply wp_nofuel|].
  apply wp_bind, wp_nargs; [congruence|]. intros c1 l1 L1 D1. apply wp_bind, wp_arg; [congruence|]. intros c2 l2 x L2 D2 N2.
  assert (GX : good P s x) by (eapply at_dref; [exact H|exact L2|rewrite D2; eapply nth_error_In; exact N2]).
  apply wp_bind, wp_get; [congruence|]. intros c3 L3.
  set (Post := fun (q : option ref * nat) s' => A pre (fun r => fst q = Some r) s' /\ (forall r, res = Some r -> fst q = Some r)).
  assert (W0 : wp (r <- insert res x ;; ret (r, S i)) Post s).
  { apply wp_bind. eapply wp_mono; [eapply insert_ok; [exact H|exact IR|exact GX]|]. intros o s2 (H2 & K2). apply wp_ret. now split. }
  assert (IR' : forall pre' r, res = Some r -> In r (pre' ++ pre) /\ ~ In r P) by (intros pre' r Er; destruct (IR r Er); split; [apply in_or_app; now right|auto]).
  assert (W1 : forall b j o s1, A (b :: pre) (fun r => o = Some r) s1 -> (forall r, res = Some r -> o = Some r) -> wp (pop b ;;; ret (o, j)) Post s1).
  { intros b j o s1 H1 K1. apply wp_bind, (r_pop D false P s0 b pre _ _ _ H1). intros s3 H3. apply wp_ret. split; [|exact K1]. eapply at_weaken; [exact H3|]. cbn [fst]. intros r Er. inc H3. }
  destruct (cdata c3) eqn:E3; try exact W0.
  - destruct (text_eqb _ _ || text_eqb _ _)%bool; [|destruct (text_eqb _ _); [|exact W0]]; clear W0.
    + destruct (Nat.eqb _ _).
      * apply wp_bind. apply (r_new_error D false P s0 _ _ _ _ H). intros e st1 H1.
        apply wp_bind, (r_push D false P s0 e pre _ _ _ H1); [has|]. intros st2 H2. apply wp_bind.
        eapply wp_mono; [eapply insert_ok; [exact H2|exact (IR' [e])|inc H2]|]. intros o st3 (H3 & K3). now apply W1.
      * apply wp_bind, wp_arg; [congruence|]. intros c4 l4 y L4 D4 N4. apply wp_bind. eapply r_ev; [exact H|eapply at_dref; [exact H|exact L4|rewrite D4; eapply nth_error_In; exact N4]|].
        intros o st1 H1. apply wp_bind, wp_need. intros w ->. apply wp_bind, (r_push D false P s0 w pre _ _ _ H1); [has|]. intros st2 H2. apply wp_bind.
        apply (wp_mono D _ (fun o s' => A (w :: pre) (fun r => o = Some r) s' /\ (forall r, res = Some r -> o = Some r))).
        -- destruct (text_eqb _ _); [eapply insert_ok|eapply splice_ok]; first [exact H2|exact (IR' [w])|inc H2].
        -- intros o st3 (H3 & K3). now apply W1.
    + apply wp_bind, wp_lift; [congruence|]. intros t' _. apply wp_bind, (r_alloc D false P s0 (DSym (tl t')) pre _ _ _ H); [easy|easy|]. intros k st1 H1 _ MK.
      apply wp_bind, (r_push D false P s0 k pre _ _ _ H1); [has|]. intros st2 H2. apply wp_bind. eapply r_ev; [exact H2|inc H2|].
      intros o st3 H3. apply wp_bind, wp_need. intros w ->. apply wp_bind, (r_push D false P s0 w (k :: pre) _ _ _ H3); [has|]. intros st4 H4. apply wp_bind.
      eapply wp_mono; [eapply insert_ok; [exact H4|exact (IR' [w; k])|inc H4]|]. intros o st5 (H5 & K5).
      apply wp_bind, (r_pops false P s0 [w; k] pre _ _ _ H5). intros st6 H6. apply wp_ret. split; [|exact K5]. eapply at_weaken; [exact H6|]. cbn [fst]. intros r Er. inc H6.
  - clear W0. apply wp_bind, (r_alloc D false P s0 (DVec []) pre _ _ _ H); [easy|easy|]. intros b st1 H1 _ MB.
    apply wp_bind, (r_push D false P s0 b pre _ _ _ H1); [has|]. intros st2 H2. apply wp_bind. eapply wp_mono.
    + eapply (template_loop_ok (b :: pre)); [intros i' res' G' s' H' IR''; eapply IH; eauto|exact H2| |discriminate|].
      * intros r [= <-]. split; [now left|apply MB].
      * intros i' res' s' q s''. apply template_item_later.
    + intros o st3 (H3 & _). apply wp_bind. eapply wp_mono; [eapply insert_ok; [exact H3|exact (IR' [b])|eapply at_good; [exact H3|has|right; apply MB]]|]. intros o' st4 (H4 & K4). now apply W1.
Qed.
Lemma template_ok fuel : wp (s_template fuel ev a env) fin s0.
Proof.
  unfold s_template. apply wp_bind, (r_nargs_a [] _ _ _ H0). apply wp_bind. eapply push_a; [exact H0|]. intros s H. destruct (Nat.ltb_spec 1 (List.length l)) as [LT|LE].
  - apply wp_bind, (r_alloc D false P s0 (DVec []) [a] _ _ _ H); [easy|easy|]. intros r s1 H1 _ MR.
    apply wp_bind, (r_push D false P s0 r [a] _ _ _ H1); [has|]. intros s2 H2. apply wp_bind. eapply wp_mono.
    + eapply (template_loop_ok [r; a]); [intros i' res' G' s' H' IR''; eapply template_item_ok; eauto|exact H2| |discriminate|].
      * intros x [= <-]. split; [now left|apply MR].
      * intros i' res' s' q s''. apply template_item_later.
    + intros o s3 (H3 & _). eapply fin_ret; [exact []|exact H3|]. right. split; [cbn; auto|apply MR].
  - apply wp_bind. eapply wp_mono.
    + eapply (template_loop_ok [a]); [intros i' res' G' s' H' IR''; eapply template_item_ok; eauto|exact H|discriminate|auto|].
      intros i' res' s' q s''. apply template_item_later.
    + intros o s3 (H3 & _). apply wp_bind, (r_pop D false P s0 a [] _ _ _ H3). intros s4 H4. apply wp_need. intros r ->. eapply at_eq; [exact H4|now right].
Qed.
End Spec.

(** ** Every special form *)
Lemma special_ok ev : ev_ok ev -> forall fuel p P a env s c l, Inv P s -> In a P -> lookup (all s) a = Some c -> cdata c = DVec l -> good P s env -> In env (stack s) -> (D = false -> tame (DSpecial p)) ->
  wp (special_call fuel ev p a env) (fun r s' => At false P s [] (eq r) s') s.
Proof.
  intros EV fuel p P a env s c l A0 IN L E GE KE T.
  assert (TT : ~ tame (DSpecial p) -> D = true) by (intros N; destruct D; [reflexivity|]; elim N; now apply T).
  assert (NDc : forall pr, (forall h x y, closed h -> lookup h x <> None -> lookup h y <> None -> nd (obind (vcompare fuel h x y) (fun c => Ret (pr c))))) by (intros pr h x y C X Y; apply nd_pred; now apply nd_compare).
  destruct p; cbn [special_call].
  - eapply define_ok; eauto.
  - eapply eval_ok'; eauto.
  - eapply quote_ok; eauto.
  - eapply select_ok; eauto.
  - eapply if_ok; eauto.
  - eapply while_ok; eauto.
  - eapply for_ok; eauto.
  - eapply equal_with_ok; eauto; try apply by_value_ok. apply NDc.
  - eapply equal_with_ok; eauto; try apply by_uid_ok.
  - eapply not_equal_ok; eauto.
  - eapply order_ok; eauto; try apply NDc.
  - eapply order_ok; eauto; try apply NDc.
  - eapply order_ok; eauto; try apply NDc.
  - eapply order_ok; eauto; try apply NDc.
  - eapply fn_ok; eauto; easy.
  - eapply fn_ok; eauto; easy.
  - eapply logic_ok; eauto.
  - eapply logic_ok; eauto.
  - eapply do_ok; eauto.
  - eapply generate_ok; eauto.
  - eapply template_ok; eauto.
  - apply wp_unmodelled.
Qed.
End Safe.
