(** generate does what SpecGenerate.v says. *)
From Coq Require Import NArith ZArith Bool Lia Arith List String SpecFloat.
From Coq Require Import ZifyBool ZifyNat ZifyN.
From Verif Require Import Base OString HMap Heap SpecHeap GcProofs VmProofs ValueOps Env Copy Builtins Specials Eval SafeBase SafeRead SafeLib SafeBuiltins SafeSpecials SafeEval EnvProofs SpecTrace SpecSpecial SpecForm SpecSearch SpecGenerate TraceProofs SpecialProofs SpecialEval SpecialForms DefineProofs PrivateProofs.
Import ListNotations.
Local Open Scope N_scope.

Lemma kind_starts d d0 : generated_kind d = Some d0 -> starts d d0.
Proof.
  destruct d as [ |db|dz|df|dt|dt|dt|dmsg dline|l|m|l max|l|db denc|df|df|dp|dp|dv]; cbn [generated_kind]; try discriminate. destruct (text_eqb dt (asc "vector")) eqn:E1; [apply text_eqb_true in E1 as ->; intros [= <-]; constructor|].
  destruct (text_eqb dt (asc "string")) eqn:E2; [apply text_eqb_true in E2 as ->; intros [= <-]; constructor|discriminate].
Qed.
Lemma kind_none d d0 : generated_kind d = None -> ~ starts d d0.
Proof. intros E S. destruct S; discriminate. Qed.
Lemma starts_plain d d0 : starts d d0 -> forall x, ~ dref d0 x.
Proof. intros [] x; easy. Qed.
Lemma callable_operator d : callable d = true <-> operator d.
Proof. destruct d; cbn; split; easy. Qed.
Lemma sf_int_truncated f z : sf_int f = Some z -> truncated f z.
Proof.
  unfold sf_int, truncated. destruct f as [b|b| |b m e]; try discriminate; [intros [= <-]; reflexivity|]. intros [= <-]. destruct e as [|p|p]; cbn [Z.leb Z.compare].
  - exists (Zpos m * 2 ^ 0)%Z. split; [reflexivity|]. split; [lia|reflexivity].
  - exists (Zpos m * 2 ^ Zpos p)%Z. split; [reflexivity|]. split; [lia|reflexivity].
  - exists (Zpos m / 2 ^ Zpos p)%Z. split; [reflexivity|]. assert (0 < 2 ^ Zpos p)%Z by (apply Z.pow_pos_nonneg; lia). split; [apply Z.div_pos; lia|].
    change (- Zneg p)%Z with (Zpos p). pose proof (Z.div_mod (Zpos m) (2 ^ Zpos p) ltac:(lia)). pose proof (Z.mod_pos_bound (Zpos m) (2 ^ Zpos p) ltac:(lia)). nia.
Qed.
Lemma sf_int_sign f z : sf_int f = Some z -> ~ negative f -> (0 <= z)%Z.
Proof.
  unfold sf_int. destruct f as [b|b| |b m e]; try discriminate; [intros [= <-]; lia|]. destruct b; [intros _ N; elim N; constructor|]. intros [= <-] _. destruct e as [|p|p]; cbn [Z.leb Z.compare].
  - cbn; lia.
  - change (0 <= Zpos m * 2 ^ Zpos p)%Z. apply Z.mul_nonneg_nonneg; [lia|apply Z.pow_nonneg; lia].
  - change (0 <= Zpos m / 2 ^ Zpos p)%Z. apply Z.div_pos; [lia|]. apply Z.pow_pos_nonneg; lia.
Qed.
Lemma count_some d k : element_count d = Ret (Some (Some k)) -> counts d k.
Proof.
  destruct d as [ | |z|f| | | | | | | | | | | | | | ]; cbn [element_count]; try discriminate.
  - destruct (Z.ltb_spec z 0); [discriminate|]. intros [= <-]. now constructor.
  - assert (W : forall f', ~ negative f' -> match sf_int f' with Some z => if (z <? 2 ^ 64)%Z then Ret (Some (Some (Z.to_nat z))) else Undef | None => Undef end = Ret (Some (Some k)) -> counts (DReal f') k).
    { intros f' N. destruct (sf_int f') as [z|] eqn:E; [|discriminate]. destruct (Z.ltb_spec z (2 ^ 64)); [|discriminate]. intros [= <-].
      constructor; [now apply sf_int_truncated|eapply sf_int_sign; eauto|exact N]. }
    destruct f as [b|[]| |[] m e]; try discriminate.
    + intros [= <-]. apply (counts_real (S754_zero b) 0); [reflexivity|lia|]. intros N. inversion N.
    + apply W. intros N. inversion N.
Qed.
Lemma count_none d o : element_count d = Ret o -> (forall k, o <> Some (Some k)) -> no_count d.
Proof.
  destruct d as [ | |z|f| | | | | | | | | | | | | | ]; cbn [element_count]; try (intros _ _; apply no_count_other; intros ?; discriminate).
  - destruct (Z.ltb_spec z 0); intros [= <-] N; [now apply no_count_int|]. now elim (N (Z.to_nat z)).
  - intros E N. apply no_count_real. destruct f as [b|[]| |[] m e]; try constructor; exfalso.
    + injection E as <-. now elim (N O).
    + discriminate E.
    + discriminate E.
    + cbn [sf_int] in E. match type of E with (if ?c then _ else _) = _ => destruct c end; [injection E as <-|discriminate E]. eapply N. reflexivity.
Qed.
Lemma nd_count d : nd (element_count d).
Proof. unfold element_count. destruct d as [| | |f| | | | | | | | | | | | | |]; try discriminate. destruct f as [|[]| |[]]; try discriminate; unfold sf_int; try discriminate; match goal with |- nd (if ?c then _ else _) => destruct c; discriminate end. Qed.

Section Spec.
Context (ev : evaluator) (EV : ev_ok true ev) (P : list ref) (a env : ref) (s0 : vm) (c0 : cell) (l : list ref).
Context (IN : In a P) (L0 : lookup (all s0) a = Some c0) (E0 : cdata c0 = DVec l) (GE : good P s0 env) (A0 : Inv P s0).
Notation Tr := (Tr ev P s0).
Notation ends := (ends ev P s0).
Implicit Types (pre : list ref) (G : ref -> Prop) (s : vm) (evs : list event).

Lemma data_none s r : Inv P s -> nextId s <= r -> data_at s r = None.
Proof.
  intros A N. unfold data_at. destruct (lookup (all s) r) as [c|] eqn:L; [|reflexivity]. exfalso.
  pose proof (i_ids _ _ _ A) as (T & I). apply (lookup_in _ _ _ (proj1 T)) in L. apply I in L. lia.
Qed.
Lemma t_reach pre G evs s x : Tr pre G evs s -> In x l -> reach s x.
Proof. intros H J. eapply (arg_reach true P a s0 c0 l IN L0 E0); [exact (tr_at _ _ _ _ _ _ _ H)|exact J]. Qed.
Lemma reach_pre pre G evs s x : Tr pre G evs s -> In x pre -> reach s x.
Proof. intros H J. apply re_root. rewrite (a_stack _ _ _ _ _ _ _ (tr_at _ _ _ _ _ _ _ H)). apply in_or_app. auto. Qed.
Lemma nth_l i x : nth_error l i = Some x -> In x l.
Proof. apply nth_error_In. Qed.

(** Appending to the result. *)
Lemma collect_spec res x pre G evs (Q : unit -> vm -> Prop) s : Tr pre G evs s -> In res pre -> ~ In res P -> good P s x ->
  (forall p d1 s', Tr pre (fun _ => False) (evs ++ [p]) s' -> before p = s -> appends res x p d1 -> data_at s' res = Some d1 -> Q tt s') -> wp (collect res x) Q s.
Proof.
  intros H IR NR GX K. unfold collect. apply wp_bind, t_get. intros d D. destruct d; try apply wp_abort; [apply wp_bind, t_get; intros e E; destruct e as [| | | | |[|c t']| | | | | | | | | | | |]; try apply wp_abort|apply wp_unmodelled|].
  - eapply tr_put; [apply (tr_weaken ev P s0 pre G (fun _ => False)); [exact H|easy]|exact IR|exact NR|easy|]. intros s' H' D' _. eapply K; [exact H'|reflexivity|eapply appends_character; eauto|exact D'].
  - unfold vec_push. apply wp_bind, t_get. intros d' D2. rewrite D in D2. injection D2 as <-.
    eapply tr_put; [apply (tr_weaken ev P s0 pre G (fun _ => False)); [exact H|easy]|exact IR|exact NR| |].
    + intros y [J|[<-|[]]]%in_app_or; [|exact GX]. unfold data_at in D. destruct (lookup (all s) res) as [c|] eqn:L; [|discriminate]. cbn in D. injection D as D.
      eapply at_dref; [exact (tr_at _ _ _ _ _ _ _ H)|exact L|now rewrite D].
    + intros s' H' D' _. eapply K; [exact H'|reflexivity|now apply appends_element|exact D'].
Qed.
Lemma same_spec res x pre (Q : unit -> vm -> Prop) : In res pre -> ~ In res P -> In x pre -> ~ In x P -> forall k d evs G s, Tr pre G evs s -> data_at s res = Some d ->
  (forall evs' d' s', Tr pre (fun _ => False) (evs ++ evs') s' -> same_rounds res x k d evs' d' -> data_at s' res = Some d' -> Q tt s') -> wp (generate_same k res x) Q s.
Proof.
  intros IR NR IX NX. induction k as [|k IH]; intros d evs G s H D K; cbn [generate_same].
  - apply wp_ret. apply (K [] d); [|constructor|exact D]. rewrite app_nil_r. eapply tr_weaken; [exact H|easy].
  - apply wp_bind. eapply collect_spec; [exact H|exact IR|exact NR|eapply tr_pre; eauto|]. intros p d1 s' H' EB AP D'.
    eapply IH; [exact H'|exact D'|]. intros evs' d' s2 H2 R2 D2. rewrite <- app_assoc in H2. apply (K (p :: evs') d' s2 H2); [|exact D2]. econstructor; [rewrite EB; exact D|exact AP|exact R2].
Qed.

(** The form of a call. *)
Lemma call_form_spec {X} gen res i pre G evs (k : ref -> ref -> ref -> M X) (Q : X -> vm -> Prop) s : Tr pre G evs s -> In res pre -> ~ In res P -> In gen l ->
  (forall ix q form s', Tr (form :: q :: ix :: pre) (eq form) evs s' -> calls_with gen res i s' form -> (forall x, reach s x -> lookup (all s') x = lookup (all s) x) -> wp (k ix q form) Q s') ->
  wp (ix <- alloc (DInt (wrap32 (Z.of_nat i))) ;; push ix ;;;
      q <- alloc (DVec []) ;; push q ;;;
      sy <- alloc (DSym (asc "quote")) ;; vec_push q sy ;;; vec_push q res ;;;
      form <- alloc (DVec [gen; q; ix]) ;; push form ;;; k ix q form) Q s.
Proof.
  intros H0 IR NR IG K. pose proof (at_start true true P s (tr_inv _ _ _ _ _ _ _ H0)) as H.
  assert (RR : reach s res) by (eapply reach_pre; eauto). assert (RG : reach s gen) by (eapply t_reach; eauto).
  assert (GG : ~ In gen P) by (eapply (arg_good true P a s0 c0 l IN L0 E0); [exact (tr_at _ _ _ _ _ _ _ H0)|exact IG]).
  apply wp_bind, (r_alloc true true P s (DInt (wrap32 (Z.of_nat i))) [] _ _ _ H); [easy|easy|]. clear H. intros ix s1 H AL1 MI.
  apply wp_bind, (r_push_all true true P s ix [] _ _ _ H); [has|]. clear H. intros s2 H E2.
  assert (DI : data_at s2 ix = Some (DInt (wrap32 (Z.of_nat i)))) by (destruct (al_cell _ _ _ _ _ _ AL1) as (ad & L); unfold data_at; now rewrite E2, L). clear AL1 E2.
  apply wp_bind, (r_alloc true true P s (DVec []) [ix] _ _ _ H); [easy|easy|]. intros q s3 H3 AL3 MQ.
  assert (DI3 : data_at s3 ix = Some (DInt (wrap32 (Z.of_nat i)))).
  { rewrite <- DI. unfold data_at. rewrite (q_same _ _ _ _ (al_quiet _ _ _ _ _ _ AL3)); [reflexivity|]. apply re_root. rewrite (a_stack _ _ _ _ _ _ _ H). now left. }
  clear H DI. apply wp_bind, (r_push_all true true P s q [ix] _ _ _ H3); [has|]. clear H3. intros s4 H E4.
  assert (DQ : data_at s4 q = Some (DVec [])) by (destruct (al_cell _ _ _ _ _ _ AL3) as (ad & L); unfold data_at; now rewrite E4, L). assert (DI : data_at s4 ix = Some (DInt (wrap32 (Z.of_nat i)))) by (unfold data_at; rewrite E4; exact DI3). clear AL3 DI3 E4.
  assert (QI : q <> ix) by (intros ->; rewrite DQ in DI; discriminate).
  apply wp_bind, (r_alloc true true P s (DSym (asc "quote")) [q; ix] _ _ _ H); [easy|easy|]. intros sy s5 H5 AL5 MS.
  assert (S5 : forall x, In x [q; ix] -> data_at s5 x = data_at s4 x).
  { intros x J. unfold data_at. rewrite (q_same _ _ _ _ (al_quiet _ _ _ _ _ _ AL5)); [reflexivity|]. apply re_root. rewrite (a_stack _ _ _ _ _ _ _ H). apply in_or_app. auto. }
  assert (DS : data_at s5 sy = Some (DSym (asc "quote"))) by (destruct (al_cell _ _ _ _ _ _ AL5) as (ad & L); unfold data_at; now rewrite L).
  rewrite <- S5 in DQ, DI by (cbn; auto). clear H S5 AL5.
  assert (QS : q <> sy) by (intros ->; rewrite DQ in DS; discriminate).
  apply wp_bind. eapply (r_vec_push true true P s q sy [q; ix]); [exact H5|has|exact MQ|inc H5|]. clear H5. intros s6 H O6 D6.
  unfold data_at in DQ. destruct (lookup (all s5) q) as [cq|] eqn:LQ; [|discriminate]. cbn in DQ. injection DQ as DQ. destruct (D6 cq [] eq_refl DQ) as (cq6 & LQ6 & DQ6). cbn [app] in DQ6. clear D6.
  assert (DI6 : data_at s6 ix = Some (DInt (wrap32 (Z.of_nat i)))) by (unfold data_at; rewrite O6 by congruence; exact DI).
  assert (DS6 : data_at s6 sy = Some (DSym (asc "quote"))) by (unfold data_at; rewrite O6 by congruence; exact DS). clear O6 DI DS LQ DQ.
  apply wp_bind. eapply (r_vec_push true true P s q res [q; ix]); [exact H|has|exact MQ|eapply (at_good true); [exact H| |auto]|].
  { right. right. right. auto. }
  clear H. intros s7 H O7 D7. destruct (D7 cq6 _ LQ6 DQ6) as (cq7 & LQ7 & DQ7). cbn [app] in DQ7. clear D7.
  assert (DI7 : data_at s7 ix = Some (DInt (wrap32 (Z.of_nat i)))) by (unfold data_at; rewrite O7 by congruence; exact DI6).
  assert (DS7 : data_at s7 sy = Some (DSym (asc "quote"))) by (unfold data_at; rewrite O7 by congruence; exact DS6). clear O7 DI6 DS6 LQ6 DQ6.
  assert (R7 : forall x, In x [q; ix] -> reach s7 x) by (intros x J; apply re_root; rewrite (a_stack _ _ _ _ _ _ _ H); apply in_or_app; auto).
  assert (RS7 : reach s7 sy) by (eapply reach_child; [apply R7; now left|exact LQ7|rewrite DQ7; now left]).
  apply wp_bind, (r_alloc true true P s (DVec [gen; q; ix]) [q; ix] _ _ _ H); [|easy|].
  { intros x [<-|[<-|[<-|[]]]]; [split; [exact GG|auto 6]|split; [apply MQ|cbn; auto]|split; [apply MI|cbn; auto]]. }
  intros form s8 H8 AL8 MF. pose proof (q_same _ _ _ _ (al_quiet _ _ _ _ _ _ AL8)) as S8.
  apply wp_bind, (r_push_all true true P s form [q; ix] _ _ _ H8); [has|]. clear H H8. intros s9 H E9.
  apply K.
  - exact (t_quiet ev P s0 pre G evs s [form; q; ix] (eq form) s9 H0 H).
  - exists q, ix, sy. unfold data_at in *. rewrite E9. destruct (al_cell _ _ _ _ _ _ AL8) as (ad & ->). split; [reflexivity|]. rewrite !S8 by (try exact RS7; apply R7; cbn; auto). rewrite LQ7. cbn. rewrite DQ7. auto.
  - intros x R. apply (a_same _ _ _ _ _ _ _ H). auto.
Qed.
Lemma calls_spec res gen pre j (Q : unit -> vm -> Prop) n : In res pre -> ~ In res P -> nth_error l j = Some gen -> forall k i d evs G s, (i + k = n)%nat -> Tr pre G evs s -> data_at s res = Some d ->
  (forall evs' d' s', Tr pre (fun _ => False) (evs ++ evs') s' -> call_rounds env gen res n i d evs' d' -> data_at s' res = Some d' -> Q tt s') -> wp (generate_calls k ev env gen res i) Q s.
Proof.
  intros IR NR NG. induction k as [|k IH]; intros i d evs G s EN H D K; cbn [generate_calls].
  - apply wp_ret. apply (K [] d); [|replace i with n by lia; constructor|exact D]. rewrite app_nil_r. eapply tr_weaken; [exact H|easy].
  - eapply (call_form_spec gen res i pre G evs (fun ix q form => o <- ev form env ;; e <- need o ;; collect res e ;;; pops [form; q; ix] ;;; generate_calls k ev env gen res (S i))); [exact H|exact IR|exact NR|eapply nth_l; exact NG|].
    intros ix q form s1 H1 CW S1. assert (D1 : data_at s1 res = Some d) by (unfold data_at; rewrite S1; [exact D|eapply reach_pre; eauto]). clear H D S1 s.
    apply wp_bind. eapply t_ev; [exact EV|exact H1|eapply tr_good; [exact H1|reflexivity]|eapply tr_env; [exact GE|exact H1]|]. intros o s2 H2. apply wp_bind, wp_need. intros x ->.
    apply wp_bind. eapply collect_spec; [exact H2|cbn; auto|exact NR|eapply tr_good; [exact H2|reflexivity]|]. intros p d1 s3 H3 EB AP D3.
    apply wp_bind. eapply (tr_pops ev P s0 [form; q; ix] pre); [exact H3|]. intros s4 H4 E4.
    eapply IH; [|exact H4|unfold data_at; rewrite E4; exact D3|]; [lia|]. intros evs' d' s5 H5 R5 D5. rewrite <- !app_assoc in H5. cbn [app] in H5.
    apply (K _ d' s5 H5); [|exact D5]. econstructor; [lia|exact D1|exact CW|exact EB|exact AP|exact R5].
Qed.

(** The first argument: the kind of the result, which is then made. *)
Lemma four : List.length l = 4%nat -> exists k w n g, l = [k; w; n; g].
Proof. intros E. clear - E. destruct l as [|k [|w [|n [|g [|? ?]]]]]; try discriminate E. eauto. Qed.
Lemma t_pops_error used G evs (R : list event -> ref -> option data -> Prop) s : Tr used G evs s -> (forall r d, is_err d -> R [] r (Some d)) -> wp (r <- new_error ;; pops used ;;; ret r) (ends evs R) s.
Proof.
  intros H K. apply wp_bind. eapply tr_error; [exact H|]. intros r s1 d H1 D1 ED. apply wp_bind. eapply (tr_pops ev P s0 used []); [rewrite app_nil_r; exact H1|]. intros s2 H2 E2. apply wp_ret.
  eapply ends_now; [eapply tr_eq; [exact H2|right; reflexivity]|apply K; exact ED|]. apply result_refl. unfold data_at. rewrite E2. exact D1.
Qed.
Lemma t_pops_ret used G evs (R : list event -> ref -> option data -> Prop) r d s : Tr used G evs s -> In r used -> ~ In r P -> data_at s r = Some d -> R [] r (Some d) -> wp (pops used ;;; ret r) (ends evs R) s.
Proof.
  intros H J N D K. apply wp_bind. eapply (tr_pops ev P s0 used []); [rewrite app_nil_r; exact H|]. intros s2 H2 E2. apply wp_ret.
  eapply ends_now; [eapply tr_eq; [exact H2|left; auto]|exact K|]. apply result_refl. unfold data_at. rewrite E2. exact D.
Qed.
Lemma p_arg H i pre G evs (Q : ref -> vm -> Prop) s : Pt ev P s0 H pre G evs s -> (forall x, nth_error l i = Some x -> good (H ++ P) s x -> Q x s) -> wp (arg a i) Q s.
Proof.
  intros T K. eapply (t_arg ev P a s0 c0 l IN L0 E0); [exact (p_tr _ _ _ _ _ _ _ _ T)|]. intros x N GX. apply K; [exact N|]. pose proof (tr_start ev P s0 A0) as H0.
  destruct (tr_vec ev P s0 a l c0 _ _ _ _ H0 IN L0 E0) as (_ & GL). destruct (GL x (nth_l _ _ N)) as (X1 & X2 & _). eapply pt_old; eauto.
Qed.
Lemma p_env H pre G evs s : Pt ev P s0 H pre G evs s -> good (H ++ P) s env.
Proof. intros T. destruct GE as (X1 & X2 & _). eapply pt_old; eauto. Qed.
Lemma generate_of_spec : List.length l = 4%nat -> wp (s_generate_of ev a env) (ends [] (generate_of env l)) s0.
Proof.
  intros EL. destruct (four EL) as (k & w & n & g & El). unfold s_generate_of. pose proof (tr_start ev P s0 A0) as H0.
  eapply (t_evarg ev EV P a s0 c0 l IN L0 E0 0); [exact H0|exact GE|]. intros x t s1 Nx H1. rewrite El in Nx. injection Nx as <-. cbn [app] in H1.
  set (e := SpecTrace.Eval k env s0 (Some t) s1) in *. assert (NT : ~ In t P) by (apply (tr_good ev P s0 _ _ _ _ t H1 eq_refl)).
  apply wp_bind. eapply t_push; [exact H1|reflexivity|]. intros s2 H2 E2. apply wp_bind, t_get. intros d D. assert (D1 : data_at s1 t = Some d) by (unfold data_at in *; now rewrite <- E2).
  assert (GI : gives e k env t d) by (now apply gives_eval). destruct (generated_kind d) as [d0|] eqn:GK.
  2: { apply wp_bind. eapply tr_pop; [exact H2|]. intros s3 H3 E3. apply (wp_ends ev P s0 [] [e]). eapply t_error; [exact H3|reflexivity|]. intros r de ED. rewrite El. eapply gen_kind; [exact GI|intros d0; now apply kind_none|exact ED]. }
  apply kind_starts in GK.
  apply (pt_own ev P s0 [] d0 [t] (eq t) [e]); [now apply pt_start|exact (starts_plain _ _ GK)|]. intros res s4 H4 NR DR NX S4 _. cbn [app] in NR.
  assert (AB : data_at (after e) res = None). { cbn. unfold data_at. rewrite <- E2. change (data_at s2 res = None). apply data_none; [exact (tr_inv ev P s0 _ _ _ _ H2)|exact NX]. }
  pose proof (p_tr _ _ _ _ _ _ _ _ H4) as T4.
  apply wp_bind. eapply (t_arg ev P a s0 c0 l IN L0 E0); [exact T4|]. intros w' Nw GW. rewrite El in Nw. injection Nw as <-.
  assert (DW : data_at s4 w = data_at (after e) w).
  { cbn. unfold data_at. rewrite S4, E2; [reflexivity|]. eapply t_reach; [exact H2|rewrite El; cbn; auto]. }
  apply wp_bind, t_sym_is. intros b Hb. rewrite DW in Hb. destruct b; cbn [negb].
  2: { apply (wp_ends ev P s0 [] [e]). eapply t_pops_error; [exact T4|]. intros r de ED. rewrite El. eapply gen_word; [exact GI|exact GK|intros C; apply Hb in C; discriminate|exact ED]. }
  assert (DW1 : data_at (after e) w = Some (DSym (asc "of"))) by now apply Hb. clear Hb DW.
  apply wp_bind. eapply p_arg; [exact H4|]. intros n' Nn GN. rewrite El in Nn. injection Nn as <-.
  apply wp_bind. eapply pt_eval; [exact EV|exact H4|exact GN|eapply p_env; exact H4|]. intros o s5 H5 S5. destruct o as [m|]; [|exact I].
  assert (DR5 : data_at s5 res = Some d0) by (unfold data_at in *; rewrite S5 by (now left); exact DR).
  set (e1 := SpecTrace.Eval n env s4 (Some m) s5) in *. cbn [app] in H5. pose proof (p_tr _ _ _ _ _ _ _ _ H5) as T5.
  apply wp_bind, t_get. intros dm Dm. assert (GI1 : gives e1 n env m dm) by (now apply gives_eval).
  apply wp_bind, wp_lift; [discriminate|]. intros c EC. destruct c as [[c|]|].
  2: { apply count_none in EC; [|discriminate]. apply wp_bind. eapply t_push; [exact T5|reflexivity|]. intros s6 H6 E6. apply wp_bind. eapply (tr_pops ev P s0 [m; res; t] []); [exact H6|]. intros s7 H7 E7.
       apply (wp_ends ev P s0 [] [e; e1]). eapply t_error; [exact H7|reflexivity|]. intros r de ED. rewrite El. eapply gen_count; eauto. }
  2: { apply count_none in EC; [|discriminate]. apply (wp_ends ev P s0 [] [e; e1]). eapply t_pops_error; [exact T5|]. intros r de ED. rewrite El. eapply gen_count; eauto. }
  apply count_some in EC. apply wp_bind. eapply pt_push; [exact H5|now left|]. intros s6 H6 E6. apply wp_bind. eapply p_arg; [exact H6|]. intros g' Ng GG. rewrite El in Ng. injection Ng as <-.
  apply wp_bind. eapply pt_eval; [exact EV|exact H6|exact GG|eapply p_env; exact H6|]. intros o s7 H7 S7. apply wp_bind, wp_need. intros x ->.
  set (e2 := SpecTrace.Eval g env s6 (Some x) s7) in *. cbn [app] in H7. 
  assert (NXP : ~ In x P). { intros J. destruct (p_good _ _ _ _ _ _ _ _ H7 x eq_refl) as (_ & N & _). apply N, in_or_app. auto. }
  assert (DR7 : data_at s7 res = Some d0) by (unfold data_at in *; rewrite S7 by (now left); rewrite E6; exact DR5).
  apply wp_bind. eapply pt_push; [exact H7|now left|]. intros s8 H8 E8. apply wp_bind, t_get. intros dx Dx.
  assert (GI2 : gives e2 g env x dx) by (apply gives_eval; unfold data_at in *; now rewrite <- E8).
  assert (DR8 : data_at s8 res = Some d0) by (unfold data_at in *; now rewrite E8). pose proof (p_tr _ _ _ _ _ _ _ _ H8) as T8.
  destruct (callable dx) eqn:CX.
  - apply callable_operator in CX. apply wp_bind. eapply (calls_spec res g _ 3 _ c); [|exact NR|now rewrite El| |exact T8|exact DR8|]; [cbn; auto|reflexivity|]. intros evs' d' s9 H9 R9 D9.
    eapply (wp_ends ev P s0 []). eapply t_pops_ret; [exact H9|cbn; auto|exact NR|exact D9|]. rewrite El, app_nil_r. eapply gen_calls; eauto.
  - assert (CX' : ~ operator dx) by (intros O; apply callable_operator in O; congruence). apply wp_bind. eapply (same_spec res x); [|exact NR| |exact NXP|exact T8|exact DR8|]; [cbn; auto|cbn; auto|]. intros evs' d' s9 H9 R9 D9.
    eapply (wp_ends ev P s0 []). eapply t_pops_ret; [exact H9|cbn; auto|exact NR|exact D9|]. rewrite El, app_nil_r. eapply gen_same; eauto.
Qed.

(** ** Mapping *)
Lemma p_reach H pre G evs s x : Pt ev P s0 H pre G evs s -> In x l -> reach s x.
Proof. intros T. eapply t_reach. exact (p_tr _ _ _ _ _ _ _ _ T). Qed.
Lemma mapped_spec vs res t f d0 pre (Q : ref + nat -> vm -> Prop) : pre = [vs; f; res; t] -> ~ In vs P -> forall k i m ws evs G s sv, List.length l = (i + k)%nat ->
  Pt ev P s0 [vs; res] pre G evs s -> data_at s vs = Some (DVec ws) -> data_at s res = Some d0 -> (forall x, In x l -> data_at s x = data_at sv x) ->
  (forall evs' r de s', Tr pre (eq r) (evs ++ evs') s' -> vectors_run env sv (skipn i l) m evs' None -> data_at s' r = Some de -> is_err de -> Q (inl r) s') ->
  (forall evs' ws' m' s', Pt ev P s0 [vs; res] pre (fun _ => False) (evs ++ evs') s' -> vectors_run env sv (skipn i l) m evs' (Some (ws', m')) -> data_at s' vs = Some (DVec (ws ++ ws')) -> data_at s' res = Some d0 -> Q (inr m') s') ->
  wp (mapped_vectors k ev a env vs i m) Q s.
Proof.
  intros EP NV. induction k as [|k IH]; intros i m ws evs G s sv EL T DV DR SV K1 K2; cbn [mapped_vectors].
  - apply wp_ret. apply (K2 [] []); rewrite ?app_nil_r; auto; [eapply pt_weaken; [exact T|easy]|]. rewrite skipn_all2 by lia. constructor.
  - apply wp_bind. eapply p_arg; [exact T|]. intros x Nx GX. apply wp_bind, t_get. intros d D. rewrite SV in D by (eapply nth_l; eauto).
    assert (SK : skipn i l = x :: skipn (S i) l) by (now apply skipn_two).
    assert (BAD : (forall l0, data_at sv x <> Some (DVec l0)) -> wp (r <- new_error ;; ret (inl r)) Q s).
    { intros NB. apply wp_bind. eapply tr_error; [exact (p_tr _ _ _ _ _ _ _ _ T)|]. intros r s' de H1 D1 ED. apply wp_ret. eapply (K1 []); rewrite ?app_nil_r; eauto. rewrite SK. now constructor. }
    destruct d as [ |db|dz|df|dt|dt|dt|dmsg dline|lx|m0|l0 max|l0|db denc|df|df|dp|dp|dv]; try (apply BAD; intros l1; congruence).
    clear BAD. apply wp_bind. eapply pt_eval; [exact EV|exact T|exact GX|eapply p_env; exact T|]. intros o s1 T1 S1. destruct o as [v|]; [|exact I].
    set (e := SpecTrace.Eval x env s (Some v) s1) in *. assert (GV : good ([vs; res] ++ P) s1 v) by (apply (p_good _ _ _ _ _ _ _ _ T1); reflexivity).
    assert (VV : v <> vs) by (destruct GV as (_ & GV & _); intros ->; apply GV; cbn; auto).
    apply wp_bind. eapply pt_vec_push; [exact T1|now left|unfold data_at; rewrite S1 by (now left); exact DV|exact GV|]. intros s2 T2 D2 O2 _.
    apply wp_bind, wp_vec_of; [discriminate|]. intros cv lv Lv Ev. rewrite O2 in Lv by auto.
    assert (RV : vs <> res) by (pose proof (p_nodup _ _ _ _ _ _ _ _ T) as ND; inversion ND as [|? ? X1 X2]; subst; intros ->; apply X1; now left).
    eapply (IH (S i) (Nat.max m (List.length lv)) (ws ++ [v]) _ _ s2 s1); [lia|exact T2|exact D2| | | |].
    + unfold data_at. rewrite O2 by auto. rewrite S1 by (cbn; auto). exact DR.
    + intros y J. unfold data_at. rewrite O2; [reflexivity|]. intros ->. pose proof (tr_start ev P s0 A0) as H0.
      destruct (tr_vec ev P s0 a l c0 _ _ _ _ H0 IN L0 E0) as (_ & GL). destruct (GL vs J) as (X1 & _). pose proof (p_new _ _ _ _ _ _ _ _ T vs (or_introl eq_refl)). lia.
    + intros evs' r de s' H3 R3 D3 ED. rewrite <- app_assoc in H3. eapply (K1 (e :: evs')); [exact H3| |exact D3|exact ED]. rewrite SK. eapply vectors_next_bad; [exact D|apply gives_eval; unfold data_at; rewrite Lv; cbn; now rewrite Ev|exact R3].
    + intros evs' ws' m' s' H3 R3 D3 D4. rewrite <- app_assoc in H3, D3. eapply (K2 (e :: evs') (v :: ws')); [exact H3| |exact D3|exact D4]. rewrite SK. eapply vectors_next; [exact D|apply gives_eval; unfold data_at; rewrite Lv; cbn; now rewrite Ev|exact R3].
Qed.
(** The form of a call. *)
Lemma elements_spec HP i form (Q : unit -> vm -> Prop) s : forall ws l0 G s1, At true HP s [form] G s1 -> mine true HP s form -> (forall v, In v ws -> reach s v) -> data_at s1 form = Some (DVec l0) ->
  (forall xs s2, At true HP s [form] G s2 -> Forall2 (has_element s i) ws xs -> data_at s2 form = Some (DVec (l0 ++ xs)) -> Q tt s2) ->
  wp (iterM (fun v => x <- arg v i ;; vec_push form x) ws) Q s1.
Proof.
  intros ws. induction ws as [|v ws IH]; intros l0 G s1 A M RW D K; cbn [iterM].
  - apply wp_ret. apply (K []); [exact A|constructor|now rewrite app_nil_r].
  - apply wp_bind, wp_bind. apply (r_arg true true HP s v i [form] G); [exact A|right; right; right; split; [reflexivity|apply RW; now left]|]. intros c lv x L E N A'.
    assert (LS : lookup (all s) v = Some c) by (rewrite <- L; symmetry; apply (a_same _ _ _ _ _ _ _ A); right; split; [reflexivity|apply RW; now left]).
    eapply (r_vec_push true true HP s form x [form]); [exact A|right; left; now left|exact M|apply (a_good _ _ _ _ _ _ _ A'); now left|]. intros s2 A2 O2 D2.
    unfold data_at in D. destruct (lookup (all s1) form) as [cf|] eqn:LF; [|discriminate]. cbn in D. injection D as D. destruct (D2 cf l0 eq_refl D) as (c' & L' & D').
    eapply (IH (l0 ++ [x])); [exact A2|exact M|intros w J; apply RW; now right|unfold data_at; rewrite L'; cbn; now rewrite D'|]. intros xs s3 A3 F3 D3. apply (K (x :: xs)); [exact A3| |now rewrite <- app_assoc in D3].
    constructor; [|exact F3]. exists lv. unfold data_at. rewrite LS. cbn. now rewrite E.
Qed.
Lemma map_form_spec {X} H i f vs ws pre G evs (k : ref -> M X) (Q : X -> vm -> Prop) s : Pt ev P s0 H pre G evs s -> In vs H -> incl H pre -> In f pre -> ~ In f (H ++ P) -> data_at s vs = Some (DVec ws) ->
  (forall form xs s', Pt ev P s0 H (form :: pre) (eq form) evs s' -> ~ In form (H ++ P) -> data_at s' form = Some (DVec (f :: xs)) -> Forall2 (has_element s' i) ws xs -> (forall x, reach s x -> lookup (all s') x = lookup (all s) x) -> wp (k form) Q s') ->
  wp (form <- alloc (DVec []) ;; push form ;;; vec_push form f ;;; push_elements form vs i ;;; k form) Q s.
Proof.
  intros T IV IH IF NF DV K. pose proof (pt_stack _ _ _ _ _ _ _ _ T) as ES. set (HP := H ++ P) in *.
  assert (RF : reach s f) by (apply re_root; rewrite ES; apply in_or_app; auto). assert (RV : reach s vs) by (apply re_root; rewrite ES; apply in_or_app; auto).
  pose proof (at_start true true HP s (p_inv _ _ _ _ _ _ _ _ T)) as A.
  apply wp_bind, (r_alloc true true HP s (DVec []) [] _ _ _ A); [easy|easy|]. clear A. intros form s1 A AL M.
  apply wp_bind, (r_push_all true true HP s form [] _ _ _ A); [has|]. clear A. intros s2 A E2.
  destruct (al_cell _ _ _ _ _ _ AL) as (ad & L1). assert (NX : nextId s <= form) by apply AL. assert (NFH : ~ In form HP) by apply M.
  apply wp_bind. eapply (r_vec_push true true HP s form f [form]); [exact A|has|exact M|eapply (at_good true); [exact A|right; right; right; auto|auto]|]. intros s3 A3 O3 D3.
  rewrite E2 in D3. destruct (D3 _ [] L1 eq_refl) as (c3 & L3 & D3'). cbn [app] in D3'. clear D3 A.
  unfold push_elements. apply wp_bind, wp_bind, wp_vec_of; [discriminate|]. intros cv ws' LV EV'. rewrite (a_same _ _ _ _ _ _ _ A3) in LV by auto. unfold data_at in DV. rewrite LV in DV. cbn in DV. rewrite EV' in DV. injection DV as ->.
  eapply (elements_spec HP i form _ s ws [f]); [exact A3|exact M| |unfold data_at; rewrite L3; cbn; now rewrite D3'|].
  { intros v J. eapply reach_child; [exact RV|exact LV|now rewrite EV']. }
  intros xs s4 A4 F4 D4. apply (K form xs); [|exact NFH|exact D4| |].
  - apply (pt_quiet ev P s0 H pre G evs s [form]); [exact T|]. eapply at_weaken; [exact A4|]. intros x <-. eapply (at_good true); [exact A4|has|auto].
  - assert (RW : forall v, In v ws -> lookup (all s4) v = lookup (all s) v).
    { intros v J. apply (a_same _ _ _ _ _ _ _ A4). right. split; [reflexivity|]. eapply reach_child; [exact RV|exact LV|now rewrite EV']. }
    clear - F4 RW. induction F4 as [|v x ws xs (lv & D & N) F IHF]; constructor; [exists lv; split; [|exact N]; unfold data_at; rewrite RW by (now left); exact D|]. apply IHF. intros w J. apply RW. now right.
  - intros x R. apply (a_same _ _ _ _ _ _ _ A4). auto.
Qed.
Inductive extended : data -> list ref -> data -> Prop :=
| extended_none d : extended d [] d
| extended_vec o out : extended (DVec o) out (DVec (o ++ out)).
Lemma rounds_spec vs res t f ws pre n (Q : unit -> vm -> Prop) : pre = [vs; f; res; t] -> ~ In f P -> f <> vs -> f <> res -> forall k i d evs G s, (i + k = n)%nat ->
  Pt ev P s0 [vs; res] pre G evs s -> data_at s vs = Some (DVec ws) -> data_at s res = Some d ->
  (forall evs' out d' s', Pt ev P s0 [vs; res] pre (fun _ => False) (evs ++ evs') s' -> map_rounds env f ws n i evs' out -> extended d out d' -> data_at s' res = Some d' -> Q tt s') ->
  wp (generate_mapped k ev env f vs res i) Q s.
Proof.
  intros EP NF N1 N2. induction k as [|k IH]; intros i d evs G s EN T DV DR K; cbn [generate_mapped].
  - apply wp_ret. apply (K [] [] d); rewrite ?app_nil_r; auto; [eapply pt_weaken; [exact T|easy]|replace i with n by lia; constructor|constructor].
  - assert (RV : vs <> res) by (pose proof (p_nodup _ _ _ _ _ _ _ _ T) as ND; inversion ND as [|? ? X1 X2]; subst; intros ->; apply X1; now left).
    assert (IP : incl [vs; res] pre) by (rewrite EP; intros x [<-|[<-|[]]]; cbn; auto).
    eapply (map_form_spec [vs; res] i f vs ws pre G evs); [exact T|now left|exact IP|rewrite EP; cbn; auto| |exact DV|].
    { intros [J|[J|J]]; [now apply N1|now apply N2|exact (NF J)]. }
    intros form xs s1 T1 NFM D1 F1 S1. apply wp_bind. eapply pt_eval; [exact EV|exact T1|apply (p_good _ _ _ _ _ _ _ _ T1); reflexivity|eapply p_env; exact T1|]. intros o s2 T2 S2. apply wp_bind, wp_need. intros x ->.
    assert (OWN : forall h, In h [vs; res] -> data_at s2 h = data_at s h).
    { intros h J. unfold data_at. rewrite S2 by exact J. rewrite S1; [reflexivity|]. apply re_root. rewrite (pt_stack _ _ _ _ _ _ _ _ T). apply in_or_app. left. now apply IP. }
    apply wp_bind. destruct d as [ |db|dz|df|dt|dt|dt|dmsg dline|o|m0|l0 max|l0|db denc|df|df|dp|dp|dv];
      try (unfold vec_push; apply wp_bind, t_get; intros d' D'; rewrite OWN in D' by (cbn; auto); rewrite DR in D'; injection D' as <-; apply wp_abort).
    eapply pt_vec_push; [exact T2|right; now left|rewrite OWN by (cbn; auto); exact DR|apply (p_good _ _ _ _ _ _ _ _ T2); reflexivity|]. intros s3 T3 D3 O3 _.
    apply wp_bind. eapply pt_pop; [exact T3|exact IP|]. intros s4 T4 E4.
    eapply (IH (S i) (DVec (o ++ [x]))); [lia|exact T4|unfold data_at; rewrite E4, O3 by auto; change (data_at s2 vs = Some (DVec ws)); rewrite OWN by (cbn; auto); exact DV|unfold data_at in *; now rewrite E4|].
    intros evs' out d' s5 T5 R5 X5 D5. rewrite <- app_assoc in T5. apply (K _ (x :: out) d' s5 T5); [| |exact D5].
    + econstructor; [lia|exact D1|exact F1|exact R5].
    + inversion X5; subst; [constructor|]. rewrite <- app_assoc. constructor.
Qed.
Lemma five : (List.length l > 4)%nat -> exists k w f w2 xs, l = k :: w :: f :: w2 :: xs.
Proof. intros E. clear - E. destruct l as [|k [|w [|n [|g xs]]]]; try (cbn in E; lia). eauto 6. Qed.
Lemma generate_map_spec : (List.length l > 4)%nat -> wp (s_generate_map (List.length l) ev a env) (ends [] (generate_map env l)) s0.
Proof.
  intros EL. destruct (five EL) as (k & w & f & w2 & xs & El). unfold s_generate_map. pose proof (tr_start ev P s0 A0) as H0.
  eapply (t_evarg ev EV P a s0 c0 l IN L0 E0 0); [exact H0|exact GE|]. intros x t s1 Nx H1. rewrite El in Nx. injection Nx as <-. cbn [app] in H1.
  set (e := SpecTrace.Eval k env s0 (Some t) s1) in *. assert (NT : ~ In t P) by (apply (tr_good ev P s0 _ _ _ _ t H1 eq_refl)).
  apply wp_bind. eapply t_push; [exact H1|reflexivity|]. intros s2 H2 E2. apply wp_bind, t_get. intros d D. assert (D1 : data_at s1 t = Some d) by (unfold data_at in *; now rewrite <- E2).
  assert (GI : gives e k env t d) by (now apply gives_eval). destruct (generated_kind d) as [d0|] eqn:GK.
  2: { apply wp_bind. eapply tr_pop; [exact H2|]. intros s3 H3 E3. apply (wp_ends ev P s0 [] [e]). eapply t_error; [exact H3|reflexivity|]. intros r de ED. rewrite El. eapply gmap_kind; [exact GI|intros d0; now apply kind_none|exact ED]. }
  apply kind_starts in GK.
  apply (pt_own ev P s0 [] d0 [t] (eq t) [e]); [now apply pt_start|exact (starts_plain _ _ GK)|]. intros res s4 H4 NR DR NX S4 _. cbn [app] in NR.
  assert (AB : data_at (after e) res = None). { cbn. unfold data_at. rewrite <- E2. change (data_at s2 res = None). apply data_none; [exact (tr_inv ev P s0 _ _ _ _ H2)|exact NX]. }
  pose proof (p_tr _ _ _ _ _ _ _ _ H4) as T4.
  apply wp_bind. eapply (t_arg ev P a s0 c0 l IN L0 E0); [exact T4|]. intros w' Nw GW. rewrite El in Nw. injection Nw as <-.
  assert (DW : data_at s4 w = data_at (after e) w).
  { cbn. unfold data_at. rewrite S4, E2; [reflexivity|]. eapply t_reach; [exact H2|rewrite El; cbn; auto]. }
  apply wp_bind, t_sym_is. intros b Hb. rewrite DW in Hb. destruct b; cbn [negb].
  2: { apply (wp_ends ev P s0 [] [e]). eapply t_pops_error; [exact T4|]. intros r de ED. rewrite El. eapply gmap_word; [exact GI|exact GK|intros C; apply Hb in C; discriminate|exact ED]. }
  assert (DW1 : data_at (after e) w = Some (DSym (asc "mapping"))) by now apply Hb. clear Hb DW.
  apply wp_bind. eapply p_arg; [exact H4|]. intros n' Nn GN. rewrite El in Nn. injection Nn as <-.
  apply wp_bind. eapply pt_eval; [exact EV|exact H4|exact GN|eapply p_env; exact H4|]. intros o s5 H5 S5. apply wp_bind, wp_need. intros g ->.
  assert (DR5 : data_at s5 res = Some d0) by (unfold data_at in *; rewrite S5 by (now left); exact DR).
  set (e1 := SpecTrace.Eval f env s4 (Some g) s5) in *. cbn [app] in H5. pose proof (p_tr _ _ _ _ _ _ _ _ H5) as T5.
  destruct (p_good _ _ _ _ _ _ _ _ H5 g eq_refl) as (_ & NG & _).
  apply wp_bind, t_get. intros dg Dg. assert (GI1 : gives e1 f env g dg) by (now apply gives_eval).
  destruct (callable dg) eqn:CG; cbn [negb].
  2: { assert (CG' : ~ operator dg) by (intros O; apply callable_operator in O; congruence). apply (wp_ends ev P s0 [] [e; e1]). eapply t_pops_error; [exact T5|]. intros r de ED. rewrite El. eapply gmap_function; eauto. }
  apply callable_operator in CG. apply wp_bind. eapply pt_push; [exact H5|now left|]. intros s6 H6 E6. pose proof (p_tr _ _ _ _ _ _ _ _ H6) as T6.
  apply wp_bind. eapply (t_arg ev P a s0 c0 l IN L0 E0); [exact T6|]. intros w' Nw GW2. rewrite El in Nw. injection Nw as <-.
  apply wp_bind, t_sym_is. intros b Hb. rewrite (data_same _ _ _ E6) in Hb. destruct b; cbn [negb].
  2: { apply (wp_ends ev P s0 [] [e; e1]). eapply t_pops_error; [exact T6|]. intros r de ED. rewrite El. eapply gmap_word2; eauto. intros C. apply Hb in C. discriminate. }
  assert (DW2 : data_at (after e1) w2 = Some (DSym (asc "on"))) by now apply Hb. clear Hb.
  apply (pt_own ev P s0 [res] (DVec []) [g; res; t] _ [e; e1] _ _ s6 H6); [easy|]. intros vs s7 H7 NV DV NXV S7 _.
  assert (RR : forall x, In x [res] -> reach s6 x) by (intros x [<-|[]]; apply re_root; rewrite (pt_stack _ _ _ _ _ _ _ _ H6); cbn; auto).
  assert (DR7 : data_at s7 res = Some d0) by (unfold data_at in *; rewrite S7 by (apply RR; now left); rewrite E6; exact DR5).
  apply wp_bind. eapply (mapped_spec vs res t g d0 _ _ eq_refl); [|idtac|exact H7|exact DV|exact DR7|idtac|idtac|idtac]; [intros J; apply NV, in_or_app; auto|lia| | |].
  { intros x J. unfold data_at. rewrite S7, E6; [reflexivity|]. eapply p_reach; [exact H6|exact J]. }
  { intros evs' r de s8 H8 R8 D8 ED. cbn beta iota. apply (wp_ends ev P s0 [] (e :: e1 :: evs')). apply wp_bind. eapply (tr_pops ev P s0 [vs; g; res; t] []); [exact H8|]. intros s9 H9 E9. apply wp_ret.
    eapply ends_now; [eapply tr_eq; [exact H9|right; reflexivity]| |]; [|apply result_refl; unfold data_at in *; rewrite E9; exact D8]. rewrite app_nil_r, El. rewrite El in R8. cbn [skipn] in R8. eapply gmap_vectors; eauto. }
  intros evs' ws m s8 H8 R8 D8 DR8. cbn beta iota. cbn [app] in D8. rewrite El in R8. cbn [skipn] in R8.
  assert (NVP : ~ In vs P /\ vs <> res) by (split; intros J; apply NV; [apply in_or_app; auto|rewrite J; now left]).
  assert (NGG : ~ In g P /\ g <> res) by (split; intros J; apply NG; [apply in_or_app; auto|rewrite J; now left]).
  assert (NGV : g <> vs). { pose proof (pt_stack _ _ _ _ _ _ _ _ H6) as ES. intros ->. assert (vs < nextId s6) by (apply (i_stack _ _ _ (p_inv _ _ _ _ _ _ _ _ H6)); rewrite ES; cbn; auto). lia. }
  apply wp_bind. eapply (rounds_spec vs res t g ws _ m _ eq_refl); [apply NGG|exact NGV|apply NGG|reflexivity|exact H8|exact D8|exact DR8|].
  intros evs2 out d' s9 H9 R9 X9 D9. apply (wp_ends ev P s0 [] (e :: e1 :: evs' ++ evs2)). eapply t_pops_ret; [|idtac|exact NR|exact D9|]; [|cbn; auto|].
  { pose proof (p_tr _ _ _ _ _ _ _ _ H9) as T9. cbn [app] in T9. exact T9. }
  rewrite app_nil_r, El. destruct m as [|m].
  - inversion R9; subst; [|lia]. inversion X9; subst; rewrite app_nil_r; eapply gmap_empty; eauto. rewrite ?app_nil_r. exact GK.
  - assert (NE : out <> []) by (inversion R9; discriminate). assert (EX : d0 = DVec [] /\ d' = DVec out).
    { destruct X9 as [d0|o out]; [now elim NE|]. assert (o = []) as -> by (inversion GK; reflexivity). auto. }
    destruct EX as (-> & ->). eapply gmap_calls; eauto. lia.
Qed.

Lemma generate_spec : wp (s_generate ev a env) (ends [] (generate_run env l)) s0.
Proof.
  pose proof (tr_start ev P s0 A0) as H0. unfold s_generate. apply wp_bind. eapply (t_nargs ev P a s0 c0 l IN L0 E0); [exact H0|].
  destruct (Nat.ltb_spec (List.length l) 4); [|destruct (Nat.eqb_spec (List.length l) 4)].
  - eapply t_error; [exact H0|reflexivity|]. intros r d ED. now constructor.
  - eapply wp_ends_mono; [|apply generate_of_spec; assumption]. intros. now apply generate_elements.
  - eapply wp_ends_mono; [|apply generate_map_spec; lia]. intros. apply generate_mapping; [lia|assumption].
Qed.
End Spec.
Lemma generate_forms : special_form SpGenerate (fun _ env _ => generate_run env).
Proof.
  apply special_form_of; [|intros; apply const_stable].
  intros fuel env ev EV P a s0 c0 l IN L0 E0 GE IE A0. cbn [special_call]. now apply generate_spec with (c0 := c0).
Qed.
