(** Proofs about Embed.v and SpecEmbed.v. *)
From Coq Require Import NArith ZArith Bool Lia Arith List.
From Coq Require Import ZifyBool ZifyNat ZifyN.
From Verif Require Import Base OString Input HMap Heap SpecHeap GcProofs VmProofs ValueOps Env Copy Builtins ToText Specials Eval Read Repl Embed SpecEmbed StackProofs SafeBase SafeRead SafeLib SafeBuiltins SafeSpecials SafeEval SafeRun.
Import ListNotations.
Local Open Scope N_scope.

Section Host.
Context (D : bool).
Notation wp := (SafeBase.wp D).
Notation Inv := (SafeBase.Inv D).
Notation At := (SafeBase.At D).
Notation good := (SafeBase.good D).
Notation live := SafeBase.live.
Notation reach := SafeBase.reach.
Ltac has := solve [unfold has; cbn [In app]; auto 15].
Ltac eqg H := apply (a_good _ _ _ _ _ _ _ H); reflexivity.

Lemma inv_regs P s s' : Inv P s -> all s' = all s -> nextId s' = nextId s -> stack s' = stack s -> genv s' = genv s -> fret s' = fret s -> Inv P s'.
Proof.
  intros [[A1 A2] B C E F G H T] E1 E2 E3 E4 E5. constructor; unfold live in *; rewrite ?E1, ?E2, ?E3, ?E4, ?E5; auto. split; rewrite ?E1, ?E2; auto.
Qed.
Lemma at_regs q P s0 pre G s s' : At q P s0 pre G s -> all s' = all s -> nextId s' = nextId s -> stack s' = stack s -> genv s' = genv s -> fret s' = fret s -> At false P s0 pre G s'.
Proof.
  intros [A1 A2 A3 A4 A5 A6 A7 A8] E1 E2 E3 E4 E5. constructor; auto; try congruence.
  - eapply inv_regs; eauto.
  - intros x [I|(X & _)]; [|discriminate]. rewrite E1. auto.
  - intros x W. destruct (A8 x W) as (B1 & B2 & B3). unfold SafeBase.good, SafeBase.live. rewrite E1, E2. auto.
Qed.
Lemma wp_do_gc (Q : unit -> vm -> Prop) s : Inv [] s -> (forall s', At false [] s [] (fun _ => False) s' -> Q tt s') -> wp do_gc Q s.
Proof.
  intros A K. set (t := with_numAlloc (mkVm (all s) (nextId s) (nextAddr s) (stack s) (genv s) (numAlloc s) 0 false (fret s) (quit s) (exitCode s) (readably s) (output s) (addrs s) (msgs s) (outside s)) 0).
  assert (AT : Inv [] t) by (eapply inv_regs; [exact A|reflexivity..]).
  pose proof (wp_maybe_gc D [] (fun _ s' => quiet D [] t s') t AT (fun s' q _ => q)) as W. unfold SafeBase.wp, maybe_gc in W. change (gcLimit t) with 0 in W. change (preventGc t) with false in W. cbn [N.leb negb andb] in W. change (0 <=? numAlloc t) with true in W. cbn [andb] in W.
  unfold SafeBase.wp, do_gc in *. change (all t) with (all s) in W. change (stack t) with (stack s) in W. destruct (gc (all s) (stack s)) as [h| | | | |]; cbn [obind fst snd] in *; auto.
  apply K. pose proof (at_quiet D [] t _ AT W) as H. pose proof H as [A1 A2 A3 A4 A5 A6 A7 A8]. constructor; try easy.
  - eapply inv_regs; [exact A2|reflexivity..].
  - intros x [[]|(X & _)]. discriminate.
Qed.

Lemma held_good s l x : Inv [] s -> (forall y, In y l -> good [] s y) -> held s l x -> good [] s x.
Proof.
  intros A GL R. induction R as [x I|r c x R IH L F].
  - apply in_app_or in I as [I|I]; [now apply (good_stack D)|auto].
  - eapply (good_child D); eauto.
Qed.
Lemma anchored_good s x : Inv [] s -> anchored s x -> good [] s x.
Proof.
  intros A R. split; [eapply (reach_lt D); eauto|]. split; [easy|]. intros E. eapply (reach_live D); eauto.
Qed.
Definition answers (a : answer) (x : ref) : Prop := match a with Value (Some r) => x = r | _ => False end.

Lemma call_lambda_ok fuel f args s : Inv [] s -> In f (stack s) -> In args (stack s) -> wp (call_lambda fuel f args) (fun r s' => At false [] s [] (eq r) s') s.
Proof.
  intros A IF IA. unfold call_lambda. pose proof (at_start D false [] s A) as H.
  assert (GF : good [] s f) by (now apply (good_stack D)). assert (GA : good [] s args) by (now apply (good_stack D)).
  apply wp_bind, wp_get_cell; [apply GF|]. intros c L.
  assert (W : wp (func_at f (caddr c)) (fun g s' => s' = s /\ dref (cdata c) (fformals g) /\ dref (cdata c) (fenv g)) s).
  { unfold func_at. apply wp_bind, wp_get_at; [apply GF|]. intros c' L' _. rewrite L in L'. injection L' as <-. destruct (cdata c) eqn:E; try apply wp_undef; apply wp_ret; cbn; auto. }
  apply wp_bind. eapply wp_mono; [exact W|]. clear W. intros g s' (-> & RF & RE).
  apply wp_bind, (r_alloc D false [] s _ [] _ _ _ H); [|easy|].
  { intros x [(t & k' & w & [] & _)|[= <-]]. split; [easy|]. right. right. right. eapply reach_child; [apply re_root; exact IF|exact L|exact RE]. }
  intros ext s1 H1 AL ME. pose proof (al_old _ _ _ _ _ _ AL) as OLD.
  assert (L1 : lookup (all s1) f = Some c) by (rewrite (q_same _ _ _ _ (al_quiet _ _ _ _ _ _ AL)); [exact L|apply re_root; exact IF]).
  apply wp_bind, (r_push_all D false [] s ext [] _ _ _ H1); [has|]. intros s2 H2 EA2.
  assert (GFo : good [] s (fformals g)) by (eapply (good_dref D); eauto).
  apply wp_bind. eapply wp_mono; [eapply (env_extend_ok D [] s ext (fformals g) args f c [ext]); [exact H2|now left|apply ME| | | | |exact IA|exact IF|rewrite EA2; exact L1|exact RF]|].
  - destruct GFo. lia.
  - destruct GA. lia.
  - destruct GF. lia.
  - eapply (good_dref D); [apply H2|rewrite EA2; exact L1|exact RF].
  - intros o s3 H3. cbv beta in H3. destruct o as [e|].
    + apply wp_bind, (r_pop D false [] s ext [] _ _ _ H3). intros s4 H4. apply wp_ret. eapply at_weaken; [exact H4|]. intros y <-. apply (a_good _ _ _ _ _ _ _ H4). now right.
    + apply wp_bind. eapply wp_mono; [eapply (run_body_ok D (eval fuel) (eval_safe D fuel) [] s f (caddr c) ext [ext]); [exact IF|easy|now left|apply ME|exact H3|discriminate]|].
      intros o s4 H4. cbv beta in H4. apply wp_bind, (r_pop D false [] s ext [] _ _ _ H4). intros s5 H5. destruct o as [r|]; [|apply wp_abort]. apply wp_ret. eapply at_weaken; [exact H5|]. intros y <-. apply (a_good _ _ _ _ _ _ _ H5). now right.
Qed.
Lemma evaluate_buffer_ok fuel b s : Inv [] s -> wp (evaluate_buffer fuel b) (fun o s' => At false [] s [] (fun r => o = Some r) s') s.
Proof.
  intros A. unfold evaluate_buffer. destruct b as [|c b].
  - apply wp_bind. apply (r_new_error D false [] s [] (fun _ => False) _ s (at_start D false [] s A)). intros r s1 H1. apply wp_ret. eapply at_weaken; [exact H1|]. intros y [= <-]. eqg H1.
  - apply wp_bind, wp_lift.
    + intros _. unfold octets_text. destruct (str_from_buffer (c :: b)); discriminate.
    + intros t _. apply (read_eval_ok D fuel (input_new t) [] s A).
Qed.

(** What the host may still hold after a request that leaves the stack alone. *)
Definition kept_by (q : request) (l : list ref) (a : answer) (x : ref) : Prop := answers a x \/ (may_collect q = false /\ In x l).
Notation result q l s := (fun a s' => At false [] s [] (kept_by q l a) s').
Lemma to_value q l (m : M ref) s : wp m (fun r s' => At false [] s [] (eq r) s') s -> may_collect q = true -> wp (value m) (result q l s) s.
Proof.
  intros W C. unfold value. apply wp_bind. eapply wp_mono; [exact W|]. intros r s' H. cbv beta in H. apply wp_ret. eapply at_weaken; [exact H|]. intros x [X|(X & _)]; [|congruence]. cbn in X. subst. eqg H.
Qed.
Lemma to_values q l (m : M (option ref)) s : wp m (fun o s' => At false [] s [] (fun r => o = Some r) s') s -> may_collect q = true -> wp (values m) (result q l s) s.
Proof.
  intros W C. unfold values. apply wp_bind. eapply wp_mono; [exact W|]. intros o s' H. cbv beta in H. apply wp_ret. eapply at_weaken; [exact H|]. intros x [X|(X & _)]; [|congruence]. destruct o; [|contradiction]. cbn in X. subst. eqg H.
Qed.
Lemma value_alloc q l d s : Inv [] s -> (forall x, dref d x -> anchored s x) -> tame d -> may_collect q = true -> wp (value (alloc d)) (result q l s) s.
Proof.
  intros A K T C. apply to_value; [|exact C]. eapply (r_alloc D false [] s d [] _ _ _ (at_start D false [] s A)); [|auto|auto].
  intros x R. split; [easy|]. right. right. right. now apply K.
Qed.
Lemma push_all_at s v : forall xs G s1, At false [] s [] G s1 -> G v -> (forall x, In x xs -> G x) -> wp (push_all v xs) (fun _ s' => At false [] s [] G s') s1.
Proof.
  induction xs as [|x xs IH]; intros G s1 H GV K; cbn [push_all]; [now apply wp_ret|].
  apply wp_bind. eapply (r_vec_push D false [] s v x [] G); [exact H|now left|split; [easy|discriminate]|apply (a_good _ _ _ _ _ _ _ H); apply K; now left|]. intros s2 H2 _ _. apply IH; auto. intros y J. apply K. now right.
Qed.
Lemma perform_ok fuel files q p l s : Inv [] s -> (forall y, In y l -> good [] s y) -> obeys p l s q -> (forall x, q <> Push x /\ q <> Pop x) ->
  wp (perform fuel files q) (result q l s) s.
Proof.
  intros A GL OB NP. pose proof (at_start D false [] s A) as H0.
  assert (HL : At false [] s [] (fun x => In x l) s) by (eapply at_weaken; [exact H0|exact GL]).
  assert (HH : forall x, held s l x -> good [] s x) by (intros x; now apply held_good).
  assert (STAY : forall (m : M unit) a, (forall x, ~ answers a x) -> may_collect q = false -> wp m (fun _ s' => At false [] s [] (fun x => In x l) s') s -> wp (m ;;; ret a) (result q l s) s).
  { intros m a NA C W. apply wp_bind. eapply wp_mono; [exact W|]. intros [] s' H. cbv beta in H. apply wp_ret. eapply at_weaken; [exact H|]. intros x [X|(_ & X)]; [now elim (NA x)|]. apply (a_good _ _ _ _ _ _ _ H). exact X. }
  assert (READ : forall a, (forall x, answers a x -> good [] s x) -> may_collect q = false -> At false [] s [] (kept_by q l a) s).
  { intros a NA C. eapply at_weaken; [exact HL|]. intros x [X|(_ & X)]; auto. }
  destruct q as [a|  |xs|  |max|  |e|x|v x|c x|e k v|x|x|x|  |  |b|n|x e|x|b|b|path|name doc z|f args|  |z|b| | | |]; cbn [perform obeys] in *.
  - apply value_alloc; auto; destruct a; easy.
  - apply value_alloc; auto; easy.
  - apply to_value; [|reflexivity]. apply wp_bind. eapply (r_alloc D false [] s (DVec []) [] _ _ _ H0); [easy|easy|]. intros v s1 H1 AL _.
    assert (H2 : At false [] s [] (fun x => x = v \/ In x xs) s1).
    { eapply at_weaken; [exact H1|]. intros x [->|I]; [eqg H1|]. eapply (anchored_good s1); [apply H1|]. eapply (reach_quiet D); [exact (al_quiet _ _ _ _ _ _ AL)|apply OB; exact I]. }
    apply wp_bind. eapply wp_mono; [eapply (push_all_at s v xs _ s1 H2); [now left|auto]|]. intros u s2 H3. cbv beta in H3. apply wp_ret. eapply at_weaken; [exact H3|]. intros x <-. apply (a_good _ _ _ _ _ _ _ H3). now left.
  - apply value_alloc; auto; easy.
  - apply value_alloc; auto; easy.
  - apply value_alloc; [exact A| |easy|reflexivity]. intros x (el & I & _). exfalso. revert I. cbn. tauto.
  - apply value_alloc; [exact A| |easy|reflexivity]. intros x [(t & k' & w & [] & _)|[= <-]]. exact OB.
  - apply to_value; [|reflexivity]. eapply wp_mono; [apply (copy_ok D fuel [] s x A); right; exact OB|]. intros r s' (H & _). eapply at_loud. exact H.
  - destruct OB as (OV & OX). apply STAY; [easy|reflexivity|]. pose proof (HH _ OV) as GV.
    assert (HV : At false [] s [] (fun y => y = v \/ In y l) s) by (eapply at_weaken; [exact HL|]; intros y [->|]; auto).
    eapply (r_vec_push D false [] s v x [] _ _ _ HV); [now left; left|split; [easy|discriminate]|now apply HH|]. intros s' H _ _. eapply at_weaken; [exact H|]. intros y J. apply (a_good _ _ _ _ _ _ _ H). now right.
  - destruct OB as (OC & OX). assert (GC : good [] s c) by (now apply anchored_good). assert (GX : good [] s x) by (now apply anchored_good).
    apply wp_bind, wp_get; [apply GC|]. intros cc LC. assert (W : wp (done (seq_push_atom fuel c x)) (result (SequencePush c x) l s) s); [|destruct (cdata cc); try apply wp_abort; exact W].
    unfold done. apply wp_bind. unfold seq_push_atom. apply wp_bind. eapply (r_copy_atom D true [] s fuel x [] _ _ s (at_start D true [] s A)); [right; exact OX|exact GX|]. intros y s1 H1.
    assert (H2 : At false [] s [] (fun z => z = c \/ z = y) s1).
    { apply at_loud with (q := true). eapply at_weaken; [exact H1|]. intros z [->| ->]; [|eqg H1].
      apply (anchored_good s1); [apply H1|]. eapply reach_lookup; [exact H1|reflexivity|exact OC]. }
    eapply (r_seq_push D false [] s c y [] _ _ _ H2); [now left; left|split; [easy|discriminate]|apply (a_good _ _ _ _ _ _ _ H2); now right|]. intros s2 H3. apply wp_ret. eapply at_weaken; [exact H3|]. intros z [[]|(X & _)]; discriminate.
  - destruct OB as (OE & OK & OV). apply STAY; [easy|reflexivity|].
    eapply (r_env_set D false [] s e k v [] _ _ _ HL); [apply (HH _ OE)|split; [easy|discriminate]|now apply HH|now apply HH|]. auto.
  - apply wp_bind, wp_get; [apply (HH _ OB)|]. intros c L. apply wp_ret. apply READ; [easy|reflexivity].
  - destruct (NP x) as (X & _). congruence.
  - destruct (NP x) as (_ & X). congruence.
  - apply wp_bind, wp_read, wp_ret. apply READ; [|reflexivity]. intros x X. destruct (stack s) as [|y st] eqn:ES; cbn in X; [contradiction|]. subst. apply (good_stack D); auto. rewrite ES. now left.
  - unfold done. apply wp_bind. apply wp_do_gc; [exact A|]. intros s' H. apply wp_ret. eapply at_weaken; [exact H|]. intros y [[]|(X & _)]; discriminate.
  - apply STAY; [easy|reflexivity|]. unfold SafeBase.wp, set_prevent. eapply at_regs; [exact HL|reflexivity..].
  - apply STAY; [easy|reflexivity|]. unfold SafeBase.wp, set_limit. eapply at_regs; [exact HL|reflexivity..].
  - destruct OB as (OX & OE). apply to_values; [|reflexivity]. apply (eval_safe D fuel); [exact A|now apply HH|now apply (good_stack D)|intros _; now left].
  - apply wp_bind, wp_read. apply to_values; [|reflexivity]. apply (eval_safe D fuel); [exact A|now apply HH|now apply (good_genv D)|]. intros E. left. now apply (i_genv _ _ _ A).
  - apply to_values; [|reflexivity]. now apply evaluate_buffer_ok.
  - apply to_values; [|reflexivity]. now apply evaluate_buffer_ok.
  - apply to_values; [|reflexivity]. destruct (files path); now apply evaluate_buffer_ok.
  - destruct name as [|n0 name]; [apply wp_abort|]. destruct doc as [|d0 doc]; [apply wp_abort|].
    apply wp_bind. eapply wp_mono; [apply (read_eval_ok D fuel _ [] s A)|]. intros o s1 H1. cbv beta in H1. destruct o as [r|]; [|apply wp_abort].
    apply wp_bind, wp_get; [apply (a_good _ _ _ _ _ _ _ H1); reflexivity|]. intros c L. apply wp_ret. eapply at_weaken; [exact H1|]. intros y [[]|(X & _)]; discriminate.
  - destruct OB as (OF & OA). apply to_value; [|reflexivity]. now apply call_lambda_ok.
  - apply wp_bind, wp_read. apply STAY; [easy|reflexivity|]. unfold SafeBase.wp, set_exit_code. eapply at_regs; [exact HL|reflexivity..].
  - apply wp_bind, wp_read. apply STAY; [easy|reflexivity|]. unfold SafeBase.wp, set_exit_code. eapply at_regs; [exact HL|reflexivity..].
  - apply STAY; [easy|reflexivity|]. unfold SafeBase.wp, set_readably. eapply at_regs; [exact HL|reflexivity..].
  - apply wp_bind, wp_read, wp_ret. apply READ; [easy|reflexivity].
  - apply wp_bind, wp_read, wp_ret. apply READ; [easy|reflexivity].
  - apply wp_bind, wp_read, wp_ret. apply READ; [easy|reflexivity].
  - apply wp_bind, wp_read, wp_ret. apply READ; [|reflexivity]. intros x ->. now apply (good_genv D).
Qed.

(** One request of a host that follows the rule. *)
Definition hosted (base : list ref) (g : ref) (p l : list ref) (s : vm) : Prop :=
  Inv [] s /\ stack s = p ++ base /\ In g base /\ genv s = g /\ forall y, In y l -> good [] s y.
Lemma hosted_step base g fuel files q p l s : hosted base g p l s -> obeys p l s q ->
  wp (perform fuel files q) (fun a s' => hosted base g (pushed_after q p) (loose_after q a l) s') s.
Proof.
  intros (A & ES & IG & EG & GL) OB.
  assert (NP : (exists x, q = Push x) \/ (exists x, q = Pop x) \/ forall x, q <> Push x /\ q <> Pop x).
  { destruct q; try (right; right; split; discriminate); eauto. }
  destruct NP as [(x & ->)|[(x & ->)|NP]]; cbn [perform obeys] in *.
  - unfold done. apply wp_bind. pose proof (held_good s l x A GL OB) as GX.
    assert (H : At false [] s [] (fun y => In y l \/ y = x) s) by (eapply at_weaken; [apply at_start; exact A|]; intros y [I| ->]; auto).
    eapply (r_push D false [] s x [] _ _ s H); [left; now right|]. intros s' H'. apply wp_ret.
    split; [apply H'|]. split; [rewrite (a_stack _ _ _ _ _ _ _ H'); cbn; now rewrite ES|]. split; [exact IG|]. split; [rewrite (a_genv _ _ _ _ _ _ _ H'); exact EG|].
    intros y I. apply (a_good _ _ _ _ _ _ _ H'). left. exact I.
  - destruct OB as (p' & ->). unfold done. apply wp_bind.
    assert (GX : good [] s x) by (apply (good_stack D); [exact A|rewrite ES; now left|easy]).
    eapply (wp_pop D [] x x (p' ++ base)); [exact A|exact ES|easy|intros _; apply in_or_app; right; now rewrite EG|]. intros _ A'. apply wp_ret.
    split; [exact A'|]. split; [reflexivity|]. split; [exact IG|]. split; [exact EG|]. intros y I. cbn in I. destruct I as [<-|I]; [exact GX|now apply GL].
  - eapply wp_mono; [now apply (perform_ok fuel files q p l s)|]. intros a s' H. cbv beta in H.
    assert (EP : pushed_after q p = p). { destruct q; try reflexivity; specialize (NP x); destruct NP; congruence. }
    rewrite EP. split; [apply H|]. split; [now rewrite (a_stack _ _ _ _ _ _ _ H)|]. split; [exact IG|]. split; [rewrite (a_genv _ _ _ _ _ _ _ H); exact EG|].
    intros y I. apply (a_good _ _ _ _ _ _ _ H). unfold loose_after in I. apply in_app_or in I as [I|I].
    + left. destruct a as [|[r|]| | |]; cbn in I |- *; try contradiction. destruct I; [auto|contradiction].
    + apply in_app_or in I as [I|I]; [destruct q; try contradiction; destruct (NP x) as (_ & X); congruence|].
      right. destruct (may_collect q); [contradiction|auto].
Qed.
Lemma hosted_history s0 : Inv [] s0 -> In (genv s0) (stack s0) -> forall p l s, history s0 p l s -> hosted (stack s0) (genv s0) p l s.
Proof.
  intros A IG p l s H. induction H as [|p l s fuel files q a s' H IH OB E|p l s out H IH].
  - split; [exact A|]. repeat split; auto; easy.
  - pose proof (hosted_step _ _ fuel files q p l s IH OB) as W. unfold SafeBase.wp in W. rewrite E in W. exact W.
  - destruct IH as (B & K). split; [now apply inv_outside|exact K].
Qed.
End Host.

Lemma bal_reg {X} (f : vm -> vm) (a : X) : (forall s, stack (f s) = stack s) -> balanced (fun s => Ret (a, f s)).
Proof. intros H st s E. cbn. rewrite H. exact E. Qed.
Lemma bal_call_lambda fuel f a : balanced (call_lambda fuel f a).
Proof. unfold call_lambda. pose proof (bal_eval fuel). pose proof (fun f' addr ext => bal_run_body (eval fuel) f' addr ext H). bal; eauto with bal. Qed.
Lemma bal_perform fuel files q : (forall x, q <> Push x /\ q <> Pop x) -> balanced (perform fuel files q).
Proof.
  intros NP.
  assert (EB : forall b, balanced (evaluate_buffer fuel b)).
  { intros [|c b]; unfold evaluate_buffer; [bal|]. apply bal_bind; [apply bal_lift|intros; apply bal_read_eval]. }
  assert (VS : forall m : M (option ref), balanced m -> balanced (values m)) by (intros m B; unfold values; bal).
  assert (V : forall m : M ref, balanced m -> balanced (value m)) by (intros m B; unfold value; bal).
  assert (DN : forall m : M unit, balanced m -> balanced (done m)) by (intros m B; unfold done; bal).
  assert (SE : forall b z, balanced (set_exit_code b z)) by (intros b z st s E; exact E).
  assert (GC : balanced do_gc).
  { intros st s E. unfold do_gc. pose proof (gc_unb (all s) (stack s)). destruct (gc (all s) (stack s)); cbn; auto. }
  destruct q; cbn [perform]; try (apply V); try apply VS; try apply DN; auto using bal_alloc, bal_copy, bal_vec_push, bal_env_set, bal_call_lambda, bal_seq_push_atom.
  - apply bal_bind; [apply bal_alloc|intros v]. apply bal_bind; [apply bal_push_all|intros; apply bal_ret].
  - apply bal_bind; [apply bal_get|intros d]. destruct d; first [apply DN, bal_seq_push_atom|intros ? ? ?; exact I].
  - bal.
  - destruct (NP x); congruence.
  - destruct (NP x); congruence.
  - bal.
  - intros st s E; exact E.
  - intros st s E; exact E.
  - apply bal_eval.
  - apply (bal_bind (read genv)); [apply bal_read|intros g]. apply bal_eval.
  - destruct (files path); apply EB.
  - destruct name as [|n0 name]; [intros st s E; exact I|]. destruct doc as [|d0 doc]; [intros st s E; exact I|]. apply bal_bind; [apply bal_read_eval|]. intros [r|]; [bal|intros st s E; exact I].
  - intros st s E; exact E.
  - intros st s E; exact E.
  - intros st s E; exact E.
  - bal.
  - bal.
  - bal.
  - bal.
Qed.
