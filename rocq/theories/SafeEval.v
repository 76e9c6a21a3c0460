(** The evaluator preserves the invariant, never changes a private value, and
    without return, =, copy and cp@ it never uses a freed value. *)
From Coq Require Import NArith ZArith Bool Lia Arith List String.
From Coq Require Import ZifyBool ZifyNat ZifyN.
From Verif Require Import Base OString HMap Heap SpecHeap GcProofs VmProofs ValueOps Env Copy Builtins Specials Eval SafeBase SafeRead SafeLib SafeBuiltins SafeSpecials SafeText.
Import ListNotations.
Local Open Scope N_scope.

Section Safe.
Context (D : bool).
Notation wp := (wp D).
Notation Inv := (Inv D).
Notation At := (At D).
Notation good := (good D).
Notation src := (src D).
Notation ev_ok := (ev_ok D).
Ltac has := solve [unfold has; cbn [In app]; auto 15].
Ltac eqg H := apply (a_good _ _ _ _ _ _ _ H); reflexivity.
Ltac inc H := apply (a_good _ _ _ _ _ _ _ H); auto.

(** ** copy *)
Section Copy.
Context (ED : D = true) (ev : evaluator) (EV : ev_ok ev).
Notation F := (fun _ : ref => False).
Lemma copy_filtered_any P env src res p fuel : forall f i s, Inv P s -> good P s env -> good P s res -> good P s p ->
  wp (copy_filtered fuel f ev env src res p i) (fun _ s' => At false P s [] F s') s.
Proof.
  induction f as [|f IH]; intros i s A GE GR GP; cbn [copy_filtered]; [apply wp_nofuel|]. pose proof (at_start D false P s A) as H.
  assert (LATER : forall pre G s', At false P s pre G s' -> forall x, good P s x -> good P s' x) by (intros pre G s' K x; exact (at_later D ED false P s pre G s' x K)).
  apply wp_bind, wp_vec_of; [congruence|]. intros c l L E. destruct (nth_error l i) as [x|] eqn:EN; [|apply wp_ret; exact H].
  assert (GX : good P s x) by (eapply at_dref; [exact H|exact L|]; rewrite E; eapply nth_error_In; eauto).
  apply wp_bind, (r_alloc D false P s (DVec []) [] _ _ _ H); [easy|easy|]. clear H. intros cv s1 H _ MC.
  apply wp_bind, (r_push D false P s cv [] _ _ _ H); [has|]. clear H. intros s2 H.
  apply wp_bind. eapply (r_vec_push D false P s cv p [cv]); [exact H|has|exact MC|eapply LATER; [exact H|exact GP]|]. clear H. intros s3 H _ _.
  apply wp_bind. eapply (r_vec_push D false P s cv x [cv]); [exact H|has|exact MC|eapply LATER; [exact H|exact GX]|]. clear H. intros s4 H _ _.
  apply wp_bind, (r_alloc D false P s _ [cv] _ _ _ H); [easy|easy|]. clear H. intros k s5 H _ _.
  apply wp_bind. eapply (r_vec_push D false P s cv k [cv]); [exact H|has|exact MC|eqg H|]. clear H. intros s6 H _ _.
  apply wp_bind. eapply (r_use D false false P s [cv] _ _ (fun o r => o = Some r)); [exact H| |auto|].
  { apply EV; [apply H|eapply at_good; [exact H|has|right; apply MC]|eapply LATER; [exact H|exact GE]|congruence]. }
  clear H. intros o s7 H. apply wp_bind, wp_need. intros r ->. apply wp_bind, (r_pop D false P s cv [] _ _ _ H). clear H. intros s8 H.
  apply wp_bind, wp_get; [congruence|]. intros cr LR. destruct (cdata cr); try (apply wp_ret; eapply drop; eauto).
  apply wp_bind. apply (wp_mono D _ (fun _ s' => At false P s [] F s')).
  - destruct b; [|apply wp_ret; eapply drop; eauto]. apply wp_bind. eapply (r_copy D false P s fuel x); [exact H|now left|]. clear H LR. intros x' s9 H _. clear s8. rename s9 into s8.
    pose proof (any_has D P s [] _ s8 res H (LATER _ _ _ H res GR)) as H2.
    eapply (r_vec_push D false P s res x' []); [exact H2|has|eapply mine_good; apply (LATER _ _ _ H res GR)|eqg H|]. intros s9 H9 _ _. eapply drop; exact H9.
  - clear H LR s8. intros u s8 H. eapply wp_mono; [apply IH; [apply H|eapply LATER; [exact H|assumption]..]|]. intros b' s9 H9. exact (at_call D false false P s [] _ _ _ _ H H9 (fun e => e)).
Qed.
Lemma copy_filtered_str_any P env src p : forall f i acc s, Inv P s -> good P s env -> good P s p ->
  wp (copy_filtered_str f ev env src p i acc) (fun _ s' => At false P s [] F s') s.
Proof.
  induction f as [|f IH]; intros i acc s A GE GP; cbn [copy_filtered_str]; [apply wp_nofuel|]. pose proof (at_start D false P s A) as H.
  assert (LATER : forall pre G s', At false P s pre G s' -> forall x, good P s x -> good P s' x) by (intros pre G s' K x; exact (at_later D ED false P s pre G s' x K)).
  apply wp_bind, wp_get; [congruence|]. intros c L. destruct (cdata c) as [ | | | |t| | | | | | | | | | | | |]; try apply wp_undef. destruct (nth_error t i) as [ch|]; [|apply wp_ret; exact H].
  apply wp_bind, (r_alloc D false P s (DChar [ch]) [] _ _ _ H); [easy|easy|]. clear H. intros x s1 H _ MX.
  apply wp_bind, (r_push D false P s x [] _ _ _ H); [has|]. clear H. intros s2 H.
  apply wp_bind, (r_alloc D false P s (DVec []) [x] _ _ _ H); [easy|easy|]. clear H. intros cv s3 H _ MC.
  apply wp_bind, (r_push D false P s cv [x] _ _ _ H); [has|]. clear H. intros s4 H.
  apply wp_bind. eapply (r_vec_push D false P s cv p [cv; x]); [exact H|has|exact MC|eapply LATER; [exact H|exact GP]|]. clear H. intros s5 H _ _.
  apply wp_bind. eapply (r_vec_push D false P s cv x [cv; x]); [exact H|has|exact MC|eapply at_good; [exact H|has|right; apply MX]|]. clear H. intros s6 H _ _.
  apply wp_bind, (r_alloc D false P s _ [cv; x] _ _ _ H); [easy|easy|]. clear H. intros k s7 H _ _.
  apply wp_bind. eapply (r_vec_push D false P s cv k [cv; x]); [exact H|has|exact MC|eqg H|]. clear H. intros s8 H _ _.
  apply wp_bind. eapply (r_use D false false P s [cv; x] _ _ (fun o r => o = Some r)); [exact H| |auto|].
  { apply EV; [apply H|eapply at_good; [exact H|has|right; apply MC]|eapply LATER; [exact H|exact GE]|congruence]. }
  clear H. intros o s9 H. apply wp_bind, wp_need. intros r ->. apply wp_bind, (r_pop D false P s cv [x] _ _ _ H). clear H. intros s10 H.
  apply wp_bind, wp_get; [congruence|]. intros cr LR. destruct (cdata cr);
    try (apply wp_bind, (r_pop D false P s x [] _ _ _ H); clear H LR; intros s11 H; apply wp_ret; eapply drop; eauto).
  apply wp_bind, (r_pop D false P s x [] _ _ _ H). clear H LR. intros s11 H.
  assert (NEXT : forall acc', wp (copy_filtered_str f ev env src p (S i) acc') (fun _ s' => At false P s [] F s') s11).
  { intros acc'. eapply wp_mono; [apply IH; [apply H|eapply LATER; [exact H|assumption]..]|]. intros b' s12 H12. exact (at_call D false false P s [] _ _ _ _ H H12 (fun e => e)). }
  destruct b; [|apply NEXT]. apply wp_bind, wp_get; [congruence|]. intros c2 L2. destruct (cdata c2); try apply wp_undef.
  apply wp_bind, wp_lift; [congruence|]. intros ch' _. apply NEXT.
Qed.
Lemma copy_any fuel P a env s : good P s env -> bok D false (b_copy fuel ev a env) P a s.
Proof.
  intros GE A IN. pose proof (at_start D false P s A) as H. unfold b_copy. apply wp_bind. eapply wp_vec_of_arg; [exact A|exact IN|]. intros c l L E.
  assert (LATER : forall pre G s', At false P s pre G s' -> forall x, good P s x -> good P s' x) by (intros pre G s' K x; exact (at_later D ED false P s pre G s' x K)).
  assert (AG : forall x, In x l -> good P s x) by (intros x J; exact (arg_good D P a s c l IN L E _ _ _ s x H J)).
  destruct l as [|x [|p [|? ?]]]; try (eapply out_error; exact H).
  - apply wp_bind, wp_get; [congruence|]. intros cx LX. destruct (cdata cx) eqn:EX; try (eapply out_error; exact H); try (eapply out_alloc; [exact H|easy|exact I]).
    apply wp_bind, (r_alloc D false P s (DVec []) [] _ _ _ H); [easy|easy|]. clear H. intros r s1 H _ MR.
    apply wp_bind, (r_push D false P s r [] _ _ _ H); [has|]. clear H. intros s2 H.
    apply wp_bind, wp_vec_of; [congruence|]. intros c2 q L2 E2. apply wp_bind. apply (wp_mono D _ (fun _ s' => At false P s [r] F s')).
    + apply wp_iterM; [|eapply drop; exact H]. clear H L2. intros y s3 _ H. apply wp_bind. eapply (r_copy D false P s fuel y); [exact H|now left|]. clear H. intros y' s4 H _.
      eapply (r_vec_push D false P s r y' [r]); [exact H|has|exact MR|eqg H|]. intros s5 H5 _ _. eapply drop; exact H5.
    + clear H L2. intros u s3 H. apply wp_bind, (r_pop D false P s r [] _ _ _ H). clear H. intros s4 H. apply wp_ret. eapply at_eq; [exact H|]. left. split; [reflexivity|apply MR].
  - apply wp_bind, wp_get; [congruence|]. intros cp LP. destruct (cdata cp); try (eapply out_error; exact H).
    apply wp_bind, wp_get; [congruence|]. intros cx LX. destruct (cdata cx) eqn:EX; try (eapply out_error; exact H).
    { apply wp_bind. eapply wp_mono; [apply copy_filtered_str_any; [apply H|eapply LATER; [exact H|exact GE]|eapply LATER; [exact H|apply AG; cbn; auto]]|].
      intros o s1 H1. cbv beta in H1. destruct o; [eapply out_alloc; [exact H1|easy|exact I]|eapply out_error; exact H1]. }
    apply wp_bind, (r_alloc D false P s (DVec []) [] _ _ _ H); [easy|easy|]. clear H. intros r s1 H _ MR.
    apply wp_bind, (r_push D false P s r [] _ _ _ H); [has|]. clear H. intros s2 H.
    apply wp_bind. eapply wp_mono; [apply copy_filtered_any; [apply H|eapply LATER; [exact H|exact GE]|eapply at_good; [exact H|has|right; apply MR]|eapply LATER; [exact H|apply AG; cbn; auto]]|].
    intros o s3 H3. cbv beta in H3. pose proof (at_call D false false P s [r] _ _ _ _ H H3 (fun e => e)) as H4. clear H H3.
    apply wp_bind, (r_pop D false P s r [] _ _ _ H4). clear H4. intros s4 H. destruct o; [|eapply out_error; exact H].
    apply wp_ret. eapply at_eq; [exact H|]. left. split; [reflexivity|apply MR].
Qed.
End Copy.

(** ** Evaluating a text *)
Lemma read_eval_string_ok ev : ev_ok ev -> forall P a s, Inv P s -> In a P -> wp (b_read_eval_string ev a) (fun r s' => At false P s [] (eq r) s') s.
Proof.
  intros EV P a s A IN. pose proof (at_start D false P s A) as H. unfold b_read_eval_string. apply wp_bind. apply (wp_vec_of_arg D P); [exact A|exact IN|]. intros c l L E.
  assert (W : wp new_error (fun r s' => At false P s [] (eq r) s') s) by (eapply out_error; exact H).
  destruct l as [|x [|y l]]; try exact W. apply wp_bind. eapply get_good; [exact H|eapply at_dref; [exact H|exact L|rewrite E; now left]|]. intros c1 L1.
  destruct (cdata c1); try exact W. apply wp_bind, wp_lift; [intros; apply nd_c_string_copy|]. intros t' _. apply wp_bind.
  eapply wp_mono; [apply read_eval_by_ok; [exact EV|exact A]|]. intros o s1 H1. apply wp_need. intros r ->. eapply at_eq; [exact H1|reflexivity].
Qed.

Lemma read_eval_path_ok ev : ev_ok ev -> forall P a s, Inv P s -> In a P -> wp (b_read_eval_path ev a) (fun r s' => At false P s [] (eq r) s') s.
Proof.
  intros EV P a s A IN. pose proof (at_start D false P s A) as H. unfold b_read_eval_path. apply wp_bind. apply (wp_vec_of_arg D P); [exact A|exact IN|]. intros c l L E.
  assert (W : wp new_error (fun r s' => At false P s [] (eq r) s') s) by (eapply out_error; exact H).
  destruct l as [|x [|y l]]; try exact W. apply wp_bind. eapply get_good; [exact H|eapply at_dref; [exact H|exact L|rewrite E; now left]|]. intros c1 L1.
  destruct (cdata c1); try exact W. apply wp_bind, wp_lift; [intros; apply nd_c_string|]. intros t' _. apply wp_bind. unfold read_file. apply wp_read.
  destruct (o_files (outside s) (nextAddr s) (cstr (snd t'))) as [[|b0 b]|]; try exact W. apply wp_bind, wp_lift; [intros; unfold octets_text; destruct (str_from_buffer _); discriminate|]. intros t'' _. apply wp_bind.
  eapply wp_mono; [apply read_eval_by_ok; [exact EV|exact A]|]. intros o s1 H1. apply wp_need. intros r ->. eapply at_eq; [exact H1|reflexivity].
Qed.

(** ** Every builtin *)
(** The builtins that change nothing the program can reach. *)
Definition calm (p : builtin) : bool :=
  match p with
  | BiSet | BiReturn | BiExit | BiPlusEq | BiIncr | BiDecr | BiPopBack | BiPopFront | BiMinus | BiCopy | BiMinusEq | BiMinusEqEq | BiPrint | BiPrintln | BiPrintReadably | BiReadEvalString | BiReadEvalPath => false
  | _ => true
  end.
Lemma builtin_ok ev : ev_ok ev -> forall fuel p P a env s, Inv P s -> In a P -> good P s env -> In env (stack s) -> (D = false -> tame (DBuiltin p)) ->
  wp (builtin_call fuel ev p a env) (fun r s' => At (calm p) P s [] (eq r) s') s.
Proof.
  intros EV fuel p P a env s A IN GE KE T.
  assert (TT : ~ tame (DBuiltin p) -> D = true) by (intros N; destruct D; [reflexivity|]; elim N; now apply T).
  destruct p; cbn [builtin_call calm tame] in *; try apply wp_unmodelled.
  - apply set_any; auto.
  - apply return_ok; auto.
  - apply not_ok; auto.
  - apply vector_ok; auto.
  - apply exit_ok; auto.
  - apply doc_ok; auto.
  - apply len_ok; auto.
  - apply uid_ok; auto.
  - apply plus_eq_ok; auto.
  - apply incr_ok; auto.
  - apply decr_ok; auto.
  - apply mod_ok; auto.
  - apply div_ok; auto.
  - apply times_ok; auto.
  - apply plus_ok; auto.
  - apply minus_ok; auto.
  - apply hash_map_ok; auto.
  - apply queue_ok; auto.
  - apply queue_max_ok; auto.
  - apply list_ok; auto.
  - apply copy_any; auto.
  - apply env_new_ok; auto.
  - apply env_current_ok; auto.
  - apply env_global_ok; auto.
  - apply ln_at_ok; auto.
  - apply pop_back_ok; auto.
  - apply pop_front_ok; auto.
  - apply is_ok; auto.
  - apply max_ok; auto.
  - apply min_ok; auto.
  - apply starts_with_ok; auto.
  - apply to_real_ok; auto.
  - apply to_integer_ok; auto.
  - apply to_string_ok; auto.
  - apply distance_ok; auto.
  - apply character_ok; auto.
  - apply find_ok; auto.
  - apply split_ok; auto.
  - apply cp_at_ok; auto.
  - apply sqrt_ok; auto.
  - apply abort_ok; auto.
  - apply minus_eq_ok; auto.
  - apply minus_eq_eq_ok; auto.
  - apply string_format_ok; auto.
  - apply print_ok; auto.
  - apply println_ok; auto.
  - apply print_readably_ok; auto.
  - apply read_eval_string_ok; auto.
  - apply read_eval_path_ok; auto.
  - apply host_strings_ok; auto.
  - apply host_strings_ok; auto.
Qed.

(** ** Private values *)
(** A value just allocated and pushed can be made private. *)
Lemma make_private P s0 d a s pre G s' : At false P s0 pre G s -> allocated D P s d a s' -> Inv (a :: P) (with_stack s' (a :: stack s')).
Proof.
  intros H AL. pose proof (al_quiet _ _ _ _ _ _ AL) as Qt. pose proof (q_inv _ _ _ _ Qt) as A.
  pose proof (al_old _ _ _ _ _ _ AL) as O. pose proof (al_next _ _ _ _ _ _ AL) as N. pose proof (a_inv _ _ _ _ _ _ _ H) as B.
  destruct (q_misc _ _ _ _ Qt) as (M1 & M2 & _).
  assert (LA : live s' a) by (destruct (al_cell _ _ _ _ _ _ AL) as (ad & E); unfold live; congruence).
  assert (A' : Inv P (with_stack s' (a :: stack s'))) by (apply inv_push; auto).
  destruct A' as [A1 A2 A3 A4 A5 A6 A7 A8]. constructor; auto.
  - intros r c x L R. destruct (A2 r c x L R) as (LT & NP). split; [exact LT|]. intros [<-|J]; [|auto].
    destruct (al_unref _ _ _ _ _ _ AL r c L) as (U1 & U2). destruct R; auto.
  - intros x [<-|J]; [now left|right]. now apply (i_priv _ _ _ A).
  - cbn in *. destruct A6 as (G1 & G2 & G3). repeat split; auto. intros [J|J]; [|auto]. pose proof (proj1 (i_genv _ _ _ B)). rewrite M1 in J. lia.
  - cbn in *. pose proof (i_fret _ _ _ B) as FB. rewrite M2 in *. destruct (fret s) as [q|]; [|exact I]. destruct A7 as (F1 & F2 & F3). repeat split; auto. intros [J|J]; [|auto]. lia.
Qed.

Lemma at_unpriv q P P' s0 pre G s : At q P' s0 pre G s -> incl P P' -> At q P s0 pre G s.
Proof.
  intros [A B C E F H I J] IP. constructor; auto; try (eapply inv_unpriv; eauto).
  - intros x [K|K]; auto.
  - intros x K. destruct (J x K) as (J1 & J2 & J3). repeat split; auto.
Qed.
Lemma at_call_pre q q' P s0 pre G s pre' G' s' : At q P s0 pre G s -> At q' P s pre' G' s' -> (q = true -> q' = true) -> At q P s0 (pre' ++ pre) G' s'.
Proof.
  intros A B QQ. constructor.
  - apply A.
  - apply B.
  - rewrite (a_stack _ _ _ _ _ _ _ B), (a_stack _ _ _ _ _ _ _ A). apply app_assoc.
  - pose proof (a_next _ _ _ _ _ _ _ A). pose proof (a_next _ _ _ _ _ _ _ B). lia.
  - rewrite (a_genv _ _ _ _ _ _ _ B). apply A.
  - intros x [I|(Q & R)].
    + rewrite (a_same _ _ _ _ _ _ _ B); auto. now apply (a_same _ _ _ _ _ _ _ A); auto.
    + rewrite (a_same _ _ _ _ _ _ _ B); [now apply (a_same _ _ _ _ _ _ _ A); auto|]. right. split; [auto|]. eapply reach_lookup; eauto.
  - intros Q. destruct (a_misc _ _ _ _ _ _ _ A Q) as (A1 & A2 & A3 & A4 & A5). destruct (a_misc _ _ _ _ _ _ _ B (QQ Q)) as (B1 & B2 & B3 & B4 & B5). repeat split; congruence.
  - apply B.
Qed.

(** A procedure that owns the vector [a] it has allocated and pushed. *)
Record Own (P : list ref) (s0 : vm) (a : ref) (G : ref -> Prop) (s : vm) : Prop := {
  o_at : At false P s0 [a] G s;
  o_inv : Inv (a :: P) s;
  o_vec : exists c l, lookup (all s) a = Some c /\ cdata c = DVec l;
  o_good : forall x, G x -> good (a :: P) s x;
  o_new : nextId s0 <= a
}.
Lemma own_frame P s0 a G s : Own P s0 a G s -> At false (a :: P) s [] G s.
Proof. intros [A B C E]. eapply at_weaken; [apply at_start; exact B|exact E]. Qed.
Lemma own_call q P s0 a G s G' s' : Own P s0 a G s -> At q (a :: P) s [] G' s' -> Own P s0 a G' s'.
Proof.
  intros [A B (c & l & L & E) F N] H. constructor; auto.
  - eapply (at_call D false false); [exact A| |auto]. eapply at_loud. eapply at_unpriv; [exact H|]. intros x; now right.
  - apply H.
  - exists c, l. split; [|exact E]. rewrite (a_same _ _ _ _ _ _ _ H); [exact L|]. left. now left.
  - apply H.
Qed.
Lemma own_weaken P s0 a G (G' : ref -> Prop) s : Own P s0 a G s -> (forall x, G' x -> good (a :: P) s x) -> Own P s0 a G' s.
Proof.
  intros [A B C E N] W. constructor; auto. eapply at_weaken; [exact A|]. intros x K. destruct (W x K) as (W1 & W2 & W3). repeat split; auto. intros J. apply W2. now right.
Qed.
Lemma own_stack P s0 a G s : Own P s0 a G s -> stack s = a :: stack s0.
Proof. intros O. exact (a_stack _ _ _ _ _ _ _ (o_at _ _ _ _ _ O)). Qed.
Lemma own_old P s0 a G s x : Own P s0 a G s -> In x (stack s0) -> ~ In x P -> good (a :: P) s x /\ kept (a :: P) s x.
Proof.
  intros O I N. assert (J : In x (stack s)) by (rewrite (own_stack _ _ _ _ _ O); now right).
  split; [|now left]. apply good_stack; [apply O|exact J|]. intros [<-|K]; [|auto].
  pose proof (o_new _ _ _ _ _ O). pose proof (proj1 (i_stack _ _ _ (a_inv0 _ _ _ _ _ _ _ (o_at _ _ _ _ _ O)) _ I)). lia.
Qed.
Lemma own_bind {X} P s (K : ref -> M X) (Q : X -> vm -> Prop) : Inv P s -> (forall a s', Own P s a (fun _ => False) s' -> wp (K a) Q s') ->
  wp (a <- alloc (DVec []) ;; push a ;;; K a) Q s.
Proof.
  intros A W. pose proof (at_start D false P s A) as H. apply wp_bind, (r_alloc D false P s (DVec []) [] _ _ _ H); [easy|easy|]. intros a s1 H1 AL MA.
  pose proof (make_private P s (DVec []) a s [] _ s1 H AL) as A1.
  apply wp_bind. unfold SafeBase.wp at 1, push. apply W. constructor; [|exact A1| |easy|].
  + pose proof (r_push D false P s a [] _ (fun _ s' => At false P s [a] (eq a) s') s1 H1 ltac:(has) (fun s' H' => H')) as W1. unfold SafeBase.wp, push in W1. eapply at_weaken; [exact W1|easy].
  + destruct (al_cell _ _ _ _ _ _ AL) as (ad & E). exists (mkCell (DVec []) None None false ad), []. auto.
  + apply (al_old _ _ _ _ _ _ AL).
Qed.
Lemma own_push P s0 a G x s : Own P s0 a G s -> good (a :: P) s x -> wp (vec_push a x) (fun _ s' => Own P s0 a G s') s.
Proof.
  intros [A B (c & l & L & E) F N] GX. unfold vec_push. apply wp_bind, wp_get; [intros _; unfold live; congruence|]. intros c' L'. rewrite L in L'. injection L' as <-. rewrite E.
  apply (wp_put D (a :: P)); [exact B|intros _; unfold live; congruence| | |].
  - split; [|easy]. intros y [I|[<-|[]]]%in_app_or; [|exact GX]. eapply good_dref; [exact B|exact L|now rewrite E].
  - intros _ c' L' FN. rewrite L in L'. injection L' as <-. now rewrite E in FN.
  - intros c' L' I. rewrite L in L'. injection L' as <-. constructor; auto.
    + apply at_write; [exact A| |eapply inv_unpriv; [exact I|intros y J; now right]]. split; [|discriminate].
      intros J. apply (i_priv _ _ _ (a_inv0 _ _ _ _ _ _ _ A)) in J. apply (i_stack _ _ _ (a_inv0 _ _ _ _ _ _ _ A)) in J. lia.
    + cbn. rewrite lookup_update, N.eqb_refl, L. cbn. do 2 eexists. split; reflexivity.
    + intros y Gy. destruct (F y Gy) as (F1 & F2 & F3). split; [exact F1|]. split; [exact F2|]. intros ED. apply live_update. auto.
Qed.
(** At the end the vector is popped. *)
Lemma own_pop P s0 a r G s : Own P s0 a G s -> G r -> wp (pop a ;;; ret r) (fun r s' => At false P s0 [] (eq r) s') s.
Proof.
  intros O GR. apply wp_bind, (r_pop D false P s0 a [] _ _ _ (o_at _ _ _ _ _ O)). intros s1 H1. apply wp_ret. eapply at_eq; [exact H1|now right].
Qed.

Section Calls.
Context (ev : evaluator) (EV : ev_ok ev) (fuel : nat).
Section Frame.
Context (P : list ref) (s0 : vm) (v f env : ref) (A0 : Inv P s0).
Context (IV : In v (stack s0)) (IE : In env (stack s0)) (IF : In f (stack s0)) (NE : ~ In env P) (NV : ~ In v P) (NF : ~ In f P).

(** ** The arguments *)
Lemma form_at_ok addr a G (Q : list ref -> vm -> Prop) s : Own P s0 a G s ->
  (forall l, (forall x, In x l -> good (a :: P) s x) -> Q l s) -> wp (form_at v addr) Q s.
Proof.
  intros O K. unfold form_at. apply wp_bind, wp_get_at; [apply (own_old _ _ _ _ _ v O IV NV)|]. intros c L _. destruct (cdata c) eqn:E; try apply wp_undef.
  apply wp_ret. apply K. intros x J. eapply good_dref; [apply O|exact L|now rewrite E].
Qed.
Lemma raw_args_ok a : forall l G s, Own P s0 a G s -> (forall x, In x l -> G x) -> wp (raw_args a l) (fun o s' => Own P s0 a (fun r => o = Some r) s') s.
Proof.
  induction l as [|x l IH]; intros G s O K; cbn [raw_args]; [apply wp_ret; eapply own_weaken; [exact O|discriminate]|].
  assert (GX : good (a :: P) s x) by (apply (o_good _ _ _ _ _ O), K; now left).
  apply wp_bind, wp_is_error; [apply GX|]. intros c _. destruct (is_error_data (cdata c)).
  - apply wp_ret. eapply own_weaken; [exact O|]. now intros y [= <-].
  - apply wp_bind. eapply wp_mono; [eapply own_push; [exact O|exact GX]|]. intros u s' O'. eapply IH; [exact O'|]. intros y J. apply K. now right.
Qed.
Lemma push_all_ok a : forall l G s, Own P s0 a G s -> (forall x, In x l -> G x) -> wp (push_all a l) (fun _ s' => Own P s0 a (fun _ => False) s') s.
Proof.
  induction l as [|x l IH]; intros G s O K; cbn [push_all]; [apply wp_ret; eapply own_weaken; [exact O|easy]|].
  assert (GX : good (a :: P) s x) by (apply (o_good _ _ _ _ _ O), K; now left).
  apply wp_bind. eapply wp_mono; [eapply own_push; [exact O|exact GX]|]. intros u s' O'. eapply IH; [exact O'|]. intros y J. apply K. now right.
Qed.
Lemma own_annotate a r s : Own P s0 a (eq r) s -> wp (annotate r) (fun _ s' => Own P s0 a (eq r) s') s.
Proof.
  intros O. pose proof (own_frame _ _ _ _ _ O) as H. eapply r_annotate; [exact H|eqg H|]. intros s' H' _ _. eapply own_call; [exact O|exact H'].
Qed.
Lemma eval_args_ok addr a : forall k i G s, Own P s0 a G s -> wp (eval_args k ev v addr env a i) (fun o s' => Own P s0 a (fun r => o = Some r) s') s.
Proof.
  induction k as [|k IH]; intros i G s O; cbn [eval_args]; [apply wp_nofuel|].
  apply wp_bind. eapply form_at_ok; [exact O|]. intros l GL. destruct (nth_error l i) as [x|] eqn:EN; [|apply wp_ret; eapply own_weaken; [exact O|discriminate]].
  destruct (own_old _ _ _ _ _ env O IE NE) as (GE & KE).
  apply wp_bind. eapply wp_mono; [apply (EV (a :: P)); [apply O|apply GL; eapply nth_error_In; eauto|exact GE|auto]|]. clear GL GE KE. intros o s1 H1. cbv beta in H1.
  pose proof (own_call _ _ _ _ _ _ _ _ O H1) as O1. clear H1 O. apply wp_bind, wp_need. intros r ->. assert (GR : good (a :: P) s1 r) by (apply (o_good _ _ _ _ _ O1); reflexivity).
  apply wp_bind, wp_is_error; [apply GR|]. intros c _. destruct (is_error_data (cdata c)).
  - apply wp_bind. eapply wp_mono; [eapply (own_annotate a r); eapply own_weaken; [exact O1|now intros y <-]|]. intros u s2 O2. apply wp_ret. eapply own_weaken; [exact O2|]. intros y [= <-]. now apply (o_good _ _ _ _ _ O2).
  - apply wp_bind. eapply wp_mono; [eapply own_push; [exact O1|exact GR]|]. intros u s2 O2. eapply IH. exact O2.
Qed.

(** ** The calls *)
Lemma call_special_ok addr p : (D = false -> tame (DSpecial p)) -> wp (call_special fuel ev v addr p env) (fun r s' => At false P s0 [] (eq r) s') s0.
Proof.
  intros T. unfold call_special. apply own_bind with (P := P); [exact A0|]. intros a s O. apply wp_bind. eapply form_at_ok; [exact O|]. intros l GL.
  apply wp_bind. eapply wp_mono; [eapply (raw_args_ok a (tl l) (fun x => In x l)); [eapply own_weaken; [exact O|exact GL]|intros x J; destruct l; [exact J|now right]]|].
  clear O GL s l. intros o s O. apply wp_bind. apply (wp_mono D _ (fun r s' => Own P s0 a (eq r) s')); [|intros r s1 O1; eapply own_pop; [exact O1|reflexivity]].
  destruct o as [x|]; [apply wp_ret; eapply own_weaken; [exact O|]; intros y <-; now apply (o_good _ _ _ _ _ O)|].
  destruct (o_vec _ _ _ _ _ O) as (c & l & L & E). destruct (own_old _ _ _ _ _ env O IE NE) as (GE & KE).
  apply wp_bind. eapply wp_mono; [eapply (special_ok D ev EV fuel p (a :: P) a env s c l); [apply O|now left|exact L|exact E|exact GE|rewrite (own_stack _ _ _ _ _ O); now right|exact T]|].
  intros r s1 H1. cbv beta in H1. pose proof (own_call _ _ _ _ _ _ _ _ O H1) as O1. apply wp_bind. eapply wp_mono; [eapply own_annotate; exact O1|]. intros u s2 O2. apply wp_ret. exact O2.
Qed.
Lemma builtin_of_ok a G (Q : builtin -> vm -> Prop) s : Own P s0 a G s -> (forall p, (D = false -> tame (DBuiltin p)) -> Q p s) -> wp (builtin_of f) Q s.
Proof.
  intros O K. unfold builtin_of. apply wp_bind, wp_get; [apply (own_old _ _ _ _ _ f O IF NF)|]. intros c L. destruct (cdata c) eqn:E; try apply wp_undef. apply wp_ret. apply K.
  intros ED. rewrite <- E. apply (i_tame _ _ _ (o_inv _ _ _ _ _ O) ED f c L).
Qed.
Lemma call_builtin_ok addr : wp (call_builtin fuel ev v addr f env) (fun r s' => At false P s0 [] (eq r) s') s0.
Proof.
  unfold call_builtin. apply own_bind with (P := P); [exact A0|]. intros a s O. apply wp_bind. eapply wp_mono; [eapply eval_args_ok; exact O|]. clear O s. intros o s O.
  apply wp_bind. apply (wp_mono D _ (fun r s' => Own P s0 a (eq r) s')); [|intros r s1 O1; eapply own_pop; [exact O1|reflexivity]].
  destruct o as [x|]; [apply wp_ret; eapply own_weaken; [exact O|]; intros y <-; now apply (o_good _ _ _ _ _ O)|].
  apply wp_bind. eapply builtin_of_ok; [exact O|]. intros p T. destruct (own_old _ _ _ _ _ env O IE NE) as (GE & KE).
  apply wp_bind. eapply wp_mono; [eapply (builtin_ok ev EV fuel p (a :: P) a env s); [apply O|now left|exact GE|rewrite (own_stack _ _ _ _ _ O); now right|exact T]|].
  intros r s1 H1. cbv beta in H1. pose proof (own_call _ _ _ _ _ _ _ _ O H1) as O1. apply wp_bind. eapply wp_mono; [eapply own_annotate; exact O1|]. intros u s2 O2.
  apply wp_bind. eapply builtin_of_ok; [exact O2|]. intros p' T'. apply wp_bind. apply (wp_mono D _ (fun _ s' => Own P s0 a (eq r) s')); [|intros u' s3 O3; apply wp_ret; exact O3].
  destruct (is_return p') eqn:ER; [|apply wp_ret; exact O2]. pose proof (own_frame _ _ _ _ _ O2) as H2. eapply r_set_fret; [exact H2| |].
  - intros x [= <-]. destruct (o_good _ _ _ _ _ O2 r eq_refl) as (R1 & R2 & R3). split; [|auto]. destruct D; [reflexivity|]. specialize (T' eq_refl). destruct p'; try discriminate ER. destruct T'.
  - intros s3 H3 _. eapply own_call; [exact O2|exact H3].
Qed.
End Frame.

(** ** Functions *)
Lemma env_set_other P s0 e k v pre G s : At false P s0 pre G s -> (D = false -> live s e) -> ~ In e P -> good P s k -> good P s v ->
  wp (env_set e k v) (fun _ s' => At false P s0 pre G s' /\ forall x, x <> e -> lookup (all s') x = lookup (all s) x) s.
Proof.
  intros H LE NE GK GV.
  assert (W : wp (env_set e k v) (fun _ s' => At false P s0 pre G s') s) by (eapply r_env_set; eauto; split; [exact NE|discriminate]).
  unfold SafeBase.wp in *. destruct (env_set e k v s) as [[u s']| | | | |] eqn:E; auto. split; [exact W|]. clear W.
  unfold env_set, bind in E. destruct (get k s) as [[d s1]| | | | |] eqn:E1; try discriminate. cbn in E. unfold get, bind, get_cell in E1. destruct (lookup (all s) k); try discriminate. injection E1 as <- <-.
  destruct (cdata c); try discriminate. destruct (get e s) as [[dd sz]| | | | |] eqn:E1; try discriminate. cbn in E. unfold get, bind, get_cell in E1. destruct (lookup (all s) e) eqn:LL; try discriminate. injection E1 as <- <-.
  destruct (cdata c0); try discriminate. unfold put, bind, get_cell, put_cell in E. rewrite LL in E. cbn in E. rewrite LL in E. injection E as <- <-. cbn. intros x NX. rewrite lookup_update.
  now rewrite (proj2 (N.eqb_neq _ _) (not_eq_sym NX)).
Qed.
Lemma bind_each_ok P s0 e pre : In e pre -> ~ In e P -> forall fs xs G s, At false P s0 pre G s -> (forall x, In x fs \/ In x xs -> G x) ->
  wp (bind_each e fs xs) (fun _ s' => At false P s0 pre G s' /\ forall x, x <> e -> lookup (all s') x = lookup (all s) x) s.
Proof.
  intros IE NE. induction fs as [|f fs IH]; intros xs G s H K; cbn [bind_each]; [now apply wp_ret|]. destruct xs as [|x xs]; [now apply wp_ret|].
  apply wp_bind. eapply wp_mono; [eapply env_set_other; [exact H|eapply at_live; [exact H|has]|exact NE|inc H; apply K; left; now left|inc H; apply K; right; now left]|].
  intros u s1 (H1 & O1). eapply wp_mono; [eapply IH; [exact H1|intros y J; apply K; cbn; tauto]|]. intros u' s2 (H2 & O2). split; [exact H2|]. intros y NY. rewrite O2 by exact NY. auto.
Qed.
Lemma mapM_names P s0 pre G s : At false P s0 pre G s -> forall fs (Q : list text -> vm -> Prop), (forall x, In x fs -> good P s x) -> (forall ns, Q ns s) -> wp (mapM formal_name fs) Q s.
Proof.
  intros H. induction fs as [|f fs IH]; intros Q GF K; cbn [mapM]; [apply wp_ret; apply K|].
  apply wp_bind, wp_formal_name; [apply GF; now left|]. intros c t _ _. apply wp_bind. apply IH; [intros; apply GF; now right|]. intros ns. apply wp_ret. apply K.
Qed.
(** [fo]: the formals, held by a value on the stack; [a]: the arguments. *)
Lemma env_extend_ok P s0 e fo a holder ch pre G s : At false P s0 pre G s -> In e pre -> ~ In e P -> e <> fo -> e <> a -> e <> holder -> good P s fo ->
  In a (stack s0) -> In holder (stack s0) -> lookup (all s) holder = Some ch -> dref (cdata ch) fo ->
  wp (env_extend e fo a) (fun o s' => At false P s0 pre (fun r => o = Some r) s') s.
Proof.
  intros H IE NE N1 N2 N3 GF IA IH LH RH. unfold env_extend.
  apply wp_bind, wp_vec_of; [apply GF|]. intros cf fs LF EF. apply wp_bind, wp_vec_of; [eapply at_live; [exact H|has]|]. intros ca xs LA EA.
  assert (GFS : forall x, In x fs -> good P s x) by (intros x J; eapply at_dref; [exact H|exact LF|now rewrite EF]).
  assert (GXS : forall x, In x xs -> good P s x) by (intros x J; eapply at_dref; [exact H|exact LA|now rewrite EA]).
  apply wp_bind. eapply mapM_names; [exact H|exact GFS|]. intros names.
  assert (FAIL : forall G s, At false P s0 pre G s -> wp (r <- new_error ;; ret (Some r)) (fun o s' => At false P s0 pre (fun r => o = Some r) s') s).
  { intros G' s' H'. apply wp_bind. apply (r_new_error D false P s0 _ _ _ _ H'). intros r s1 H1. apply wp_ret. eapply at_weaken; [exact H1|]. intros x [= <-]. eqg H1. }
  destruct (count_formals names 0 0 0) as [[nd nn] na]. destruct (Nat.ltb 1 nd); [eapply FAIL; exact H|]. destruct (Nat.ltb 0 na); [eapply FAIL; exact H|].
  destruct (Nat.ltb 0 nd && Nat.eqb nn 0)%bool; [apply wp_abort|]. set (n := if Nat.ltb 0 nd then (nn - 1)%nat else nn). destruct (_ && _)%bool; [eapply FAIL; exact H|]. destruct (Nat.ltb (List.length xs) _); [eapply FAIL; exact H|].
  assert (HB : At false P s0 pre (fun x => In x fs \/ In x xs) s) by (eapply at_weaken; [exact H|intros x [J|J]; auto]).
  apply wp_bind. eapply wp_mono; [eapply (bind_each_ok P s0 e pre IE NE); [exact HB|intros x [J|J]; apply in_firstn in J; auto]|]. clear HB. intros u s1 (H1 & O1).
  rewrite <- O1 in LH, LF, LA by congruence. clear O1 H.
  assert (RA : forall x, In x xs -> reach s1 x).
  { intros x J. eapply reach_child; [|exact LA|now rewrite EA]. apply re_root. rewrite (a_stack _ _ _ _ _ _ _ H1). apply in_or_app. auto. }
  assert (RF : forall x, In x fs -> reach s1 x).
  { intros x J. eapply reach_child; [|exact LF|now rewrite EF]. eapply reach_child; [|exact LH|exact RH]. apply re_root. rewrite (a_stack _ _ _ _ _ _ _ H1). apply in_or_app. auto. }
  assert (REST : forall l' f, incl l' xs -> In f fs -> wp (v <- alloc (DVec l') ;; env_set e f v ;;; ret None) (fun o s' => At false P s0 pre (fun r => o = Some r) s') s1).
  { intros l' f IL IF. apply wp_bind, (r_alloc D false P s0 _ pre _ _ _ H1); [|easy|].
    - intros x J. split; [apply (a_good _ _ _ _ _ _ _ H1); right; now apply IL|]. right. right. right. apply RA. now apply IL.
    - intros v s2 H2 AL MV. assert (GFx : good P s2 f).
      { pose proof (reach_quiet D P s1 s2 f (al_quiet _ _ _ _ _ _ AL) (RF f IF)) as R2. split; [eapply reach_lt; [apply H2|exact R2]|].
        split; [apply (a_good _ _ _ _ _ _ _ H1); now left|]. intros ED. eapply reach_live; [apply H2|exact ED|exact R2]. }
      apply wp_bind. eapply r_env_set; [exact H2|eapply at_live; [exact H2|has]|split; [exact NE|discriminate]|exact GFx|eqg H2|]. intros s3 H3. apply wp_ret. eapply at_weaken; [exact H3|discriminate]. }
  destruct (skipn n xs) as [|y ys] eqn:ES.
  - destruct (Nat.ltb 0 nd); [|apply wp_ret; eapply at_weaken; [exact H1|discriminate]]. apply wp_bind, wp_need. intros f EN. apply REST; [intros x []|eapply nth_error_In; eauto].
  - destruct (negb _); [eapply FAIL; exact H1|]. apply wp_bind, wp_need. intros f EN. apply REST; [|eapply nth_error_In; eauto]. rewrite <- ES. intros x J. now apply in_skipn in J.
Qed.
Lemma fret_good P s v : Inv P s -> fret s = Some v -> good P s v.
Proof. intros A EF. pose proof (i_fret _ _ _ A) as F. rewrite EF in F. destruct F as (F1 & F2 & F3). split; [auto|]. split; [auto|]. congruence. Qed.
Lemma run_body_ok P s0 f addr ext pre : In f (stack s0) -> ~ In f P -> In ext pre -> ~ In ext P -> forall k i last G s, At false P s0 pre G s -> (forall r, last = Some r -> G r) ->
  wp (run_body k ev f addr ext i last) (fun o s' => At false P s0 pre (fun r => o = Some r) s') s.
Proof.
  intros IF NF IX NX. induction k as [|k IH]; intros i last G s H K; cbn [run_body]; [apply wp_nofuel|].
  assert (W : wp (func_at f addr) (fun g s' => s' = s /\ good P s (fbody g)) s).
  { unfold func_at. apply wp_bind, wp_get_at; [eapply at_live; [exact H|has]|]. intros c L _. destruct (cdata c) eqn:E; try apply wp_undef; apply wp_ret; (split; [reflexivity|]); (eapply at_dref; [exact H|exact L|rewrite E; cbn; auto]). }
  apply wp_bind. eapply wp_mono; [exact W|]. clear W. intros g s' (-> & GB). apply wp_bind, wp_vec_of; [apply GB|]. intros c l L E.
  destruct (nth_error l i) as [x|] eqn:EN; [|apply wp_ret; eapply at_weaken; [exact H|intros y J; inc H]].
  assert (GX : good P s x) by (eapply at_dref; [exact H|exact L|rewrite E; eapply nth_error_In; eauto]).
  assert (HX : At false P s0 pre (eq x) s) by (eapply at_weaken; [exact H|now intros y <-]).
  apply wp_bind, (r_push D false P s0 x pre _ _ _ HX); [has|]. clear H HX L GB. intros s1 H.
  apply wp_bind. eapply (r_use D false false P s0 (x :: pre) _ _ (fun o r => o = Some r)); [exact H| |auto|].
  { apply EV; [apply H|eqg H|eapply at_good; [exact H|has|auto]|]. intros _. left. rewrite (a_stack _ _ _ _ _ _ _ H). apply in_or_app. left. now right. }
  clear H GX s s1. intros o s H. apply wp_bind, wp_need. intros r ->. apply wp_bind, wp_is_error; [apply (a_good _ _ _ _ _ _ _ H); reflexivity|]. intros c' _. destruct (is_error_data (cdata c')).
  - apply wp_bind. eapply r_annotate; [exact H|eqg H|]. clear H. intros s1 H _ _. apply wp_bind, (r_pop D false P s0 x pre _ _ _ H). clear H. intros s2 H. apply wp_ret. eapply at_weaken; [exact H|]. intros y J. inc H.
  - apply wp_bind, (r_pop D false P s0 x pre _ _ _ H). clear H s. intros s H. apply wp_bind, wp_read. destruct (fret s) as [y|] eqn:EF.
    + assert (GY : good P s y) by (eapply fret_good; [apply H|exact EF]). apply wp_bind. assert (H2 : At false P s0 pre (eq y) s) by (eapply at_weaken; [exact H|now intros z <-]).
      eapply r_set_fret; [exact H2|discriminate|]. intros s1 H1 _. apply wp_ret. eapply at_weaken; [exact H1|]. intros z [= <-]. eqg H1.
    + eapply IH; [exact H|]. intros z [= <-]. now right.
Qed.
Lemma call_function_ok P s0 v f env addr macro was : Inv P s0 -> In v (stack s0) -> In env (stack s0) -> In f (stack s0) -> ~ In env P -> ~ In v P -> ~ In f P ->
  wp (call_function fuel ev v addr f env macro was) (fun o s' => At false P s0 [] (fun r => o = Some r) s') s0.
Proof.
  intros A0 IV IE IF NE NV NF. unfold call_function. apply own_bind with (P := P); [exact A0|]. intros a s O.
  apply wp_bind. apply (wp_mono D _ (fun o s' => Own P s0 a (fun r => o = Some r) s')).
  { destruct macro; [|eapply eval_args_ok; eauto]. apply wp_bind. eapply form_at_ok; [exact IV|exact NV|exact O|]. intros l GL. apply wp_bind.
    eapply wp_mono; [eapply (push_all_ok P s0 a (tl l) (fun x => In x l)); [eapply own_weaken; [exact O|exact GL]|intros x J; destruct l; [exact J|now right]]|].
    intros u s1 O1. apply wp_ret. eapply own_weaken; [exact O1|discriminate]. }
  clear O s. intros o s O. destruct o as [x|].
  { apply wp_bind, (r_pop D false P s0 a [] _ _ _ (o_at _ _ _ _ _ O)). intros s1 H1. apply wp_ret. eapply at_weaken; [exact H1|]. intros y J. inc H1. }
  set (P1 := a :: P). pose proof (own_frame _ _ _ _ _ O) as H. fold P1 in H.
  assert (IF1 : In f (stack s)) by (rewrite (own_stack _ _ _ _ _ O); now right). destruct (own_old _ _ _ _ _ f O IF NF) as (GF & _).
  assert (LTf : f < nextId s) by apply GF. assert (IA : In a (stack s)) by (rewrite (own_stack _ _ _ _ _ O); now left). assert (LTa : a < nextId s) by (now apply (i_stack _ _ _ (o_inv _ _ _ _ _ O))).
  apply wp_bind, wp_get_cell; [apply GF|]. intros c L.
  assert (W : wp (func_at f (caddr c)) (fun g s' => s' = s /\ dref (cdata c) (fformals g) /\ dref (cdata c) (fenv g)) s).
  { unfold func_at. apply wp_bind, wp_get_at; [apply GF|]. intros c' L' _. rewrite L in L'. injection L' as <-. destruct (cdata c) eqn:E; try apply wp_undef; apply wp_ret; cbn; auto. }
  apply wp_bind. eapply wp_mono; [exact W|]. clear W. intros g s' (-> & RF & RE).
  assert (GFo : good P1 s (fformals g)) by (eapply at_dref; eauto). assert (GEn : good P1 s (fenv g)) by (eapply at_dref; eauto).
  apply wp_bind, (r_alloc D false P1 s _ [] _ _ _ H); [|easy|].
  { intros x [(t & k' & w & [] & _)|[= <-]]. split; [apply GEn|]. right. right. right. eapply reach_child; [apply re_root; exact IF1|exact L|exact RE]. }
  intros ext s1 H1 AL ME. pose proof (al_old _ _ _ _ _ _ AL) as OLD.
  assert (L1 : lookup (all s1) f = Some c) by (rewrite (q_same _ _ _ _ (al_quiet _ _ _ _ _ _ AL)); [exact L|apply re_root; exact IF1]).
  assert (GFo1 : good P1 s1 (fformals g)).
  { eapply at_dref; [exact H1|exact L1|exact RF]. }
  apply wp_bind, (r_push_all D false P1 s ext [] _ _ _ H1); [has|]. intros s2 H2 EA2.
  apply wp_bind. eapply wp_mono; [eapply (env_extend_ok P1 s ext (fformals g) a f c [ext]); [exact H2|now left|apply ME| | | | |exact IA|exact IF1|rewrite EA2; exact L1|exact RF]|].
  - destruct GFo as (? & _). lia.
  - lia.
  - lia.
  - eapply at_dref; [exact H2|rewrite EA2; exact L1|exact RF].
  - clear H1 AL L1 GFo1 H2 EA2 s1 s2. intros o s2 H2. cbv beta in H2. apply wp_bind. apply (wp_mono D _ (fun o s' => At false P1 s [ext] (fun r => o = Some r) s')).
    + destruct o as [e|]; [apply wp_ret; exact H2|]. apply wp_bind. eapply wp_mono; [eapply (run_body_ok P1 s f (caddr c) ext [ext]); [exact IF1|apply GF|now left|apply ME|exact H2|discriminate]|].
      clear H2 s2. intros o s2 H2. cbv beta in H2. destruct was; [|apply wp_ret; exact H2]. apply wp_bind, wp_need. intros r ->.
      apply wp_bind, (r_push D false P1 s r [ext] _ _ _ H2); [has|]. clear H2 s2. intros s2 H2.
      apply wp_bind. eapply (r_use D false false P1 s [r; ext] _ _ (fun o r => o = Some r)); [exact H2| |auto|].
      { apply EV; [apply H2|eqg H2|eapply at_good; [exact H2|has|right; apply ME]|]. intros _. left. rewrite (a_stack _ _ _ _ _ _ _ H2). right. now left. }
      clear H2 s2. intros o s2 H2. apply wp_bind, (r_pop D false P1 s r [ext] _ _ _ H2). clear H2 s2. intros s2 H2. apply wp_ret. eapply at_weaken; [exact H2|]. intros y J. inc H2.
    + clear H2 s2 o. intros o s2 H2. cbv beta in H2. pose proof (at_unpriv _ P P1 _ _ _ _ H2 (fun x J => or_intror J)) as H3. pose proof (at_call_pre _ _ _ _ _ _ _ _ _ _ (o_at _ _ _ _ _ O) H3 (fun e => e)) as H4. cbn [app] in H4.
      apply wp_bind. eapply (r_pops0 D false P s0 [ext; a]); [exact H4|]. intros s3 H5. apply wp_ret. eapply at_weaken; [exact H5|]. intros y J. inc H5.
Qed.

(** ** Forms *)
Definition ok2 (P : list ref) (s : vm) (o : option ref * bool) (s' : vm) : Prop := At false P s [] (fun r => fst o = Some r) s'.
Lemma eval_form_ok P s0 v l addr env was G s : At false P s0 [env; v] G s -> ~ In env P -> ~ In v P -> (forall x, In x l -> G x) -> 
  wp (eval_form fuel ev v l addr env was) (ok2 P s0) s.
Proof.
  intros H NE NV K. unfold eval_form. destruct l as [|x t].
  - apply wp_bind. eapply (r_pops0 D false P s0 [env; v]); [exact H|]. intros s1 H1. apply wp_bind. apply (r_new_error D false P s0 _ _ _ _ H1). intros r s2 H2. apply wp_ret.
    eapply at_weaken; [exact H2|]. cbn. intros y [= <-]. eqg H2.
  - apply wp_bind. eapply (r_use D false false P s0 [env; v] _ _ (fun o r => o = Some r)); [exact H| |auto|].
    { apply EV; [apply H|inc H; apply K; now left|eapply at_good; [exact H|has|auto]|]. intros _. left. rewrite (a_stack _ _ _ _ _ _ _ H). now left. }
    clear H K. intros o s1 H. destruct o as [f|].
    2:{ apply wp_bind. eapply (r_pops0 D false P s0 [env; v]); [exact H|]. intros s2 H2. apply wp_ret. eapply at_weaken; [exact H2|discriminate]. }
    assert (NF : ~ In f P) by (apply (a_good _ _ _ _ _ _ _ H); reflexivity).
    apply wp_bind, (r_push D false P s0 f [env; v] _ _ _ H); [has|]. clear H s s1. intros s H.
    apply wp_bind, wp_get; [eapply at_live; [exact H|has]|]. intros c L.
    apply wp_bind. apply (wp_mono D _ (fun (o : option ref * bool) s' => At false P s0 [f; env; v] (fun r => fst o = Some r) s')).
    + assert (IV : In v (stack s)) by (rewrite (a_stack _ _ _ _ _ _ _ H); cbn; auto). assert (IE : In env (stack s)) by (rewrite (a_stack _ _ _ _ _ _ _ H); cbn; auto).
      assert (IF : In f (stack s)) by (rewrite (a_stack _ _ _ _ _ _ _ H); cbn; auto). pose proof (a_inv _ _ _ _ _ _ _ H) as A.
      assert (R1 : forall m : M ref, wp m (fun r s' => At false P s [] (eq r) s') s -> wp (r <- m ;; ret (Some r, was)) (fun (o : option ref * bool) s' => At false P s0 [f; env; v] (fun r => fst o = Some r) s') s).
      { intros m W. apply wp_bind. eapply wp_mono; [exact W|]. intros r s' H'. apply wp_ret. pose proof (at_call D _ _ _ _ _ _ _ _ _ H H' (fun e => e)) as H2. eapply at_weaken; [exact H2|]. cbn. intros y [= <-]. eqg H2. }
      assert (R2 : forall (m : M (option ref)) b, wp m (fun o s' => At false P s [] (fun r => o = Some r) s') s -> wp (r <- m ;; ret (r, b)) (fun (o : option ref * bool) s' => At false P s0 [f; env; v] (fun r => fst o = Some r) s') s).
      { intros m b W. apply wp_bind. eapply wp_mono; [exact W|]. intros r s' H'. apply wp_ret. exact (at_call D _ _ _ _ _ _ _ _ _ H H' (fun e => e)). }
      destruct (cdata c) eqn:EC; try (apply R1; eapply out_error; exact (at_start D false P s A)).
      * apply R2. apply call_function_ok; auto.
      * apply R2. apply call_function_ok; auto.
      * apply R1. apply call_special_ok; auto. intros ED. rewrite <- EC. exact (proj1 (i_tame _ _ _ A ED f c L)).
      * apply R1. apply call_builtin_ok; auto.
    + clear H L s. intros o s H. cbv beta in H. apply wp_bind. eapply (r_pops0 D false P s0 [f; env; v]); [exact H|]. intros s1 H1. apply wp_ret. eapply at_weaken; [exact H1|]. intros y J. inc H1.
Qed.
Lemma eval_impl_ok P s v env was : Inv P s -> good P s v -> good P s env -> wp (eval_impl fuel ev v env was) (ok2 P s) s.
Proof.
  intros A GV GE. unfold eval_impl. pose proof (at_start D false P s A) as H. apply wp_bind, wp_read. destruct (quit s).
  { apply wp_bind. apply (r_alloc D false P s _ [] _ _ _ H); [easy|easy|]. intros r s1 H1 _ _. apply wp_ret. eapply at_weaken; [exact H1|]. cbn. intros y [= <-]. eqg H1. }
  apply wp_bind, wp_get; [apply GE|]. intros ce Le. destruct (cdata ce); try apply wp_abort. clear Le.
  assert (HV : At false P s [] (fun x => x = v \/ x = env) s) by (eapply at_weaken; [exact H|intros x [->| ->]; auto]). clear H.
  assert (NV : ~ In v P) by apply GV. assert (NE : ~ In env P) by apply GE.
  apply wp_bind, (r_push_all D false P s v [] _ _ _ HV); [has|]. clear HV. intros s1 H _. apply wp_bind, (r_push_all D false P s env [v] _ _ _ H); [has|]. clear H. intros s1' H _. clear s1. rename s1' into s1.
  apply wp_bind, wp_get_cell; [apply (a_good _ _ _ _ _ _ _ H); now left|]. intros c L.
  assert (SELF : wp (pops [env; v] ;;; ret (Some v, was)) (ok2 P s) s1).
  { apply wp_bind. eapply (r_pops0 D false P s [env; v]); [exact H|]. intros s2 H2. apply wp_ret. eapply at_weaken; [exact H2|]. cbn. intros y [= <-]. inc H2. }
  assert (ERR : wp (r <- new_error ;; pops [env; v] ;;; ret (Some r, was)) (ok2 P s) s1).
  { apply wp_bind. apply (r_new_error D false P s _ _ _ _ H). intros r s2 H2. apply wp_bind. eapply (r_pops0 D false P s [env; v]); [exact H2|]. intros s3 H3. apply wp_ret. eapply at_weaken; [exact H3|]. cbn. intros y [= <-]. inc H3. }
  destruct (cdata c) eqn:E; try exact SELF; try exact ERR; clear SELF ERR.
  - apply wp_bind. eapply r_env_get; [exact H|apply (a_good _ _ _ _ _ _ _ H); now right|]. intros o GO. apply wp_bind. apply (wp_mono D _ (fun r s' => At false P s [env; v] (eq r) s')).
    + destruct o as [r|]; [apply wp_ret; eapply at_weaken; [exact H|intros y <-; now apply GO]|]. apply (r_new_error D false P s _ _ _ _ H). auto.
    + intros r s2 H2. apply wp_bind. eapply (r_pops0 D false P s [env; v]); [exact H2|]. intros s3 H3. apply wp_ret. eapply at_weaken; [exact H3|]. cbn. intros y [= <-]. inc H3.
  - eapply (eval_form_ok P s v l (caddr c) env was (fun x => In x l)); [|exact NE|exact NV|auto]. eapply at_weaken; [exact H|]. intros x J. eapply at_dref; [exact H|exact L|now rewrite E].
Qed.
Lemma eval_loop_ok P env : forall f s v was, Inv P s -> good P s v -> good P s env -> (D = false -> kept P s env) ->
  wp (eval_loop f fuel ev v env was) (fun o s' => At false P s [] (fun r => o = Some r) s') s.
Proof.
  induction f as [|f IH]; intros s v was A GV GE KE; cbn [eval_loop]; [apply wp_nofuel|].
  apply wp_bind. eapply wp_mono; [apply eval_impl_ok; eauto|]. intros [o w] s1 H. unfold ok2 in H. cbn [fst] in H. destruct (negb w); [apply wp_ret; exact H|].
  apply wp_bind, wp_need. intros r ->. apply wp_bind, wp_get; [apply (a_good _ _ _ _ _ _ _ H); reflexivity|]. intros c L.
  assert (NR : ~ In r P) by (apply (a_good _ _ _ _ _ _ _ H); reflexivity).
  assert (KEEP : wp (ret (Some r)) (fun o s' => At false P s [] (fun r => o = Some r) s') s1) by (apply wp_ret; exact H).
  destruct (cdata c) eqn:E; try exact KEEP. destruct l as [|x t]; [exact KEEP|]. clear KEEP.
  assert (H2 : At false P s [] (fun y => y = r \/ y = x) s1).
  { eapply at_weaken; [exact H|]. intros y [->| ->]; [eqg H|]. eapply at_dref; [exact H|exact L|rewrite E; now left]. }
  apply wp_bind, (r_push D false P s r [] _ _ _ H2); [has|]. clear H H2 L. intros s2 H.
  apply wp_bind. eapply wp_mono; [apply eval_impl_ok; [apply H|inc H|eapply good_later; [exact H|exact GE|exact KE]]|]. intros [o w'] s3 H3. unfold ok2 in H3. cbn [fst] in H3.
  pose proof (at_call D _ _ _ _ _ _ _ _ _ H H3 (fun e => e)) as H4. clear H H3. apply wp_bind, wp_need. intros op ->.
  apply wp_bind, (r_pop D false P s r [] _ _ _ H4). clear H4. intros s4 H. apply wp_bind, wp_get; [apply (a_good _ _ _ _ _ _ _ H); now right|]. intros co Lo.
  assert (KEEP : wp (ret (Some r)) (fun o s' => At false P s [] (fun r => o = Some r) s') s4) by (apply wp_ret; eapply at_weaken; [exact H|]; intros y [= <-]; inc H).
  destruct (cdata co); try exact KEEP. eapply wp_mono; [apply IH; [apply H|inc H|eapply good_later; [exact H|exact GE|exact KE]|intros ED; eapply kept_later; [exact H|auto]]|].
  intros o s5 H5. exact (at_call D _ _ _ _ _ _ _ _ _ H H5 (fun e => e)).
Qed.
End Calls.

(** The evaluator, at every depth. *)
Theorem eval_safe : forall fuel, ev_ok (eval fuel).
Proof.
  induction fuel as [|fuel IH]; intros P s v env A GV GE KE; cbn [eval]; [apply wp_nofuel|]. now apply eval_loop_ok.
Qed.
End Safe.
