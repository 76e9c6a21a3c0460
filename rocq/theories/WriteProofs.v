(** The builtins that change their arguments do what SpecWrite.v says. *)
From Coq Require Import NArith ZArith Bool Lia Arith List String Permutation.
From Coq Require Import ZifyBool ZifyNat ZifyN.
From Coq Require Import Floats.SpecFloat.
From Verif Require Import Base ListLemmas Vec OString HMap HMapProofs Heap SpecHeap GcProofs VmProofs ValueOps Env Copy ToText Builtins Specials Eval Boot Semver SafeBase SafeRead SafeLib SafeBuiltins SafeSpecials SafeEval SpecTrace SpecSpecial SpecForm SpecCall SpecDefine SpecEval SpecPrint SpecBuiltin SpecWrite SpecSeq SpecVec VecProofs TraceProofs SpecialProofs SpecialEval CallProofs CopyProofs DefineProofs PrintProofs BuiltinProofs SpecReal SpecSemver SemverChange TextNumber.
Import ListNotations.
Local Open Scope N_scope.
Local Open Scope list_scope.

Lemma writer_intro p (R : vm -> list ref -> list event -> vm -> ref -> Prop) :
  (forall n m a env xs s c, Inv [a] s -> In env (stack s) -> lookup (all s) a = Some c -> cdata c = DVec xs ->
    wp (builtin_call n (Eval.eval m) p a env) (fun r s' => exists evs, trace (Eval.eval m) (stack s) s evs s' /\ R s xs evs s' r) s) -> writer p R.
Proof.
  intros W n m a env xs s r s' AR E. destruct (arguments_inv _ _ _ _ AR) as (A & GE & IE & c & L & EC).
  exact (wp_ret_inv _ _ _ _ _ (W n m a env xs s c A IE L EC) E).
Qed.
Lemma of_int_eq z : of_int z = sf_of_Z z. Proof. destruct z; reflexivity. Qed.
Lemma int32_fits z z' : int32_op z = Ret z' -> z' = z /\ fits z.
Proof. unfold int32_op, in_int32, INT32_MIN, INT32_MAX, fits. destruct (_ && _)%bool eqn:E; [|discriminate]. intros [= <-]. split; [reflexivity|]. lia. Qed.

Section Write.
Context (ev : evaluator) (P : list ref) (s0 : vm).
Implicit Types (pre : list ref) (G : ref -> Prop) (s : vm) (evs : list event).
Notation Tr := (Tr ev P s0).
Lemma tr_write x d pre G evs (Q : unit -> vm -> Prop) s : Tr pre G evs s -> good P s x -> (forall y, dref d y -> good P s y) ->
  (forall s', Tr pre G (evs ++ [Put x d s s']) s' -> data_at s' x = Some d -> (forall y, y <> x -> lookup (all s') y = lookup (all s) y) -> Q tt s') -> wp (put x d) Q s.
Proof.
  intros H GX GD K.
  assert (W : wp (put x d) (fun _ s' => At false P s0 pre G s' /\ data_at s' x = Some d /\ (forall y, y <> x -> lookup (all s') y = lookup (all s) y)) s).
  { assert (H' : At false P s0 pre (fun y => y = x \/ G y) s) by (apply at_more; [exact (tr_at _ _ _ _ _ _ _ H)|intros y ->; exact GX]).
    apply (r_put true false P s0 x d pre (fun y => y = x \/ G y) _ s H'); [has|split; [apply GX|discriminate]|exact GD|discriminate|discriminate|].
    intros s' A (c & L & E) O. split; [eapply at_weaken; [exact A|intros y J; apply (a_good _ _ _ _ _ _ _ A); auto]|]. split; [|exact O]. unfold data_at. rewrite L. cbn. now rewrite E. }
  apply wp_record in W. eapply wp_mono; [exact W|]. intros [] s' ((A & D & O) & E). apply K; auto. split; [exact A|].
  exact (trace_snoc ev _ _ _ (Put x d s s') (tr_tr _ _ _ _ _ _ _ H) E).
Qed.
Lemma tr_complain pre G evs (Q : ref -> vm -> Prop) s : Tr pre G evs s -> (forall r s', trace ev (stack s0) s0 evs s' -> complains s0 s' r -> Q r s') -> wp new_error Q s.
Proof.
  intros H K. pose proof (a_inv _ _ _ _ _ _ _ (tr_at _ _ _ _ _ _ _ H)) as A.
  eapply q_error; [exact (at_start true true P s A)|]. intros r s' A' (d & (M1 & M2) & ED). apply K.
  - eapply trace_after; [exact (tr_tr _ _ _ _ _ _ _ H)|]. eapply keeps_incl; [exact (tr_base _ _ _ _ _ _ _ H)|]. eapply keeps_at; exact A'.
  - exists d. split; [split; [|exact M2]|exact ED]. pose proof (a_next _ _ _ _ _ _ _ (tr_at _ _ _ _ _ _ _ H)). lia.
Qed.
End Write.

Section WArgs.
Context (ev : evaluator) (a : ref) (s0 : vm) (c : cell) (xs : list ref) (A : Inv [a] s0) (L : lookup (all s0) a = Some c) (E : cdata c = DVec xs).
Notation Tr := (Tr ev [a] s0).
Lemma wargs_good pre G evs s x : Tr pre G evs s -> In x xs -> good [a] s x.
Proof. intros H J. eapply (arg_good true [a] a s0 c xs); [now left|exact L|exact E|exact (tr_at _ _ _ _ _ _ _ H)|exact J]. Qed.
Lemma wstart : Tr [] (fun _ => False) [] s0. Proof. now apply tr_start. Qed.
Lemma wfinal pre G evs s : Tr pre G evs s -> trace ev (stack s0) s0 evs s. Proof. apply tr_tr. Qed.
Lemma last_snoc (e : event) evs : last_after s0 (evs ++ [e]) = after e.
Proof. unfold last_after. rewrite map_app. cbn [map]. apply List.last_last. Qed.
Lemma changed_snoc step l evs x d d' s s' : changed step l evs -> data_at s x = Some d -> step d d' -> changed step (l ++ [x]) (evs ++ [Put x d' s s']).
Proof. intros C D S. induction C as [|y l e e' t t' evs D1 S1 C IH]; cbn [app]; [eapply ch_next; eauto; constructor|eapply ch_next; eauto]. Qed.
(** The state of a loop over the arguments: [done] has been changed. *)
Definition going (step : data -> data -> Prop) done evs s : Prop := Tr [] (fun _ => False) evs s /\ changed step done evs /\ last_after s0 evs = s.
Definition each_post step ready (r : ref) (s' : vm) : Prop := exists evs, trace ev (stack s0) s0 evs s' /\ each_result step ready s0 xs evs s' r.
Lemma go_step step done x t d d' evs s (Q : unit -> vm -> Prop) : going step done evs s -> xs = done ++ x :: t -> data_at s x = Some d -> step d d' -> (forall y, dref d' y -> dref d y) ->
  (forall evs' s', going step (done ++ [x]) evs' s' -> Q tt s') -> wp (put x d') Q s.
Proof.
  intros (H & C & LA) EX D S DR K. assert (J : In x xs) by (rewrite EX; apply in_or_app; right; now left).
  eapply tr_write; [exact H|eapply wargs_good; eauto| |].
  - intros y R. apply DR in R. unfold data_at in D. destruct (lookup (all s) x) as [cx|] eqn:LX; [|discriminate]. injection D as <-. eapply at_dref; [exact (tr_at _ _ _ _ _ _ _ H)|exact LX|exact R].
  - intros s' H' D' _. apply (K (evs ++ [Put x d' s s'])). split; [exact H'|]. split; [eapply changed_snoc; eauto|]. now rewrite last_snoc.
Qed.
Lemma go_error step ready done x t d evs s : going step done evs s -> xs = done ++ x :: t -> data_at s x = Some d -> ~ ready d -> wp new_error (each_post step ready) s.
Proof.
  intros (H & C & LA) EX D NR. eapply tr_complain; [exact H|]. intros r s' T CO. exists evs. split; [exact T|]. right. right. exists done, x, t, d. rewrite LA. auto.
Qed.
Lemma go_end step ready done evs s last : going step done evs s -> xs = done -> (exists l, xs = l ++ [last]) -> wp (ret last) (each_post step ready) s.
Proof. intros (H & C & LA) EX EL. apply wp_ret. exists evs. split; [exact (tr_tr _ _ _ _ _ _ _ H)|]. right. left. rewrite EX in EL |- *. auto. Qed.
Lemma incr_spec : forall t done last evs s, going incremented done evs s -> xs = done ++ t -> (t = [] -> exists l, xs = l ++ [last]) ->
  wp (incr_each t last) (each_post incremented is_number) s.
Proof.
  induction t as [|x t IH]; intros done last evs s H EX EL; cbn [incr_each].
  - rewrite app_nil_r in EX. eapply go_end; eauto.
  - assert (EX' : xs = (done ++ [x]) ++ t) by (rewrite <- app_assoc; exact EX).
    assert (EL' : t = [] -> exists l, xs = l ++ [x]) by (intros ->; exists done; exact EX).
    apply wp_bind, t_get. intros d D. destruct d; try (eapply go_error; [exact H|exact EX|exact D|intros [F|F]; exact F]).
    + apply wp_bind, wp_lift; [discriminate|]. intros z' EZ. apply int32_fits in EZ as (-> & F). apply wp_bind. eapply go_step; [exact H|exact EX|exact D|now constructor|easy|]. intros evs' s' H'. eapply IH; eauto.
    + apply wp_bind. eapply go_step; [exact H|exact EX|exact D|apply inc_real|easy|]. intros evs' s' H'. eapply IH; eauto.
Qed.
Lemma removelast_eq {X} (l : list X) : l <> [] -> exists x, l = removelast l ++ [x].
Proof. intros N. destruct (exists_last N) as (q & x & ->). exists x. now rewrite removelast_last. Qed.
Lemma decr_spec : forall t done last evs s, going decremented done evs s -> xs = done ++ t -> (t = [] -> exists l, xs = l ++ [last]) ->
  wp (decr_each t last) (each_post decremented removable) s.
Proof.
  induction t as [|x t IH]; intros done last evs s H EX EL; cbn [decr_each].
  - rewrite app_nil_r in EX. eapply go_end; eauto.
  - assert (EX' : xs = (done ++ [x]) ++ t) by (rewrite <- app_assoc; exact EX).
    assert (EL' : t = [] -> exists l, xs = l ++ [x]) by (intros ->; exists done; exact EX).
    assert (GO : forall d d', data_at s x = Some d -> decremented d d' -> (forall y, dref d' y -> dref d y) -> wp (put x d' ;;; decr_each t x) (each_post decremented removable) s).
    { intros d d' D S R. apply wp_bind. eapply go_step; [exact H|exact EX|exact D|exact S|exact R|]. intros evs' s' H'. eapply IH; eauto. }
    apply wp_bind, t_get. intros d D. destruct d as [ | |z|f|q| | | |q| |q max|q| | | | | |]; try (eapply go_error; [exact H|exact EX|exact D|intros F; exact F]).
    + apply wp_bind, wp_lift; [discriminate|]. intros z' EZ. apply int32_fits in EZ as (-> & F). apply (GO _ _ D); [now constructor|easy].
    + apply (GO _ _ D); [apply dec_real|easy].
    + destruct q as [|y q]; [eapply go_error; [exact H|exact EX|exact D|]; intros F; now apply F|]. apply (GO _ _ D); [|easy]. destruct (removelast_eq (y :: q)) as (z & EZ); [discriminate|]. rewrite EZ at 1. apply dec_string.
    + destruct q as [|y q]; [eapply go_error; [exact H|exact EX|exact D|]; intros F; now apply F|]. apply (GO _ _ D); [|intros z; apply in_removelast]. destruct (removelast_eq (y :: q)) as (z & EZ); [discriminate|]. rewrite EZ at 1. apply dec_vector.
    + apply (GO _ _ D); [destruct q; constructor|intros z; apply in_tl].
    + apply (GO _ _ D); [|intros z; apply in_removelast]. destruct q as [|y q]; [constructor|]. destruct (removelast_eq (y :: q)) as (z & EZ); [discriminate|]. rewrite EZ at 1. apply dec_list.
Qed.
End WArgs.
Lemma incr_writer : writer BiIncr (each_result incremented is_number).
Proof.
  apply writer_intro. intros n m a env xs s c A IE L E. cbn [builtin_call]. unfold b_incr. apply wp_bind. eapply args_vec; [exact L|exact E|exact (args_start a s A)|].
  destruct xs as [|x t].
  - eapply tr_complain; [exact (tr_start (Eval.eval m) [a] s A)|]. intros r s' T C. exists []. split; [exact T|]. now left.
  - eapply (incr_spec (Eval.eval m) a s c (x :: t) L E (x :: t) []); [|reflexivity|discriminate]. split; [now apply tr_start|]. split; [constructor|reflexivity].
Qed.
Lemma decr_writer : writer BiDecr (each_result decremented removable).
Proof.
  apply writer_intro. intros n m a env xs s c A IE L E. cbn [builtin_call]. unfold b_decr. apply wp_bind. eapply args_vec; [exact L|exact E|exact (args_start a s A)|].
  destruct xs as [|x t].
  - eapply tr_complain; [exact (tr_start (Eval.eval m) [a] s A)|]. intros r s' T C. exists []. split; [exact T|]. now left.
  - eapply (decr_spec (Eval.eval m) a s c (x :: t) L E (x :: t) []); [|reflexivity|discriminate]. split; [now apply tr_start|]. split; [constructor|reflexivity].
Qed.

(** ** pop-back, pop-front *)
Section Pop.
Context (ev : evaluator) (a : ref) (s0 : vm) (c : cell) (x : ref) (A : Inv [a] s0) (L : lookup (all s0) a = Some c) (E : cdata c = DVec [x]).
Context (step : data -> data -> Prop) (ready : data -> Prop).
Definition pop_done (r : ref) (s' : vm) : Prop := exists evs, trace ev (stack s0) s0 evs s' /\ pop_result step ready s0 [x] evs s' r.
Lemma pop_put d d' : data_at s0 x = Some d -> ready d -> step d d' -> (forall y, dref d' y -> dref d y) -> wp (put x d' ;;; ret x) pop_done s0.
Proof.
  intros D R S DR. apply wp_bind. eapply tr_write; [exact (tr_start ev [a] s0 A)|eapply (wargs_good ev a s0 c [x] L E); [now apply tr_start|now left]| |].
  - intros y J. apply DR in J. unfold data_at in D. destruct (lookup (all s0) x) as [cx|] eqn:LX; [|discriminate]. injection D as <-. eapply (good_dref true); [exact A|exact LX|exact J].
  - intros s' H _ _. apply wp_ret. eexists. split; [exact (tr_tr _ _ _ _ _ _ _ H)|]. left. eexists x, d, d', _, _. split; [reflexivity|]. split; [exact D|]. split; [exact R|]. split; [exact S|]. split; reflexivity.
Qed.
Lemma pop_err d : data_at s0 x = Some d -> is_err d -> wp (ret x) pop_done s0.
Proof. intros D R. apply wp_ret. exists []. split; [apply t_done, keeps_refl|]. right. left. eauto 8. Qed.
Lemma pop_no d : data_at s0 x = Some d -> ~ ready d -> ~ is_err d -> wp new_error pop_done s0.
Proof.
  intros D R R'. eapply tr_complain; [exact (tr_start ev [a] s0 A)|]. intros r s' T C. exists []. split; [exact T|]. right. right. split; [reflexivity|]. split; [exact C|].
  intros y e [= <-] D'. rewrite D in D'. injection D' as <-. auto.
Qed.
End Pop.
Lemma pop_arity ev a s step ready xs : Inv [a] s -> (forall x, xs <> [x]) -> wp new_error (fun r s' => exists evs, trace ev (stack s) s evs s' /\ pop_result step ready s xs evs s' r) s.
Proof.
  intros A N. eapply tr_complain; [exact (tr_start ev [a] s A)|]. intros r s' T C. exists []. split; [exact T|]. right. right. split; [reflexivity|]. split; [exact C|].
  intros x d EX. now elim (N x).
Qed.
Lemma pop_back_writer : writer BiPopBack (pop_result popped_back can_pop_back).
Proof.
  apply writer_intro. intros n m a env xs s c A IE L E. cbn [builtin_call]. unfold b_pop_back. apply wp_bind. eapply args_vec; [exact L|exact E|exact (args_start a s A)|].
  destruct xs as [|x [|]]; try (eapply pop_arity; [exact A|discriminate]). apply wp_bind, t_get. intros d D. fold (pop_done (Eval.eval m) s x popped_back can_pop_back).
  destruct d as [ | |z|f|q| | | |q| |q max|q| | | | | |dv]; try apply wp_unmodelled; try (eapply pop_no; [exact A|exact D|easy|easy]); try (eapply pop_err; [exact D|easy]).
  - eapply pop_put; [exact A|exact L|exact E|exact D|exact I| |easy]. destruct q as [|y q]; [constructor|]. destruct (removelast_eq (y :: q)) as (z & EZ); [discriminate|]. rewrite EZ at 1. constructor.
  - eapply pop_put; [exact A|exact L|exact E|exact D|exact I| |intros z; apply in_removelast]. destruct q as [|y q]; [constructor|]. destruct (removelast_eq (y :: q)) as (z & EZ); [discriminate|]. rewrite EZ at 1. constructor.
  - eapply pop_put; [exact A|exact L|exact E|exact D|exact I| |intros z; apply in_tl]. destruct q; constructor.
  - eapply pop_put; [exact A|exact L|exact E|exact D|exact I| |intros z; apply in_removelast]. destruct q as [|y q]; [constructor|]. destruct (removelast_eq (y :: q)) as (z & EZ); [discriminate|]. rewrite EZ at 1. constructor.
  - eapply pop_put; [exact A|exact L|exact E|exact D|exact I| |easy]. destruct dv as [va vb vc [|i p] [|b bs]]; unfold version_pop; cbn [major minor patch pre build removelast].
    + apply pb_version.
    + destruct (removelast_eq (b :: bs)) as (z & EZ); [discriminate|]. rewrite EZ at 1. apply pb_build.
    + destruct (removelast_eq (i :: p)) as (z & EZ); [discriminate|]. rewrite EZ at 1. apply pb_pre.
    + destruct (removelast_eq (b :: bs)) as (z & EZ); [discriminate|]. rewrite EZ at 1. apply pb_build.
Qed.
Lemma pop_front_writer : writer BiPopFront (pop_result popped_front can_pop_front).
Proof.
  apply writer_intro. intros n m a env xs s c A IE L E. cbn [builtin_call]. unfold b_pop_front. apply wp_bind. eapply args_vec; [exact L|exact E|exact (args_start a s A)|].
  destruct xs as [|x [|]]; try (eapply pop_arity; [exact A|discriminate]). apply wp_bind, t_get. intros d D. fold (pop_done (Eval.eval m) s x popped_front can_pop_front).
  destruct d as [ | |z|f|q| | | |q| |q max|q| | | | | |dv]; try apply wp_unmodelled; try (eapply pop_no; [exact A|exact D|easy|easy]); try (eapply pop_err; [exact D|easy]).
  - eapply pop_put; [exact A|exact L|exact E|exact D|exact I| |easy]. destruct q; constructor.
  - eapply pop_put; [exact A|exact L|exact E|exact D|exact I| |intros z; apply in_tl]. destruct q; constructor.
  - eapply pop_put; [exact A|exact L|exact E|exact D|exact I| |intros z; apply in_tl]. destruct q; constructor.
  - eapply pop_put; [exact A|exact L|exact E|exact D|exact I| |easy]. destruct dv as [va vb vc [|i p] [|b bs]]; unfold version_pop; cbn [major minor patch pre build tl]; constructor.
Qed.

(** ** += *)
Section PlusEq.
Context (ev : evaluator) (a : ref) (s0 : vm) (c : cell) (xs : list ref) (A : Inv [a] s0) (L : lookup (all s0) a = Some c) (E : cdata c = DVec xs).
Context (self : ref) (JS : In self xs).
Notation Tr := (Tr ev [a] s0).
(** Only [self] has been changed. *)
Definition upto evs s : Prop := Tr [] (fun _ => False) evs s /\ forall y, y <> self -> lookup (all s) y = lookup (all s0) y.
Lemma upto_put d evs s (Q : unit -> vm -> Prop) : upto evs s -> (forall y, dref d y -> good [a] s y) ->
  (forall s', upto (evs ++ [Put self d s s']) s' -> data_at s' self = Some d -> Q tt s') -> wp (put self d) Q s.
Proof using L E JS.
  intros (H & O) GD K. eapply tr_write; [exact H|eapply wargs_good; eauto|exact GD|]. intros s' H' D O'. apply K; [|exact D]. split; [exact H'|]. intros y N. rewrite O' by exact N. auto.
Qed.
Lemma upto_data evs s x d e : upto evs s -> data_at s self = Some d -> data_at s x = Some e -> e <> d -> data_at s0 x = Some e.
Proof using. intros (H & O) D D' N. unfold data_at in *. rewrite <- O; [exact D'|]. intros ->. congruence. Qed.
Definition grown (R : list event -> Prop) evs (_ : unit) (s' : vm) : Prop := exists evs', upto (evs ++ evs') s' /\ R evs'.
Lemma grown_none (R : list event -> Prop) evs s : upto evs s -> R [] -> grown R evs tt s.
Proof using. intros H K. exists []. rewrite app_nil_r. auto. Qed.
Lemma grown_all step other (f : ref -> M unit) : (forall x evs s, upto evs s -> wp (f x) (grown (added step other s0 self x) evs) s) ->
  forall l evs s, upto evs s -> wp (iterM f l) (grown (added_all step other s0 self l) evs) s.
Proof using.
  intros F. induction l as [|x l IH]; intros evs s H; cbn [iterM]; [apply wp_ret, grown_none; [exact H|constructor]|].
  apply wp_bind. eapply wp_mono; [apply F; exact H|]. intros [] s1 (evs1 & H1 & K1). eapply wp_mono; [apply IH; exact H1|]. intros [] s2 (evs2 & H2 & K2).
  exists (evs1 ++ evs2). rewrite app_assoc. split; [exact H2|]. now constructor.
Qed.
Ltac skipped_text H D D' ET := apply wp_ret, grown_none; [exact H|]; eapply add_skipped; [eapply (upto_data _ _ _ _ _ H D D'); discriminate|intros F; exact F|intros ? ? F; inversion F; subst; contradiction|intros ? ? ? F; exact F].
Ltac skipped H D D' := apply wp_ret, grown_none; [exact H|]; eapply add_skipped; [eapply (upto_data _ _ _ _ _ H D D'); discriminate|intros F; exact F|intros ? ? F; inversion F|intros ? ? ? F; exact F].
Lemma integer_add_spec : forall f x evs s, upto evs s -> wp (integer_add f self x) (grown (added sum skip s0 self x) evs) s.
Proof using L E JS.
  induction f as [|f IH]; intros x evs s H; cbn [integer_add]; [apply wp_nofuel|].
  apply wp_bind, t_get. intros d D. apply wp_bind, t_get. intros e D'. destruct d; try apply wp_abort.
  destruct e as [ | |y|y|y| | | |l| | | | | | | | |]; try apply wp_unmodelled; try (skipped H D D').
  - apply wp_bind, wp_lift; [discriminate|]. intros w EZ. apply int32_fits in EZ as (-> & F). eapply upto_put; [exact H|easy|]. intros s' H' _. eexists. split; [exact H'|]. eapply add_value; [exact D|exact D'|now constructor].
  - eapply upto_put; [exact H|easy|]. intros s' H' _. eexists. split; [exact H'|]. eapply add_value; [exact D|exact D'|]. rewrite <- of_int_eq. constructor.
  - apply wp_bind, wp_lift; [discriminate|]. intros o EO. apply text_number_spec in EO. destruct o as [i|]; [|skipped_text H D D' EO]. destruct EO as (i' & NU & LI & ->).
    apply wp_bind, wp_lift; [discriminate|]. intros w EZ. apply long_op_cut in EZ as (LO & CU). eapply upto_put; [exact H|easy|]. intros s' H' _. eexists. split; [exact H'|]. eapply add_value; [exact D|exact D'|]. eapply sum_text; eauto.
  - assert (D0 : data_at s0 x = Some (DVec l)) by (eapply (upto_data _ _ _ _ _ H D D'); discriminate).
    eapply wp_mono; [apply (grown_all sum skip _ IH l evs s H)|]. intros [] s' (evs' & H' & K). exists evs'. split; [exact H'|]. eapply add_vector; eauto.
Qed.
Lemma real_add_spec : forall f x evs s, upto evs s -> wp (real_add f self x) (grown (added sum skip s0 self x) evs) s.
Proof using L E JS.
  induction f as [|f IH]; intros x evs s H; cbn [real_add]; [apply wp_nofuel|].
  apply wp_bind, t_get. intros d D. apply wp_bind, t_get. intros e D'. destruct d; try apply wp_abort.
  destruct e as [ | |y|y|y| | | |l| | | | | | | | |]; try apply wp_unmodelled; try (skipped H D D').
  - eapply upto_put; [exact H|easy|]. intros s' H' _. eexists. split; [exact H'|]. eapply add_value; [exact D|exact D'|]. rewrite <- of_int_eq. constructor.
  - eapply upto_put; [exact H|easy|]. intros s' H' _. eexists. split; [exact H'|]. eapply add_value; [exact D|exact D'|]. constructor.
  - apply wp_bind, wp_lift; [discriminate|]. intros o EO. apply text_number_spec in EO. destruct o as [i|]; [|skipped_text H D D' EO]. destruct EO as (i' & NU & LI & ->).
    eapply upto_put; [exact H|easy|]. intros s' H' _. eexists. split; [exact H'|]. eapply add_value; [exact D|exact D'|]. rewrite <- of_int_eq. eapply sum_real_text; eauto.
  - assert (D0 : data_at s0 x = Some (DVec l)) by (eapply (upto_data _ _ _ _ _ H D D'); discriminate).
    eapply wp_mono; [apply (grown_all sum skip _ IH l evs s H)|]. intros [] s' (evs' & H' & K). exists evs'. split; [exact H'|]. eapply add_vector; eauto.
Qed.
Lemma code_shift_spec t z (f : Z -> Z) (Q : text -> vm -> Prop) s : (forall c, f c = c + z)%Z -> (forall u, shifted t z u -> Q u s) -> wp (code_shift t f) Q s.
Proof using.
  intros F K. unfold code_shift. destruct t as [|b t]; [apply wp_abort|]. apply wp_bind, wp_lift; [discriminate|]. intros w EW. apply int32_fits in EW as (-> & _). apply wp_ret, K. exists b, t. eexists. split; [reflexivity|]. split; [reflexivity|].
  destruct (mod_cut (f (wrap32 (Z.of_N b)))) as (B & k & EK). destruct (wrap_cut (Z.of_N b)) as (_ & k' & EK'). rewrite F in EK, B |- *. split; [exact B|]. exists (k + k')%Z. lia.
Qed.
Lemma raises_spec : forall t evs s, upto evs s -> wp (iterM (fun y => version_change true self y ;;; ret tt) t) (grown (raises s0 self t) evs) s.
Proof using L E JS.
  induction t as [|y t IH]; intros evs s H; cbn [iterM]; [apply wp_ret, grown_none; [exact H|constructor]|].
  apply wp_bind, wp_bind. unfold version_change at 1. apply wp_bind, t_get. intros d D. apply wp_bind, t_get. intros e D'. destruct d as [ | | | | | | | | | | | | | | | | |v]; try apply wp_abort.
  assert (SK : (forall w, e <> DSemver w) -> wp (ret false) (fun _ s' => wp (ret tt) (fun _ s'0 => wp (iterM (fun y0 => version_change true self y0 ;;; ret tt) t) (grown (raises s0 self (y :: t)) evs) s'0) s') s).
  { intros N. apply wp_ret, wp_ret. eapply wp_mono; [apply (IH evs s H)|]. intros [] s' (evs' & H' & K). exists evs'. split; [exact H'|]. eapply raise_skip; [eapply (upto_data _ _ _ _ _ H D D'); apply N|exact N|exact K]. }
  destruct e as [ | | | | | | | | | | | | | | | | |w]; try (apply SK; intros; discriminate). destruct (N.eqb_spec self y) as [<-|NS].
  { assert (w = v) by congruence. subst w. cbv zeta. assert (GO : forall v' ok, version_changed true v v v' ok ->
      wp (put self (DSemver v') ;;; ret ok) (fun _ s' => wp (ret tt) (fun _ s'0 => wp (iterM (fun y0 => version_change true self y0 ;;; ret tt) t) (grown (raises s0 self (self :: t)) evs) s'0) s') s).
    { intros v' ok VC. apply wp_bind. eapply upto_put; [exact H|easy|]. intros s1 H1 D1. apply wp_ret, wp_ret. eapply wp_mono; [apply (IH _ s1 H1)|]. intros [] s2 (evs2 & H2 & K2). rewrite <- app_assoc in H2. eexists. split; [exact H2|]. eapply raise_next; eauto. }
    pose proof (self_refused true v) as RF. pose proof (self_added v) as AD. cbv zeta in RF, AD. destruct (semver_add_or_subtract v _ true) as (v' & ok). cbn [fst snd] in *. destruct ok; cbn [negb].
    - destruct (pre v); [|apply wp_nofuel]. apply GO. now apply AD.
    - apply GO. now apply RF. }
  pose proof (semver_changed true v w) as VC. cbv zeta in VC |- *. destruct (semver_add_or_subtract v w true) as (v' & ok). cbn [fst snd] in *.
  apply wp_bind. eapply upto_put; [exact H|easy|]. intros s1 H1 D1. apply wp_ret, wp_ret. eapply wp_mono; [apply (IH _ s1 H1)|]. intros [] s2 (evs2 & H2 & K2). rewrite <- app_assoc in H2. eexists. split; [exact H2|]. eapply raise_next; eauto.
Qed.
Lemma push_printed f x t e evs s : upto evs s -> data_at s self = Some (DStr t) -> data_at s x = Some e -> ~ is_text e -> ~ is_vec e ->
  wp (rd <- read readably ;; u <- heap_op (fun h => to_text rd false f h x) ;; put self (DStr (t ++ u))) (grown (added joined prints s0 self x) evs) s.
Proof using L E JS.
  intros H D D' NT NV. apply wp_bind, wp_read. apply wp_bind, wp_heap; [discriminate|]. intros u EU. eapply upto_put; [exact H|easy|]. intros s' H' _. eexists. split; [exact H'|].
  eapply add_other; [exact D|]. exists t, e, u. repeat split; auto. eapply to_text_shown; exact EU.
Qed.
Ltac printed H D D' := eapply push_printed; [exact H|exact D|exact D'|intros F; exact F|intros F; exact F].
Lemma string_push_spec : forall f x evs s, upto evs s -> wp (string_push f self x) (grown (added joined prints s0 self x) evs) s.
Proof using L E JS.
  induction f as [|f IH]; intros x evs s H; cbn [string_push]; [apply wp_nofuel|].
  apply wp_bind, t_get. intros d D. apply wp_bind, t_get. intros e D'. destruct d; try apply wp_abort.
  destruct e as [ | |y|y|y|y|y| |l| | | | | | | | |]; try apply wp_unmodelled; try (printed H D D').
  - destruct (self =? x); [apply wp_undef|]. eapply upto_put; [exact H|easy|]. intros s' H' _. eexists. split; [exact H'|]. eapply add_value; [exact D|exact D'|]. constructor.
  - eapply upto_put; [exact H|easy|]. intros s' H' _. eexists. split; [exact H'|]. eapply add_value; [exact D|exact D'|]. constructor.
  - eapply upto_put; [exact H|easy|]. intros s' H' _. eexists. split; [exact H'|]. eapply add_value; [exact D|exact D'|]. constructor.
  - assert (D0 : data_at s0 x = Some (DVec l)) by (eapply (upto_data _ _ _ _ _ H D D'); discriminate).
    eapply wp_mono; [apply (grown_all joined prints _ IH l evs s H)|]. intros [] s' (evs' & H' & K). exists evs'. split; [exact H'|]. eapply add_vector; eauto.
Qed.
Lemma dref_good d evs s y : upto evs s -> data_at s self = Some d -> dref d y -> good [a] s y.
Proof using. intros (H & _) D R. unfold data_at in D. destruct (lookup (all s) self) as [cx|] eqn:LX; [|discriminate]. injection D as <-. eapply at_dref; [exact (tr_at _ _ _ _ _ _ _ H)|exact LX|exact R]. Qed.
Lemma share_spec : forall t evs s, incl t xs -> upto evs s -> wp (iterM (vec_push self) t) (grown (shares self t) evs) s.
Proof using L E JS.
  induction t as [|x t IH]; intros evs s IT H; cbn [iterM]; [apply wp_ret, grown_none; [exact H|constructor]|].
  apply wp_bind. unfold vec_push at 1. apply wp_bind, t_get. intros d D. destruct d; try apply wp_abort. eapply upto_put; [exact H| |].
  - intros y J. cbn in J. apply in_app_or in J as [J|[<-|[]]]; [eapply dref_good; [exact H|exact D|exact J]|]. eapply wargs_good; [exact L|exact E|exact (proj1 H)|apply IT; now left].
  - intros s1 H1 _. eapply wp_mono; [apply IH; [intros z J; apply IT; now right|exact H1]|]. intros [] s2 (evs2 & H2 & K2). rewrite <- app_assoc in H2. eexists. split; [exact H2|]. econstructor; eauto.
Qed.
(** Pushing copies. *)
Lemma cur_reach evs s x : Tr [] (fun _ => False) evs s -> In x xs -> reach s x.
Proof using A L E.
  intros H J. destruct (tr_vec _ _ _ _ _ _ _ _ _ _ H (or_introl eq_refl) L E) as (L' & _).
  eapply re_step; [apply re_root; rewrite (a_stack _ _ _ _ _ _ _ (tr_at _ _ _ _ _ _ _ H)); apply (i_priv _ _ _ A); now left|exact L'|]. apply refers_iff. right. now rewrite E.
Qed.
Lemma push_spec n : forall t evs s, incl t xs -> Tr [] (fun _ => False) evs s -> (exists d, data_at s self = Some d /\ match d with DList _ | DQueue _ _ => True | _ => False end) ->
  wp (iterM (seq_push_atom n self) t) (fun _ s' => exists evs', Tr [] (fun _ => False) (evs ++ evs') s' /\ pushes self s t evs') s.
Proof using A L E JS.
  induction t as [|x t IH]; intros evs s IT H KS; cbn [iterM]; [apply wp_ret; exists []; rewrite app_nil_r; split; [exact H|constructor]|].
  assert (JX : In x xs) by (apply IT; now left).
  apply wp_bind. unfold seq_push_atom at 1. apply wp_bind. pose proof (a_inv _ _ _ _ _ _ _ (tr_at _ _ _ _ _ _ _ H)) as AI.
  assert (W : wp (copy_atom n x) (fun w s' => (Tr [] (eq w) evs s' /\ data_at s' self = data_at s self) /\ defined s x w s') s).
  { eapply wp_mono; [eapply copy_atom_new; [exact AI|eapply wargs_good; eauto|eapply cur_reach; eauto]|]. intros w s' (A1 & DF & _). split; [|exact DF]. split; [split|].
    - eapply at_call; [exact (tr_at _ _ _ _ _ _ _ H)|exact A1|auto].
    - eapply trace_after; [exact (tr_tr _ _ _ _ _ _ _ H)|]. eapply keeps_incl; [exact (tr_base _ _ _ _ _ _ _ H)|]. eapply keeps_at; exact A1.
    - eapply q_data; [exact A1|eapply cur_reach; eauto]. }
  eapply wp_mono; [exact W|]. clear W. intros w s1 ((H1 & ES) & DF). destruct KS as (d & DS & KD). rewrite DS in ES.
  assert (GW : good [a] s1 w) by (apply (a_good _ _ _ _ _ _ _ (tr_at _ _ _ _ _ _ _ H1)); reflexivity).
  assert (GS : good [a] s1 self) by (eapply wargs_good; [exact L|exact E|exact H1|exact JS]).
  assert (GD : forall y, dref d y -> good [a] s1 y).
  { intros y R. unfold data_at in ES. destruct (lookup (all s1) self) as [cx|] eqn:LX; [|discriminate]. injection ES as <-. eapply at_dref; [exact (tr_at _ _ _ _ _ _ _ H1)|exact LX|exact R]. }
  assert (GO : forall d', pushed_back d w d' -> (forall y, dref d' y -> dref d y \/ y = w) -> match d' with DList _ | DQueue _ _ => True | _ => False end ->
    wp (put self d') (fun _ s' => wp (iterM (seq_push_atom n self) t) (fun _ s' => exists evs', Tr [] (fun _ => False) (evs ++ evs') s' /\ pushes self s (x :: t) evs') s') s1).
  { intros d' PB DR KD'. eapply tr_write; [exact H1|exact GS| |].
    - intros y R. apply DR in R as [R| ->]; auto.
    - intros s2 H2 D2 _. eapply wp_mono; [apply (IH (evs ++ [Put self d' s1 s2]) s2)|].
      + intros z J. apply IT. now right.
      + eapply tr_weaken; [exact H2|easy].
      + eauto.
      + intros [] s3 (evs3 & H3 & K3). rewrite <- app_assoc in H3. eexists. split; [exact H3|]. econstructor; eauto. }
  unfold seq_push. apply wp_bind, t_get. intros d2 D2. rewrite ES in D2. injection D2 as <-. destruct d; try contradiction.
  - apply GO; [|intros y R; cbn in *; now apply queue_push_in in R|exact I]. unfold queue_push. destruct max; constructor.
  - apply GO; [constructor| |exact I]. intros y R. cbn in *. apply in_app_or in R as [R|[<-|[]]]; auto.
Qed.
(** Maps. *)
Lemma vmap_put_entered n m hk k v s (Q : hmap ref ref -> vm -> Prop) : Inv [a] s ->
  (forall m', (forall x, dref (DMap m') x -> x = k \/ x = v \/ dref (DMap m) x) -> entered s m k v m' -> Q m' s) -> wp (vmap_put n m hk k v) Q s.
Proof using.
  intros AI K. assert (W : wp (vmap_put n m hk k v) (fun m' s' => s' = s /\ (forall x, dref (DMap m') x -> x = k \/ x = v \/ dref (DMap m) x)) s) by (eapply (wp_vmap_put true); [exact AI|discriminate|discriminate|auto]).
  apply wp_record in W. eapply wp_mono; [exact W|]. clear W. intros m' s' ((-> & DR) & EQ). apply K; [exact DR|]. intros (PL & PN) NK.
  unfold vmap_put, vmap_find, heap_op, bind, obind in EQ.
  destruct (find_o (vcompare n (all s)) k (nth (bucket_index hk (List.length (buckets m))) (buckets m) [])) as [o| | | | |] eqn:EF; try discriminate.
  assert (o = None).
  { eapply find_none; [|exact EF]. intros e J. apply NK. apply in_concat. eexists. split; [apply nth_In; now apply bucket_index_lt|exact J]. }
  subst o. unfold lift in EQ. cbn [no_stack fst snd] in EQ. destruct (map_put (fun _ _ : N => false) m hk k v) as [m2| | | | |] eqn:EM; try discriminate. cbn in EQ. injection EQ as <-.
  pose proof (map_put_num m hk k v m2 PL EM PN) as NUM. apply map_put_perm in EM as (PM & LB); [|exact PL].
  assert (LC : List.length (List.concat (buckets m2)) = S (List.length (List.concat (buckets m)))) by (exact (Permutation_length PM)).
  split; [split; [exact LB|rewrite NUM, PN; symmetry; exact LC]|]. split; [|exact NUM]. unfold entries. rewrite PM. reflexivity.
Qed.
Lemma enter_one k v hk n evs s (Q : unit -> vm -> Prop) m : upto evs s -> data_at s self = Some (DMap m) -> good [a] s k -> good [a] s v ->
  (forall m' s', upto (evs ++ [Put self (DMap m') s s']) s' -> data_at s' self = Some (DMap m') -> entered s m k v m' -> Q tt s') ->
  wp (m <- map_of self ;; m' <- vmap_put n m hk k v ;; put self (DMap m')) Q s.
Proof using L E JS.
  intros H D GK GV K. apply wp_bind. unfold map_of. apply wp_bind, t_get. intros d D'. rewrite D in D'. injection D' as <-. apply wp_ret.
  apply wp_bind. apply vmap_put_entered; [exact (a_inv _ _ _ _ _ _ _ (tr_at _ _ _ _ _ _ _ (proj1 H)))|]. intros m' DR EN.
  eapply upto_put; [exact H| |]; [|intros s' H' D'; eapply K; eauto]. intros y R. apply DR in R as [->|[->|R]]; [exact GK|exact GV|]. eapply dref_good; [exact H|exact D|exact R].
Qed.
Lemma upto_good evs s x : upto evs s -> good [a] s0 x -> good [a] s x.
Proof using. intros (H & _) G. eapply (at_later true eq_refl); [exact (tr_at _ _ _ _ _ _ _ H)|exact G]. Qed.
Lemma put_pairs_enters n : forall l kvs evs s m, in_pairs l = Some kvs -> (forall x, In x l -> good [a] s0 x) -> upto evs s -> data_at s self = Some (DMap m) ->
  wp (put_pairs n self l) (fun ok s' => ok = true /\ grown (enters self kvs) evs tt s') s.
Proof using L E JS.
  fix IH 1. intros l kvs evs s m EP GL H D. destruct l as [|k [|v t]]; cbn [put_pairs in_pairs] in *.
  - injection EP as <-. apply wp_ret. split; [reflexivity|]. apply grown_none; [exact H|constructor].
  - discriminate.
  - specialize (IH t). destruct (in_pairs t) as [kt|]; [|discriminate]. injection EP as <-. apply wp_bind. unfold hash_map_put. apply wp_bind. unfold hash_of. apply wp_heap; [discriminate|]. intros hk EH.
    eapply enter_one; [exact H|exact D|eapply upto_good; [exact H|apply GL; now left]|eapply upto_good; [exact H|apply GL; right; now left]|]. intros m' s1 H1 D1 EN.
    eapply wp_mono; [eapply (IH kt _ s1 m' eq_refl); [intros x J; apply GL; now right; right|exact H1|exact D1]|]. intros ok s2 (-> & evs2 & H2 & K2). split; [reflexivity|].
    rewrite <- app_assoc in H2. eexists. split; [exact H2|]. econstructor; eauto.
Qed.
Lemma enters_app p q evs evs' : enters self p evs -> enters self q evs' -> enters self (p ++ q) (evs ++ evs').
Proof using. induction 1; cbn [app]; [auto|]. intros K. econstructor; eauto. Qed.
Lemma put_elements_enters n : forall es evs s m, (forall e x, In e es -> x = ekey e \/ In x (evals e) -> good [a] s0 x) -> upto evs s -> data_at s self = Some (DMap m) ->
  wp (put_elements n self es) (grown (enters self (flat_map (fun e => map (pair (ekey e)) (evals e)) es)) evs) s.
Proof using L E JS.
  induction es as [|e es IH]; intros evs s m GE H D; unfold put_elements; cbn [iterM flat_map]; [apply wp_ret, grown_none; [exact H|constructor]|].
  apply wp_bind.
  assert (W : forall vs evs s m, incl vs (evals e) -> upto evs s -> data_at s self = Some (DMap m) ->
    wp (iterM (fun v => m <- map_of self ;; m' <- vmap_put n m (ehash e) (ekey e) v ;; put self (DMap m')) vs) (fun _ s' => exists evs' m', (upto (evs ++ evs') s' /\ data_at s' self = Some (DMap m')) /\ enters self (map (pair (ekey e)) vs) evs') s).
  { induction vs as [|v vs IHv]; intros evs1 s1 m1 IV H1 D1; cbn [iterM map]; [apply wp_ret; exists [], m1; rewrite app_nil_r; split; [auto|constructor]|].
    apply wp_bind. eapply enter_one; [exact H1|exact D1|eapply upto_good; [exact H1|]|eapply upto_good; [exact H1|]|].
    - apply (GE e); [now left|now left].
    - apply (GE e); [now left|]. right. apply IV. now left.
    - intros m' s2 H2 D2 EN. eapply wp_mono; [eapply (IHv _ s2 m'); [intros z J; apply IV; now right|exact H2|exact D2]|]. intros [] s3 (evs3 & m3 & (H3 & D3) & K3). rewrite <- app_assoc in H3.
      eexists _, m3. split; [split; [exact H3|exact D3]|]. econstructor; eauto. }
  eapply wp_mono; [apply (W (evals e) evs s m (incl_refl _) H D)|]. intros [] s1 (evs1 & m1 & (H1 & D1) & K1).
  eapply wp_mono; [eapply (IH _ s1 m1); [|exact H1|exact D1]|]. { intros e' x J. apply GE. now right. } intros [] s2 (evs2 & H2 & K2). rewrite <- app_assoc in H2. eexists. split; [exact H2|]. now apply enters_app.
Qed.
End PlusEq.
Lemma in_pairs_even l : Nat.even (List.length l) = match in_pairs l with Some _ => true | None => false end.
Proof.
  assert (H : forall n l, (List.length l <= n)%nat -> Nat.even (List.length l) = match in_pairs l with Some _ => true | None => false end).
  { clear. induction n as [|n IH]; intros [|k [|v t]] LE; cbn in *; try lia; auto. rewrite IH by lia. now destruct (in_pairs t). }
  exact (H _ l (le_n _)).
Qed.
Lemma plus_eq_writer : writer BiPlusEq plus_eq_result.
Proof.
  apply writer_intro. intros n m a env xs s c A IE L E. cbn [builtin_call]. unfold b_plus_eq. apply wp_bind. eapply args_vec; [exact L|exact E|exact (args_start a s A)|].
  destruct xs as [|x t]; [eapply tr_complain; [exact (tr_start (Eval.eval m) [a] s A)|]; intros r s' T C; exists []; split; [exact T|]; split; [reflexivity|exact C]|].
  assert (JX : In x (x :: t)) by now left. assert (IT : incl t (x :: t)) by (intros z J; now right).
  assert (U : upto (Eval.eval m) a s x [] s) by (split; [now apply tr_start|auto]).
  apply wp_bind, t_get. intros d D.
  assert (ER : (forall s' r, complains s s' r -> plus_eq_result s (x :: t) [] s' r) -> wp new_error (fun r s' => exists evs, trace (Eval.eval m) (stack s) s evs s' /\ plus_eq_result s (x :: t) evs s' r) s).
  { intros K. eapply tr_complain; [exact (tr_start (Eval.eval m) [a] s A)|]. intros r s' T C. exists []. split; [exact T|]. now apply K. }
  assert (OK : forall (R : list event -> Prop) mm, (forall evs s', R evs -> plus_eq_result s (x :: t) evs s' x) -> wp mm (grown (Eval.eval m) a s x R []) s ->
    wp (mm ;;; ret x) (fun r s' => exists evs, trace (Eval.eval m) (stack s) s evs s' /\ plus_eq_result s (x :: t) evs s' r) s).
  { intros R mm K W. apply wp_bind. eapply wp_mono; [exact W|]. intros [] s' (evs & (H & _) & RE). apply wp_ret. exists evs. split; [exact (tr_tr _ _ _ _ _ _ _ H)|]. now apply K. }
  destruct d; try apply wp_unmodelled; try (apply ER; intros; eexists; split; [exact D|]; split; [reflexivity|assumption]).
  - eapply OK; [|eapply grown_all; [|exact U]; intros; eapply integer_add_spec; eauto]. intros evs s' K. eexists. split; [exact D|]. split; [exact K|reflexivity].
  - eapply OK; [|eapply grown_all; [|exact U]; intros; eapply real_add_spec; eauto]. intros evs s' K. eexists. split; [exact D|]. split; [exact K|reflexivity].
  - eapply OK; [|eapply grown_all; [|exact U]; intros; eapply string_push_spec; eauto]. intros evs s' K. eexists. split; [exact D|]. split; [exact K|reflexivity].
  - destruct t as [|y t]; [apply wp_ret; exists []; split; [apply t_done, keeps_refl|]; eexists; split; [exact D|]; split; reflexivity|].
    apply wp_bind. unfold character_add. apply wp_bind, t_get. intros d D2. rewrite D in D2. injection D2 as <-. apply wp_bind, t_get. intros e D'.
    assert (NP : forall s1 w evs, upto (Eval.eval m) a s x evs s1 -> data_at s1 x = Some (DChar w) -> 
      (forall s', t = [] -> plus_eq_result s (x :: y :: t) evs s' x) ->
      wp (iterM (string_push n x) t ;;; ret x) (fun r s' => exists evs, trace (Eval.eval m) (stack s) s evs s' /\ plus_eq_result s (x :: y :: t) evs s' r) s1).
    { intros s1 w evs H1 D1 K. apply wp_bind. destruct t as [|q t]; cbn [iterM].
      - apply wp_ret, wp_ret. exists evs. split; [exact (tr_tr _ _ _ _ _ _ _ (proj1 H1))|]. now apply K.
      - apply wp_bind. destruct n as [|k]; cbn [string_push]; [apply wp_nofuel|]. apply wp_bind, t_get. intros d D3. rewrite D1 in D3. injection D3 as <-. apply wp_bind, t_get. intros e' _. apply wp_abort. }
    assert (SK : match e with DInt _ | DChar _ => False | _ => True end -> wp (ret tt) (fun _ s' => wp (iterM (string_push n x) t ;;; ret x) (fun r s' => exists evs, trace (Eval.eval m) (stack s) s evs s' /\ plus_eq_result s (x :: y :: t) evs s' r) s') s).
    { intros N. apply wp_ret. eapply NP; [exact U|exact D|]. intros s' ->. eexists. split; [exact D|]. split; [reflexivity|]. exists e. split; [exact D'|]. destruct e; try contradiction; auto. }
    destruct e as [ | |z| | |w| | | | | | | | | | | |]; try (apply SK; exact I).
    + apply wp_bind. apply (code_shift_spec _ z); [reflexivity|]. intros u SH. eapply upto_put; [exact L|exact E|exact JX|exact U|easy|]. intros s1 H1 D1. eapply NP; [exact H1|exact D1|]. intros s' ->.
      eexists. split; [exact D|]. split; [reflexivity|]. eexists. split; [exact D'|]. split; [reflexivity|]. eexists u, _, _. split; [exact SH|reflexivity].
    + destruct (x =? y); [apply wp_undef|]. eapply upto_put; [exact L|exact E|exact JX|exact U|easy|]. intros s1 H1 D1. apply wp_bind.
      eapply wp_mono; [eapply grown_all; [|exact H1]; intros; eapply string_push_spec; eauto|]. intros [] s2 (evs & H2 & K). apply wp_ret. eexists. split; [exact (tr_tr _ _ _ _ _ _ _ (proj1 H2))|].
      eexists. split; [exact D|]. split; [reflexivity|]. eexists. split; [exact D'|]. eexists _, _, evs. split; [exact K|reflexivity].
  - apply wp_ret. exists []. split; [apply t_done, keeps_refl|]. eexists. split; [exact D|]. split; reflexivity.
  - eapply OK; [|eapply share_spec; eauto]. intros evs s' K. eexists. split; [exact D|]. split; [exact K|reflexivity].
  - rename m0 into hm. destruct t as [|k [|v [|w t]]]; try (apply ER; intros; eexists; split; [exact D|]; split; [reflexivity|assumption]).
    + assert (GK : good [a] s k) by (eapply (wargs_good (Eval.eval m) a s c); [exact L|exact E|now apply tr_start|right; now left]).
      apply wp_bind. unfold hash_map_add. apply wp_bind, t_get. intros dk DK.
      assert (NO : (forall r s', complains s s' r -> plus_eq_result s [x; k] [] s' r) -> wp (ret false) (fun ok s' => wp (if (ok : bool) then ret x else new_error) (fun r s' => exists evs, trace (Eval.eval m) (stack s) s evs s' /\ plus_eq_result s [x; k] evs s' r) s') s).
      { intros K. apply wp_ret. apply ER. intros; now apply K. }
      destruct dk as [ | | | | | | | |l|m1| | | | | | | |]; try (apply NO; intros r s' C; eexists; split; [exact D|]; eexists; split; [exact DK|]; split; [reflexivity|exact C]).
      * rewrite in_pairs_even. destruct (in_pairs l) as [kvs|] eqn:EP.
        -- eapply wp_mono; [eapply (put_pairs_enters (Eval.eval m) a s c _ L E x JX n l kvs [] s hm EP)|].
           ++ intros y J. destruct (lookup (all s) k) as [ck|] eqn:LK; [|unfold data_at in DK; rewrite LK in DK; discriminate]. unfold data_at in DK. rewrite LK in DK. injection DK as DK. eapply (good_dref true); [exact A|exact LK|now rewrite DK].
           ++ exact U.
           ++ exact D.
           ++ cbv beta. intros ok s' (-> & evs & (H & _) & RE). apply wp_ret. exists evs. split; [exact (tr_tr _ _ _ _ _ _ _ H)|]. eexists. split; [exact D|]. eexists. split; [exact DK|]. cbv beta iota. rewrite EP. auto.
        -- apply NO. intros r s' C. eexists. split; [exact D|]. eexists. split; [exact DK|]. cbv beta iota. rewrite EP. auto.
      * destruct (x =? k); [apply wp_unmodelled|]. apply wp_bind. eapply wp_mono; [eapply (put_elements_enters (Eval.eval m) a s c _ L E x JX n (List.concat (buckets m1)) [] s hm)|].
        -- intros e y J K. destruct (lookup (all s) k) as [ck|] eqn:LK; [|unfold data_at in DK; rewrite LK in DK; discriminate]. unfold data_at in DK. rewrite LK in DK. injection DK as DK. eapply (good_dref true); [exact A|exact LK|rewrite DK]. exists e. auto.
        -- exact U.
        -- exact D.
        -- cbv beta. intros [] s' (evs & (H & _) & RE). apply wp_ret. apply wp_ret. exists evs. split; [exact (tr_tr _ _ _ _ _ _ _ H)|]. eexists. split; [exact D|]. eexists. split; [exact DK|]. split; [exact RE|reflexivity].
    + apply wp_bind. unfold hash_map_add. apply wp_bind, t_get. intros dk DK.
      assert (PUT : ~ is_map dk -> ~ is_vec dk -> wp (hash_map_put n x k v ;;; ret true) (fun ok s' => wp (if (ok : bool) then ret x else new_error) (fun r s' => exists evs, trace (Eval.eval m) (stack s) s evs s' /\ plus_eq_result s [x; k; v] evs s' r) s') s).
      { intros N1 N2. apply wp_bind. unfold hash_map_put. apply wp_bind. unfold hash_of. apply wp_heap; [discriminate|]. intros hk EH.
        eapply (enter_one (Eval.eval m) a s c _ L E x JX); [exact U|exact D| | |].
        - eapply (wargs_good (Eval.eval m) a s c); [exact L|exact E|now apply tr_start|right; now left].
        - eapply (wargs_good (Eval.eval m) a s c); [exact L|exact E|now apply tr_start|right; right; now left].
        - intros m' s' (H & _) D' EN. apply wp_ret. apply wp_ret. eexists. split; [exact (tr_tr _ _ _ _ _ _ _ H)|]. eexists. split; [exact D|]. exists dk. split; [exact DK|]. split; [exact N1|]. split; [exact N2|]. split; [|reflexivity]. econstructor; [exact D|exact EN|constructor]. }
      destruct dk; try apply wp_abort; apply PUT; intros F; exact F.
  - apply wp_bind. eapply wp_mono; [eapply (push_spec (Eval.eval m) a s c _ A L E x JX n t [] s IT); [now apply tr_start|eexists; split; [exact D|exact I]]|]. cbv beta. intros [] s' (evs & H & K). apply wp_ret. exists evs. split; [exact (tr_tr _ _ _ _ _ _ _ H)|]. eexists. split; [exact D|]. split; [exact K|reflexivity].
  - apply wp_bind. eapply wp_mono; [eapply (push_spec (Eval.eval m) a s c _ A L E x JX n t [] s IT); [now apply tr_start|eexists; split; [exact D|exact I]]|]. cbv beta. intros [] s' (evs & H & K). apply wp_ret. exists evs. split; [exact (tr_tr _ _ _ _ _ _ _ H)|]. eexists. split; [exact D|]. split; [exact K|reflexivity].
  - eapply OK; [|eapply raises_spec; eauto]. intros evs s' K. eexists. split; [exact D|]. split; [exact K|reflexivity].
Qed.
