(** Every builtin preserves the invariant and leaves its argument vector alone. *)
From Coq Require Import NArith ZArith Bool Lia Arith List.
From Coq Require Import ZifyBool ZifyNat ZifyN.
From Coq Require Import Floats.SpecFloat.
From Verif Require Import Base Vec OString Semver HMap Heap SpecHeap GcProofs VmProofs ValueOps Env Copy Builtins SafeBase SafeRead SafeLib.
Import ListNotations.
Local Open Scope N_scope.

Section Safe.
Context (D : bool).
Notation wp := (wp D).
Notation Inv := (Inv D).
Notation At := (At D).
Notation good := (good D).
Notation src := (src D).
Ltac has := solve [unfold has; cbn [In app]; auto 15].

(** ** Results of several kinds *)
Lemma out_error q P s0 G s : At q P s0 [] G s -> wp new_error (fun r s' => At q P s0 [] (eq r) s') s.
Proof. intros H. apply (r_new_error D q P s0 [] _ _ _ H). auto. Qed.
Lemma out_alloc q P s0 G s d : At q P s0 [] G s -> (forall x, ~ dref d x) -> tame d -> wp (alloc d) (fun r s' => At q P s0 [] (eq r) s') s.
Proof. intros H ND T. apply (r_alloc D q P s0 d [] _ _ _ H); auto. intros x R. now apply ND in R. Qed.
Lemma out_ret q P s0 G s r : At q P s0 [] G s -> good P s r -> wp (ret r) (fun r s' => At q P s0 [] (eq r) s') s.
Proof. intros H GR. apply wp_ret. eapply at_weaken; [exact H|]. now intros x <-. Qed.

(** ** The arguments *)
Section Args.
Context (P : list ref) (a : ref) (s0 : vm) (c0 : cell) (l : list ref).
Context (IN : In a P) (L0 : lookup (all s0) a = Some c0) (E0 : cdata c0 = DVec l).

Lemma arg_cell q pre G s : At q P s0 pre G s -> lookup (all s) a = Some c0.
Proof. intros H. rewrite (a_same _ _ _ _ _ _ _ H); auto. Qed.
Lemma arg_good q pre G s x : At q P s0 pre G s -> In x l -> good P s x.
Proof. intros H I. eapply at_dref; [exact H|eapply arg_cell; eauto|]. now rewrite E0. Qed.
Lemma arg_reach q pre G s x : At q P s0 pre G s -> In x l -> reach s x.
Proof.
  intros H I. apply (re_step _ _ a c0); [|eapply arg_cell; eauto|apply refers_iff; right; now rewrite E0].
  apply re_root. rewrite (a_stack _ _ _ _ _ _ _ H). apply in_or_app. right. apply (i_priv _ _ _ (a_inv0 _ _ _ _ _ _ _ H)). exact IN.
Qed.
Lemma arg_src q pre G s x : At q P s0 pre G s -> In x l -> src s x.
Proof. intros H I. right. eapply arg_reach; eauto. Qed.
Lemma arg_live q pre G s x : At q P s0 pre G s -> In x l -> D = false -> live s x.
Proof. intros H I. now apply (arg_good _ _ _ _ _ H). Qed.
Lemma arg_at q pre G s : At q P s0 pre G s -> At q P s0 pre (fun x => In x l) s.
Proof. intros H. eapply at_weaken; [exact H|]. intros x. apply (arg_good _ _ _ _ _ H). Qed.
Lemma arg_at2 q pre G s : At q P s0 pre G s -> At q P s0 pre (fun x => In x l \/ G x) s.
Proof. intros H. apply at_more; [exact H|]. intros x. apply (arg_good _ _ _ _ _ H). Qed.
Lemma arg_mine s x q pre G : At q P s0 pre G s -> In x l -> mine false P s0 x.
Proof. intros H I. split; [|discriminate]. now apply (arg_good _ _ _ _ _ H). Qed.
End Args.

Lemma wp_vec_of_arg P a s0 (Q : list ref -> vm -> Prop) : Inv P s0 -> In a P ->
  (forall c l, lookup (all s0) a = Some c -> cdata c = DVec l -> Q l s0) -> wp (vec_of a) Q s0.
Proof. intros A I K. apply wp_vec_of; [|exact K]. intros E. exact (proj2 (i_stack _ _ _ A a (i_priv _ _ _ A a I)) E). Qed.
Lemma wp_nargs_arg P a s0 (Q : nat -> vm -> Prop) : Inv P s0 -> In a P ->
  (forall c l, lookup (all s0) a = Some c -> cdata c = DVec l -> Q (length l) s0) -> wp (nargs a) Q s0.
Proof. intros A I K. unfold nargs. apply wp_bind. apply (wp_vec_of_arg P); [exact A|exact I|]. intros c l L E. apply wp_ret. eauto. Qed.
(** Reading an argument, at any later time. *)
Lemma r_arg_later q P s0 a c0 l i pre G (Q : ref -> vm -> Prop) s : At q P s0 pre G s -> In a P -> lookup (all s0) a = Some c0 -> cdata c0 = DVec l ->
  (forall x, nth_error l i = Some x -> In x l -> Q x s) -> wp (arg a i) Q s.
Proof.
  intros H I L E K. apply wp_arg.
  - eapply at_live; [exact H|]. right. right. left. apply (i_priv _ _ _ (a_inv0 _ _ _ _ _ _ _ H)). exact I.
  - intros c l' x L' E' N. rewrite (a_same _ _ _ _ _ _ _ H) in L' by auto. rewrite L in L'. injection L' as <-. rewrite E in E'. injection E' as <-.
    apply K; [exact N|]. eapply nth_error_In; eauto.
Qed.

(** ** One builtin after the other *)
Definition bok (q : bool) (m : M ref) (P : list ref) (a : ref) (s : vm) : Prop :=
  Inv P s -> In a P -> wp m (fun r s' => At q P s [] (eq r) s') s.

Ltac start H c l L E :=
  let A := fresh "A" in let I := fresh "IN" in intros A I;
  match goal with |- SafeBase.wp _ _ _ ?s => pose proof (at_start D true _ s A) as H end;
  apply wp_bind; eapply (wp_vec_of_arg); [exact A|exact I|]; intros c l L E.
Ltac start_f H c l L E :=
  let A := fresh "A" in let I := fresh "IN" in intros A I;
  match goal with |- SafeBase.wp _ _ _ ?s => pose proof (at_start D false _ s A) as H end;
  apply wp_bind; eapply (wp_vec_of_arg); [exact A|exact I|]; intros c l L E.
Ltac err := (eapply out_error; eassumption).
Ltac al := (eapply out_alloc; [eassumption|easy|exact I]).
Ltac argg := match goal with H : SafeBase.At _ _ ?P ?s0 _ _ ?s, IN : In ?a ?P, L : lookup (all ?s0) ?a = Some ?c, E : cdata ?c = DVec ?l |- SafeBase.good _ ?P ?s ?x =>
  apply (arg_good P a s0 c l IN L E _ _ _ s x H); cbn [In]; auto end.
Ltac argl := match goal with H : SafeBase.At _ _ ?P ?s0 _ _ ?s, IN : In ?a ?P, L : lookup (all ?s0) ?a = Some ?c, E : cdata ?c = DVec ?l |- _ -> live ?s ?x =>
  apply (arg_live P a s0 c l IN L E _ _ _ s x H); cbn [In]; auto end.
Ltac args := match goal with H : SafeBase.At _ _ ?P ?s0 _ _ ?s, IN : In ?a ?P, L : lookup (all ?s0) ?a = Some ?c, E : cdata ?c = DVec ?l |- SafeLib.src _ ?s ?x =>
  apply (arg_src P a s0 c l IN L E _ _ _ s x H); cbn [In]; auto end.
Ltac rt := (eapply out_ret; [eassumption|argg]).
Ltac getarg := apply wp_bind, wp_get; [argl|].

Lemma not_ok P a s : bok true (b_not a) P a s.
Proof.
  intros A IN. pose proof (at_start D true P s A) as H. unfold b_not. apply wp_bind. eapply (wp_nargs_arg); [exact A|exact IN|]. intros c l L E.
  destruct (negb (Nat.eqb (length l) 1)); [err|].
  apply wp_bind, (r_push D true P s a [] _ _ _ H); [right; right; left; now apply (i_priv _ _ _ A)|]. clear H. intros s1 H.
  apply wp_bind. eapply r_arg_later; [exact H|exact IN|exact L|exact E|]. intros x _ I. getarg. intros cx LX.
  apply wp_bind, (r_pop D true P s a [] _ _ _ H). clear H. intros s2 H. destruct (cdata cx); try err; al.
Qed.
Lemma return_ok P a s : D = true -> bok false (b_return a) P a s.
Proof.
  intros ED A IN. pose proof (at_start D false P s A) as H. unfold b_return. apply wp_bind. eapply wp_nargs_arg; [exact A|exact IN|]. intros c l L E.
  destruct (Nat.ltb 1 (length l)); [err|]. apply wp_bind.
  apply (wp_mono D _ (fun r s' => At false P s [] (eq r) s')).
  - destruct (Nat.eqb (length l) 1); [|al]. eapply r_arg_later; [exact H|exact IN|exact L|exact E|]. intros x _ I. eapply at_weaken; [exact H|]. intros y <-. eapply arg_good; eauto.
  - intros x s1 H1. apply wp_bind, wp_read. destruct (fret s1); [apply wp_abort|]. apply wp_bind.
    assert (GX : good P s1 x) by (apply (a_good _ _ _ _ _ _ _ H1); reflexivity).
    eapply r_set_fret; [exact H1| |].
    + intros y [= <-]. destruct GX as (? & ? & _). auto.
    + intros s2 H2 _. apply wp_ret. exact H2.
Qed.
(** Appending copies to a new vector held on the stack. *)
Lemma r_copy_atom q P s0 f r pre G (Q : ref -> vm -> Prop) s : At q P s0 pre G s -> src s r -> good P s r ->
  (forall x s', At q P s0 pre (eq x) s' -> Q x s') -> wp (copy_atom f r) Q s.
Proof.
  intros H SR GR K. eapply (r_call D q true P s0 pre G); [exact H|apply copy_atom_ok; [apply H|exact SR|exact GR]|auto|]. intros x s' A _. auto.
Qed.
Lemma r_copy q P s0 f r pre G (Q : ref -> vm -> Prop) s : At q P s0 pre G s -> src s r ->
  (forall x s', At q P s0 pre (eq x) s' -> nextId s <= x -> Q x s') -> wp (copy f r) Q s.
Proof.
  intros H SR K. eapply (r_call D q true P s0 pre G); [exact H|apply copy_ok; [apply H|exact SR]|auto|]. intros x s' A L. auto.
Qed.
Lemma vector_ok fuel P a s : bok true (b_vector fuel a) P a s.
Proof.
  intros A IN. pose proof (at_start D true P s A) as H. unfold b_vector.
  apply wp_bind, (r_alloc D true P s _ [] _ _ _ H); [easy|easy|]. clear H. intros x s1 H _ MX.
  apply wp_bind, (r_push D true P s x [] _ _ _ H); [has|]. clear H. intros s2 H.
  apply wp_bind. apply wp_vec_of; [eapply at_live; [exact H|right; right; left; now apply (i_priv _ _ _ A)]|]. intros c l L E.
  rewrite (a_same _ _ _ _ _ _ _ H) in L by auto.
  apply wp_bind. apply (wp_mono D _ (fun _ s' => At true P s [x] (fun _ => False) s')).
  - apply wp_iterM; [|eapply at_weaken; [exact H|easy]]. clear H. intros y s3 IY H. apply wp_bind.
    eapply r_copy_atom; [exact H|args|argg|]. clear H. intros y' s4 H.
    eapply (r_vec_push D true P s x y' [x]); [exact H|has|exact MX|apply (a_good _ _ _ _ _ _ _ H); reflexivity|].
    intros s5 H5 _ _. eapply at_weaken; [exact H5|easy].
  - clear H. intros _ s3 H. apply wp_bind, (r_pop D true P s x [] _ _ _ H). clear H. intros s4 H. apply wp_ret.
    eapply at_eq; [exact H|]. left. split; [reflexivity|apply MX].
Qed.
Lemma host_strings_ok what P a s : bok true (b_host_strings what a) P a s.
Proof.
  intros A IN. pose proof (at_start D true P s A) as H. unfold b_host_strings.
  apply wp_bind. apply wp_vec_of; [eapply at_live; [exact H|right; right; left; now apply (i_priv _ _ _ A)]|]. intros c l L E.
  destruct l as [|z l]; [|eapply out_error; exact H].
  apply wp_bind, (r_alloc D true P s _ [] _ _ _ H); [easy|easy|]. clear H. intros x s1 H _ MX.
  apply wp_bind, (r_push D true P s x [] _ _ _ H); [has|]. clear H. intros s2 H. apply wp_bind, wp_read.
  apply wp_bind. apply (wp_mono D _ (fun _ s' => At true P s [x] (fun _ => False) s')).
  - apply wp_iterM; [|eapply at_weaken; [exact H|easy]]. clear H. intros t s3 IY H. apply wp_bind, wp_lift; [intros; apply nd_c_string_copy|]. intros t' _.
    apply wp_bind. eapply r_alloc; [exact H|easy|easy|]. clear H. intros y s4 H _ MY.
    eapply (r_vec_push D true P s x y [x]); [exact H|has|exact MX|apply (a_good _ _ _ _ _ _ _ H); reflexivity|].
    intros s5 H5 _ _. eapply at_weaken; [exact H5|easy].
  - clear H. intros _ s3 H. apply wp_bind, (r_pop D true P s x [] _ _ _ H). clear H. intros s4 H. apply wp_ret.
    eapply at_eq; [exact H|]. left. split; [reflexivity|apply MX].
Qed.
Lemma exit_ok P a s : bok false (b_exit a) P a s.
Proof.
  unfold b_exit. start_f H c l L E. destruct l as [|x [|]].
  - apply wp_bind, wp_read. apply wp_bind. eapply r_set_quit; [exact H|]. clear H. intros s1 H.
    eapply (r_use D false true P s []); [exact H|apply value_true_ok; apply H|auto|auto].
  - getarg. intros cx LX. destruct (cdata cx); try err. apply wp_bind. eapply r_set_quit; [exact H|]. clear H. intros s1 H.
    eapply (r_use D false true P s []); [exact H|apply value_true_ok; apply H|auto|auto].
  - err.
Qed.
Lemma r_doc_of q P s0 x pre G (Q : ref -> vm -> Prop) s : At q P s0 pre G s -> (D = false -> live s x) ->
  (forall r s', At q P s0 pre (eq r) s' -> Q r s') -> wp (doc_of x) Q s.
Proof.
  intros H LX K. unfold doc_of. apply wp_bind, wp_get_cell; [exact LX|]. intros c L. destruct (cdoc c) as [d|] eqn:E.
  - apply wp_ret. apply K. eapply at_weaken; [exact H|]. intros y <-. eapply at_doc; eauto.
  - eapply (r_use D q true P s0 pre); [exact H|apply value_nil_ok; apply H|auto|auto].
Qed.
Lemma doc_ok P a s : bok true (b_doc a) P a s.
Proof.
  unfold b_doc. start H c l L E. destruct l as [|x [|y t]]; [err| |].
  - eapply r_doc_of; [exact H|argl|auto].
  - apply wp_bind, (r_alloc D true P s _ [] _ _ _ H); [easy|easy|]. clear H. intros r s1 H _ MX.
    apply wp_bind, (r_push D true P s r [] _ _ _ H); [has|]. clear H. intros s2 H.
    apply wp_bind. apply (wp_mono D _ (fun _ s' => At true P s [r] (fun _ => False) s')).
    + apply wp_iterM; [|eapply at_weaken; [exact H|easy]]. clear H. intros z s3 IY H. apply wp_bind.
      eapply r_doc_of; [exact H|argl|]. clear H. intros d s4 H.
      eapply (r_vec_push D true P s r d [r]); [exact H|has|exact MX|apply (a_good _ _ _ _ _ _ _ H); reflexivity|].
      intros s5 H5 _ _. eapply at_weaken; [exact H5|easy].
    + clear H. intros _ s3 H. apply wp_bind, (r_pop D true P s r [] _ _ _ H). clear H. intros s4 H. apply wp_ret.
      eapply at_eq; [exact H|]. left. split; [reflexivity|apply MX].
Qed.
Lemma wp_mapM_name P (Q : list text -> vm -> Prop) s fs : Inv P s -> (forall x, In x fs -> D = false -> live s x) -> (forall o, Q o s) -> wp (mapM formal_name fs) Q s.
Proof.
  intros A. revert Q. induction fs as [|f fs IH]; intros Q LV K; cbn [mapM]; [apply wp_ret; auto|].
  apply wp_bind, wp_formal_name; [apply LV; now left|]. intros c t L E. apply wp_bind, IH; [intros; apply LV; auto; now right|]. intros o. apply wp_ret. auto.
Qed.
Lemma r_value_length q P s0 x pre G (Q : Z -> vm -> Prop) s : At q P s0 pre G s -> (D = false -> live s x) -> (forall z, Q z s) -> wp (value_length x) Q s.
Proof.
  intros H LX K. unfold value_length. apply wp_bind, wp_get; [exact LX|]. intros c L.
  assert (W : forall f, (cdata c = DFun f \/ cdata c = DMac f) -> wp (fs <- vec_of (fformals f) ;; names <- mapM formal_name fs ;; ret (Z.of_nat (required_formals names))) Q s).
  { intros f E. assert (GF : good P s (fformals f)) by (eapply at_dref; [exact H|exact L|]; destruct E as [-> | ->]; cbn; auto).
    apply wp_bind, wp_vec_of; [apply GF|]. intros cf fs LF EF. apply wp_bind, (wp_mapM_name P); [apply H| |].
    - intros y IY. eapply at_dref; eauto. now rewrite EF.
    - intros o. apply wp_ret. apply K. }
  destruct (cdata c) eqn:E; try (apply wp_ret; apply K); try (apply W; auto).
  - destruct (special_required p); [apply wp_ret; apply K|apply wp_unmodelled].
  - destruct (builtin_required p); [apply wp_ret; apply K|apply wp_unmodelled].
Qed.
Lemma len_ok P a s : bok true (b_len a) P a s.
Proof.
  unfold b_len. start H c l L E. destruct l as [|x [|y t]]; [err| |].
  - apply wp_bind. eapply r_value_length; [exact H|argl|]. intros z. al.
  - apply wp_bind, (r_alloc D true P s _ [] _ _ _ H); [easy|easy|]. clear H. intros r s1 H _ MX.
    apply wp_bind, (r_push D true P s r [] _ _ _ H); [has|]. clear H. intros s2 H.
    apply wp_bind. apply (wp_mono D _ (fun _ s' => At true P s [r] (fun _ => False) s')).
    + apply wp_iterM; [|eapply at_weaken; [exact H|easy]]. clear H. intros z s3 IY H. apply wp_bind.
      eapply r_value_length; [exact H|argl|]. intros n.
      apply wp_bind, (r_alloc D true P s _ [r] _ _ _ H); [easy|easy|]. clear H. intros d s4 H _ _.
      eapply (r_vec_push D true P s r d [r]); [exact H|has|exact MX|apply (a_good _ _ _ _ _ _ _ H); reflexivity|].
      intros s5 H5 _ _. eapply at_weaken; [exact H5|easy].
    + clear H. intros _ s3 H. apply wp_bind, (r_pop D true P s r [] _ _ _ H). clear H. intros s4 H. apply wp_ret.
      eapply at_eq; [exact H|]. left. split; [reflexivity|apply MX].
Qed.
Lemma uid_ok P a env s : In env (stack s) -> bok true (b_uid a env) P a s.
Proof.
  intros IE A IN. pose proof (at_start D true P s A) as H. unfold b_uid. assert (IA : In a (stack s)) by now apply (i_priv _ _ _ A).
  apply wp_bind, (r_push D true P s a [] _ _ _ H); [has|]. clear H. intros s1 H.
  apply wp_bind, (r_push D true P s env _ _ _ _ H); [has|]. clear H. intros s2 H.
  apply wp_bind. apply wp_vec_of; [eapply at_live; [exact H|has]|]. intros c l L E.
  assert (ER : wp (pop env ;;; pop a ;;; new_error) (fun r s' => At true P s [] (eq r) s') s2).
  { apply wp_bind, (r_pop D true P s env _ _ _ _ H). clear H L. intros s3 H. apply wp_bind, (r_pop D true P s a _ _ _ _ H). clear H. intros s4 H. err. }
  destruct l as [|x [|]]; try exact ER. destruct (INT32_MAX <? Z.of_N x)%Z; [apply wp_abort|].
  apply wp_bind, (r_alloc D true P s _ [env; a] _ _ _ H); [easy|easy|]. clear H L ER. intros r s3 H _ MR.
  apply wp_bind, (r_pop D true P s env _ _ _ _ H). clear H. intros s4 H. apply wp_bind, (r_pop D true P s a _ _ _ _ H). clear H. intros s5 H.
  apply wp_ret. eapply at_eq; [exact H|]. right. right. reflexivity.
Qed.

(** ** Assignment, when freed values are allowed *)
Section Any.
Context (ED : D = true).
Lemma keep P s s' x : good P s x -> nextId s <= nextId s' -> good P s' x.
Proof. intros (A & B & _) L. split; [lia|]. split; [exact B|congruence]. Qed.
Lemma any_live (X : Prop) : D = false -> X. Proof. congruence. Qed.
Lemma any_src s x : src s x. Proof. now left. Qed.
Lemma at_later q P s0 pre G s x : At q P s0 pre G s -> good P s0 x -> good P s x.
Proof. intros H GX. eapply keep; eauto. apply H. Qed.
Lemma mine_good P s0 s x : good P s x -> mine false P s0 x.
Proof. intros (_ & N & _). split; [exact N|discriminate]. Qed.
Lemma any_has P s0 pre G s x : At false P s0 pre G s -> good P s x -> At false P s0 pre (fun y => y = x \/ G y) s.
Proof. intros H GX. apply at_more; [exact H|]. now intros y ->. Qed.
Lemma drop P s0 pre G s : At false P s0 pre G s -> At false P s0 pre (fun _ => False) s.
Proof. intros H. eapply at_weaken; [exact H|easy]. Qed.

Lemma any_seq_push P s0 v x pre s : At false P s0 pre (fun _ => False) s -> good P s v -> good P s x ->
  wp (seq_push v x) (fun _ s' => At false P s0 pre (fun _ => False) s') s.
Proof.
  intros H GV GX. pose proof (any_has _ _ _ _ _ _ H GV) as H2.
  eapply (r_seq_push D false P s0 v x pre); [exact H2|has|eapply mine_good; eauto|exact GX|]. intros s' H'. eapply drop; eauto.
Qed.
Lemma any_vec_push P s0 v x pre s : At false P s0 pre (fun _ => False) s -> good P s v -> good P s x ->
  wp (vec_push v x) (fun _ s' => At false P s0 pre (fun _ => False) s') s.
Proof.
  intros H GV GX. pose proof (any_has _ _ _ _ _ _ H GV) as H2.
  eapply (r_vec_push D false P s0 v x pre); [exact H2|has|eapply mine_good; eauto|exact GX|]. intros s' H' _ _. eapply drop; eauto.
Qed.
Lemma any_put P s0 v d pre s : At false P s0 pre (fun _ => False) s -> good P s v -> (forall x, dref d x -> good P s x) ->
  wp (put v d) (fun _ s' => At false P s0 pre (fun _ => False) s') s.
Proof.
  intros H GV GX. pose proof (any_has _ _ _ _ _ _ H GV) as H2.
  eapply (r_put D false P s0 v d pre); [exact H2|has|eapply mine_good; eauto|exact GX| | |]; try congruence.
  intros s' H' _ _. eapply drop; eauto.
Qed.
Lemma any_set_docs P s0 v d dv pre s : At false P s0 pre (fun _ => False) s -> good P s v ->
  (forall x, d = Some x -> good P s x) -> (forall x, dv = Some x -> good P s x) ->
  wp (set_docs v d dv) (fun _ s' => At false P s0 pre (fun _ => False) s') s.
Proof.
  intros H GV GX GY. pose proof (any_has _ _ _ _ _ _ H GV) as H2.
  eapply (r_set_docs D false P s0 v _ _ pre); [exact H2|has|eapply mine_good; eauto|exact GX| | |]; try congruence.
  - intros x E. destruct (GY x E) as (? & ? & _). auto.
  - intros s' H' _ _. eapply drop; eauto.
Qed.
Lemma any_vmap_put P fuel m hk k v (Q : hmap ref ref -> vm -> Prop) s : Inv P s ->
  (forall m', (forall x, dref (DMap m') x -> x = k \/ x = v \/ dref (DMap m) x) -> Q m' s) -> wp (vmap_put fuel m hk k v) Q s.
Proof. intros A K. apply (wp_vmap_put D P); auto; congruence. Qed.
Lemma any_vmap_remove P fuel m hk k (Q : hmap ref ref -> vm -> Prop) s : Inv P s ->
  (forall m', (forall x, dref (DMap m') x -> dref (DMap m) x) -> Q m' s) -> wp (vmap_remove fuel m hk k) Q s.
Proof. intros A K. apply (wp_vmap_remove D P); auto; congruence. Qed.
Lemma any_map_of P r (Q : hmap ref ref -> vm -> Prop) s : Inv P s ->
  (forall m, (forall x, dref (DMap m) x -> good P s x) -> Q m s) -> wp (map_of r) Q s.
Proof.
  intros A K. unfold map_of. apply wp_bind, wp_get; [congruence|]. intros c L. destruct (cdata c) eqn:E; try apply wp_abort. apply wp_ret.
  apply K. intros x R. eapply good_dref; eauto. now rewrite E.
Qed.
Lemma any_copy_atom P s0 f r pre (Q : ref -> vm -> Prop) s : At false P s0 pre (fun _ => False) s -> good P s r ->
  (forall x s', At false P s0 pre (fun _ => False) s' -> good P s' x -> Q x s') -> wp (copy_atom f r) Q s.
Proof.
  intros H GR K. eapply wp_mono; [apply copy_atom_ok; [apply H|now left|exact GR]|]. intros x s' (A & _).
  apply K; [eapply drop, at_call; [exact H|exact A|auto]|now apply (a_good _ _ _ _ _ _ _ A)].
Qed.
Lemma any_copy P s0 f r pre (Q : ref -> vm -> Prop) s : At false P s0 pre (fun _ => False) s ->
  (forall x s', At false P s0 pre (fun _ => False) s' -> good P s' x -> Q x s') -> wp (copy f r) Q s.
Proof.
  intros H K. eapply wp_mono; [apply copy_ok; [apply H|now left]|]. intros x s' (A & _).
  apply K; [eapply drop, at_call; [exact H|exact A|auto]|now apply (a_good _ _ _ _ _ _ _ A)].
Qed.
Lemma any_push P s0 r pre (Q : unit -> vm -> Prop) s : At false P s0 pre (fun _ => False) s -> good P s r ->
  (forall s', At false P s0 (r :: pre) (fun _ => False) s' -> good P s' r -> Q tt s') -> wp (push r) Q s.
Proof.
  intros H GR K. pose proof (any_has _ _ _ _ _ _ H GR) as H2.
  apply (r_push D false P s0 r pre _ _ _ H2); [has|]. intros s' H'. apply K; [eapply drop; eauto|].
  eapply at_good; [exact H'|has|]. right. apply GR.
Qed.
Lemma any_pop P s0 r pre (Q : unit -> vm -> Prop) s : At false P s0 (r :: pre) (fun _ => False) s ->
  (forall s', At false P s0 pre (fun _ => False) s' -> Q tt s') -> wp (pop r) Q s.
Proof. intros H K. apply (r_pop D false P s0 r pre _ _ _ H). intros s' H'. apply K. eapply drop; eauto. Qed.
Lemma any_in P s0 r pre G s : At false P s0 pre G s -> In r pre -> ~ In r P -> good P s r.
Proof. intros H J N. eapply at_good; [exact H|right; left; exact J|auto]. Qed.
Lemma any_set_seq P f self l s : Inv P s -> good P s self -> (forall y, In y l -> good P s y) ->
  wp (set_seq f self l) (fun _ s' => At false P s [] (fun _ => False) s') s.
Proof.
  intros A GS GL. unfold set_seq. apply wp_iterM; [|now apply at_start].
  intros y s1 IY H1. apply wp_bind. eapply any_copy_atom; [exact H1|(cbv beta in *; eapply at_later; eauto)|]. intros y' s2 H2 GY.
  apply wp_bind. eapply any_push; [exact H2|exact GY|]. intros s3 H3 GY3.
  apply wp_bind. eapply wp_mono; [eapply any_seq_push; [exact H3|(cbv beta in *; eapply at_later; eauto)|exact GY3]|].
  intros u s4 H4. eapply any_pop; [exact H4|]. auto.
Qed.
Lemma any_set_map P f self value n s : Inv P s -> good P s self ->
  wp (set_map f self value n) (fun _ s' => At false P s [] (fun _ => False) s') s.
Proof.
  intros A GS. unfold set_map. apply wp_iterM; [|now apply at_start].
  intros i s1 _ H1. apply wp_bind. eapply any_map_of; [apply H1|]. intros m GM.
  destruct (map_get_at_index m (Z.of_nat i)) as [e|] eqn:E; [|apply wp_undef]. apply get_at_index_in in E.
  apply wp_bind, wp_lift; [intros; apply nd_single|]. intros v SV. apply single_in in SV.
  apply wp_bind. assert (GK : good P s1 (ekey e)) by (apply GM; exists e; auto).
  assert (GV : v < nextId s1 /\ ~ In v P) by (destruct (GM v) as (? & ? & _); [exists e; auto|auto]).
  eapply wp_mono; [apply copy_atom_ok; [apply H1|now left|exact GK]|]. intros k s2 (A2 & _).
  assert (H2 : At false P s [] (fun _ => False) s2) by (eapply drop, at_call; [exact H1|exact A2|auto]).
  assert (GK2 : good P s2 k) by now apply (a_good _ _ _ _ _ _ _ A2).
  assert (GV2 : good P s2 v). { destruct GV. split; [|split; [assumption|congruence]]. pose proof (a_next _ _ _ _ _ _ _ A2). lia. }
  clear A2. assert (H2' : At false P s [] (fun x => x = k \/ x = v) s2) by (eapply at_weaken; [exact H2|intros x [->| ->]; assumption]).
  apply wp_bind, (r_push D false P s k [] _ _ _ H2'); [has|]. intros s3 H3. clear H2 H2' GK2 GV2.
  assert (GV3 : good P s3 v) by (apply (a_good _ _ _ _ _ _ _ H3); auto). assert (NK : ~ In k P) by (apply (a_good _ _ _ _ _ _ _ H3); auto). apply drop in H3.
  apply wp_bind. eapply any_copy_atom; [exact H3|exact GV3|]. clear H3 GV3. intros v' s4 H4 GV4.
  apply wp_bind. eapply any_push; [exact H4|exact GV4|]. clear H4. intros s5 H5 GV5.
  assert (GK5 : good P s5 k) by (eapply any_in; [exact H5|cbn; auto|exact NK]).
  apply wp_bind. eapply any_map_of; [apply H5|]. intros m1 GM1.
  apply wp_bind. eapply any_vmap_remove; [apply H5|]. intros m2 GM2.
  apply wp_bind. eapply any_vmap_put; [apply H5|]. intros m3 GM3.
  apply wp_bind. eapply wp_mono; [eapply any_put; [exact H5|(cbv beta in *; eapply at_later; eauto)|]|].
  - intros x R. apply GM3 in R as [->|[->|R]]; auto.
  - intros u s6 H6. apply wp_bind. eapply any_pop; [exact H6|]. intros s7 H7. eapply any_pop; [exact H7|]. auto.
Qed.
Lemma any_docs P self value f s : Inv P s -> good P s self ->
  wp (c <- get_cell value ;;
        match cdoc c with
        | Some d => d' <- copy f d ;; c <- get_cell self ;; set_docs self (Some d') (cdocvec c)
        | None => ret tt
        end ;;;
        c <- get_cell value ;;
        match cdocvec c with
        | Some d => d' <- copy f d ;; c <- get_cell self ;; set_docs self (cdoc c) (Some d')
        | None => ret tt
        end) (fun _ s' => At false P s [] (fun _ => False) s') s.
Proof.
  intros A GS. pose proof (at_start D false P s A) as H. apply wp_bind, wp_get_cell; [congruence|]. intros c L. apply wp_bind.
  apply (wp_mono D _ (fun _ s' => At false P s [] (fun _ => False) s')).
  - destruct (cdoc c) as [d|]; [|apply wp_ret; exact H]. apply wp_bind. eapply any_copy; [exact H|]. intros d' s1 H1 GD.
    apply wp_bind, wp_get_cell; [congruence|]. intros c1 L1. eapply any_set_docs; [exact H1|(cbv beta in *; eapply at_later; eauto)| |].
    + intros x [= <-]. exact GD.
    + intros x E. destruct (at_docvec D _ _ _ _ _ _ _ _ _ H1 L1 E). split; [assumption|]. split; [assumption|congruence].
  - clear H. intros u s1 H. apply wp_bind, wp_get_cell; [congruence|]. intros c2 L2.
    destruct (cdocvec c2) as [d|]; [|apply wp_ret; exact H]. apply wp_bind. eapply any_copy; [exact H|]. intros d' s2 H1 GD.
    apply wp_bind, wp_get_cell; [congruence|]. intros c1 L1. eapply any_set_docs; [exact H1|(cbv beta in *; eapply at_later; eauto)| |].
    + intros x E. eapply at_doc; eauto.
    + intros x [= <-]. exact GD.
Qed.
Lemma any_put_fresh P s0 r d pre s : At false P s0 pre (fun _ => False) s -> good P s r -> (forall x, dref d x -> good P s x) ->
  wp (put_fresh r d) (fun _ s' => At false P s0 pre (fun _ => False) s') s.
Proof.
  intros H GR GD. unfold put_fresh. apply wp_bind, wp_get_cell; [congruence|]. intros c L.
  pose proof (at_addr D _ _ _ _ _ _ (nextAddr s + 1) H) as H2.
  assert (W : wp (put_cell r (mkCell d (cdoc c) (cdocvec c) (cmark c) (addrs s (nextAddr s)))) (fun _ s' => At false P s0 pre (fun _ => False) s') (with_nextAddr s (nextAddr s + 1))); [|exact W].
  eapply (r_put_cell D false P s0 r c); [exact H2|eapply mine_good; eauto|exact L|reflexivity|reflexivity|reflexivity|exact GD|congruence|congruence|].
  intros s' H' _. exact H'.
Qed.
Lemma value_set_any P f self value s : Inv P s -> good P s self ->
  wp (value_set f self value) (fun _ s' => At false P s [] (fun _ => False) s') s.
Proof.
  intros A GS. unfold value_set. pose proof (at_start D false P s A) as H. destruct (self =? value); [now apply wp_ret|].
  apply wp_bind, wp_get; [congruence|]. intros c L. assert (GC : forall x, dref (cdata c) x -> good P s x) by (intros; eapply at_dref; eauto).
  set (TAIL := (c <- get_cell value ;; _)).
  assert (T : forall s1, At false P s [] (fun _ => False) s1 -> wp TAIL (fun _ s' => At false P s [] (fun _ => False) s') s1).
  { intros s1 H1. eapply wp_mono; [apply any_docs; [apply H1|(cbv beta in *; eapply at_later; eauto)]|]. intros u s2 H2. exact (at_call D _ _ _ _ _ _ _ _ _ H1 H2 (fun e => e)). }
  assert (B : match cdata c with DEnv _ _ | DFun _ | DMac _ => False | _ => True end -> forall m : M unit,
    (forall s1, At false P s [] (fun _ => False) s1 -> wp m (fun _ s' => At false P s [] (fun _ => False) s') s1) ->
    wp (put_fresh self (empty_like (cdata c)) ;;; m ;;; TAIL) (fun _ s' => At false P s [] (fun _ => False) s') s).
  { intros NE m W. apply wp_bind. eapply wp_mono; [eapply any_put_fresh; [exact H|exact GS|]|].
    - intros x R. now apply empty_like_ref in R.
    - intros u s1 H1. apply wp_bind. eapply wp_mono; [apply W; exact H1|]. intros u' s2 H2. now apply T. }
  destruct (cdata c) eqn:E; try apply wp_abort; apply (B I); intros s1 H1; try (apply wp_ret; exact H1);
    (eapply wp_mono; [first [apply any_set_seq|apply any_set_map]; [apply H1|(cbv beta in *; eapply at_later; eauto)|..]|intros u s2 H2; exact (at_call D _ _ _ _ _ _ _ _ _ H1 H2 (fun e => e))]).
  all: intros y IY; (cbv beta in *; eapply at_later; eauto).
Qed.
Lemma pad_nils_any P n : forall r s, Inv P s -> good P s r -> wp (pad_nils n r) (fun _ s' => At false P s [] (fun _ => False) s') s.
Proof.
  induction n as [|n IH]; intros r s A GR; cbn [pad_nils]; [apply wp_ret; now apply at_start|].
  pose proof (at_start D false P s A) as H. apply wp_bind. eapply (r_use D false true P s [] _ _ (fun x => eq x)); [exact H|apply value_nil_ok; exact A|auto|]. clear H. intros x s1 H.
  assert (GX : good P s1 x) by now apply (a_good _ _ _ _ _ _ _ H). apply drop in H.
  apply wp_bind. eapply wp_mono; [eapply any_vec_push; [exact H|(cbv beta in *; eapply at_later; eauto)|exact GX]|]. clear H GX. intros u s2 H.
  assert (GR2 : good P s2 r) by (exact (at_later _ _ _ _ _ _ _ H GR)). eapply wp_mono; [exact (IH r s2 (a_inv _ _ _ _ _ _ _ H) GR2)|]. intros u' s3 H3. exact (at_call D _ _ _ _ _ _ _ _ _ H H3 (fun e => e)).
Qed.
Lemma set_collection_any P f self key value s : Inv P s -> good P s self -> good P s key -> good P s value ->
  wp (set_collection f self key value) (fun _ s' => At false P s [] (fun _ => False) s') s.
Proof.
  intros A GS GK GV. unfold set_collection. pose proof (at_start D false P s A) as H.
  apply wp_bind, wp_get; [congruence|]. intros c L. apply wp_bind, wp_get; [congruence|]. intros ck LK. apply wp_bind, wp_get; [congruence|]. intros cv LV.
  assert (R : forall b : bool, wp (ret b) (fun _ s' => At false P s [] (fun _ => False) s') s) by (intros; now apply wp_ret).
  destruct (cdata c) eqn:E; try apply R; try apply wp_abort.
  - destruct (cdata cv); try apply R. destruct (cdata ck); try apply R. destruct (str_overwrite (text_str s0) s1 z) as [s' ok].
    apply wp_bind. eapply wp_mono; [eapply any_put; [exact H|exact GS|easy]|]. intros u s2 H2. now apply wp_ret.
  - destruct (cdata ck); try apply R. destruct (z <? 0)%Z; [apply R|]. destruct (Z.of_nat (length l) <=? z)%Z.
    + apply wp_bind. eapply wp_mono; [apply pad_nils_any; [exact A|exact GS]|]. clear H. intros u s1 H.
      apply wp_bind. eapply any_copy_atom; [exact H|(cbv beta in *; eapply at_later; eauto)|]. clear H. intros v s2 H GV2.
      apply wp_bind. eapply wp_mono; [eapply any_vec_push; [exact H|(cbv beta in *; eapply at_later; eauto)|exact GV2]|]. intros u' s3 H3. now apply wp_ret.
    + apply wp_bind. eapply any_copy_atom; [exact H|exact GV|]. clear H. intros v s2 H GV2.
      apply wp_bind, wp_vec_of; [congruence|]. intros c2 l2 L2 E2. apply wp_bind. eapply wp_mono; [eapply any_put; [exact H|(cbv beta in *; eapply at_later; eauto)|]|].
      * intros x J. cbn in J. assert (J' : x = v \/ In x l2). { apply in_app_or in J as [J|[J|J]]; [right; now apply in_firstn in J|auto|right; destruct l2; [destruct J|cbn in J; apply in_skipn in J; now right]]. }
        destruct J' as [->|J']; [exact GV2|]. eapply at_dref; eauto. now rewrite E2.
      * intros u s3 H3. now apply wp_ret.
  - apply wp_bind. eapply any_copy_atom; [exact H|exact GV|]. clear H. intros v s2 H GV2.
    apply wp_bind. apply (wp_hash D P); [apply H|congruence|]. intros hk.
    apply wp_bind. eapply any_map_of; [apply H|]. intros m1 GM1.
    apply wp_bind. eapply any_vmap_remove; [apply H|]. intros m2 GM2.
    apply wp_bind. eapply any_vmap_put; [apply H|]. intros m3 GM3.
    apply wp_bind. eapply wp_mono; [eapply any_put; [exact H|(cbv beta in *; eapply at_later; eauto)|]|].
    + intros x R'. apply GM3 in R' as [->|[->|R']]; auto. (cbv beta in *; eapply at_later; eauto).
    + intros u s3 H3. now apply wp_ret.
  - apply wp_bind. eapply r_env_set; [exact H|congruence|eapply mine_good; eauto|exact GK|exact GV|]. intros s1 H1. now apply wp_ret.
Qed.
Lemma set_any fuel P a s : bok false (b_set fuel a) P a s.
Proof.
  intros A IN. pose proof (at_start D false P s A) as H. unfold b_set. apply wp_bind. eapply wp_nargs_arg; [exact A|exact IN|]. intros c l L E.
  destruct (Nat.ltb (length l) 2 || Nat.ltb 3 (length l))%bool; [err|].
  apply wp_bind, (r_push D false P s a [] _ _ _ H); [right; right; left; now apply (i_priv _ _ _ A)|]. clear H. intros s1 H.
  apply wp_bind. eapply r_arg_later; [exact H|exact IN|exact L|exact E|]. intros x _ IX. getarg. intros cx LX.
  assert (GX : good P s1 x) by argg.
  assert (W : wp (if Nat.eqb (length l) 2 then y <- arg a 1 ;; value_set fuel x y ;;; pop a ;;; ret x
     else k <- arg a 1 ;; v <- arg a 2 ;; ok <- set_collection fuel x k v ;; pop a ;;; (if (ok : bool) then ret x else new_error)) (fun r s' => At false P s [] (eq r) s') s1).
  { destruct (Nat.eqb (length l) 2).
    - apply wp_bind. eapply r_arg_later; [exact H|exact IN|exact L|exact E|]. intros y _ IY.
      apply wp_bind. eapply wp_mono; [apply value_set_any; [apply H|exact GX]|]. intros u s2 H2.
      assert (H2' := at_call D _ _ _ _ _ _ _ _ _ H H2 (fun e => e)). clear H2.
      apply wp_bind. eapply any_pop; [exact H2'|]. intros s3 H3. rt.
    - apply wp_bind. eapply r_arg_later; [exact H|exact IN|exact L|exact E|]. intros k _ IK.
      apply wp_bind. eapply r_arg_later; [exact H|exact IN|exact L|exact E|]. intros v _ IV.
      apply wp_bind. eapply wp_mono; [apply set_collection_any; [apply H|exact GX|argg|argg]|]. intros ok s2 H2.
      assert (H2' := at_call D _ _ _ _ _ _ _ _ _ H H2 (fun e => e)). clear H2.
      apply wp_bind. eapply any_pop; [exact H2'|]. intros s3 H3. destruct ok; [rt|err]. }
  destruct (cdata cx); exact W || apply wp_unmodelled.
Qed.
End Any.

(** ** Changing an argument in place *)
(** The loop over the arguments [t], with all of them [l] held. *)
Lemma over_args P s0 (l t : list ref) (f : ref -> M unit) s : incl t l ->
  (forall x s, In x t -> At false P s0 [] (fun y => In y l) s -> wp (f x) (fun _ s' => At false P s0 [] (fun y => In y l) s') s) ->
  At false P s0 [] (fun y => In y l) s -> wp (iterM f t) (fun _ s' => At false P s0 [] (fun y => In y l) s') s.
Proof. intros T F H. apply wp_iterM; auto. Qed.
Lemma mine_in_G P s0 pre (G : ref -> Prop) s x : At false P s0 pre G s -> G x -> mine false P s0 x.
Proof. intros H GX. split; [|discriminate]. now apply (a_good _ _ _ _ _ _ _ H). Qed.
(** Replacing a union that refers to nothing. *)
Lemma r_put_plain P s0 r d pre (G : ref -> Prop) (Q : unit -> vm -> Prop) s c : At false P s0 pre G s -> G r -> lookup (all s) r = Some c -> ~ is_fun (cdata c) ->
  (forall x, dref d x -> dref (cdata c) x) -> tame d -> (forall s', At false P s0 pre G s' -> Q tt s') -> wp (put r d) Q s.
Proof.
  intros H GR L NF ND T K. apply (r_put D false P s0 r d pre G _ s H); auto; [has|eapply mine_in_G; eauto| |].
  - intros x R. eapply at_dref; eauto.
  - intros _ c' L' F. congruence.
Qed.
Lemma nd_text_number t : text_number t <> Dangling.
Proof. unfold text_number. destruct (forallb _ _); [destruct (existsb _ _)|]; discriminate. Qed.
Lemma nd_long_op z : long_op z <> Dangling.
Proof. unfold long_op. destruct (_ && _)%bool; discriminate. Qed.
Lemma integer_add_ok P s0 pre : forall f (G : ref -> Prop) self other s, At false P s0 pre G s -> G self -> G other ->
  wp (integer_add f self other) (fun _ s' => At false P s0 pre G s') s.
Proof.
  induction f as [|f IH]; intros G self other s H GS GO; cbn [integer_add]; [apply wp_nofuel|].
  apply wp_bind, wp_get; [now apply (a_good _ _ _ _ _ _ _ H)|]. intros c L. apply wp_bind, wp_get; [now apply (a_good _ _ _ _ _ _ _ H)|]. intros d LD.
  destruct (cdata c) eqn:E; try apply wp_abort. destruct (cdata d) as [ | |y|y|y| | | |l| | | | | | | | |] eqn:E2; try (apply wp_ret; exact H).
  - apply wp_bind, wp_lift; [intros; apply nd_int32|]. intros x _. eapply r_put_plain; eauto; [now rewrite E|easy|exact I].
  - eapply r_put_plain; eauto; [now rewrite E|easy|exact I].
  - apply wp_bind, wp_lift; [intros; apply nd_text_number|]. intros [n|] _; [|now apply wp_ret]. apply wp_bind, wp_lift; [intros; apply nd_long_op|]. intros x _. eapply r_put_plain; eauto; [now rewrite E|easy|exact I].
  - eapply wp_mono; [apply (wp_iterM D _ (fun s => At false P s0 pre (fun x => In x l \/ G x) s))|].
    + intros x s1 IX H1. eapply IH; eauto.
    + apply at_more; [exact H|]. intros x IX. eapply at_dref; eauto. now rewrite E2.
    + cbv beta. intros u s1 H1. eapply at_weaken; [exact H1|]. intros x GX. apply (a_good _ _ _ _ _ _ _ H1). auto.
Qed.
Lemma real_add_ok P s0 pre : forall f (G : ref -> Prop) self other s, At false P s0 pre G s -> G self -> G other ->
  wp (real_add f self other) (fun _ s' => At false P s0 pre G s') s.
Proof.
  induction f as [|f IH]; intros G self other s H GS GO; cbn [real_add]; [apply wp_nofuel|].
  apply wp_bind, wp_get; [now apply (a_good _ _ _ _ _ _ _ H)|]. intros c L. apply wp_bind, wp_get; [now apply (a_good _ _ _ _ _ _ _ H)|]. intros d LD.
  destruct (cdata c) eqn:E; try apply wp_abort. destruct (cdata d) as [ | |y|y|y| | | |l| | | | | | | | |] eqn:E2; try (apply wp_ret; exact H).
  - eapply r_put_plain; eauto; [now rewrite E|easy|exact I].
  - eapply r_put_plain; eauto; [now rewrite E|easy|exact I].
  - apply wp_bind, wp_lift; [intros; apply nd_text_number|]. intros [n|] _; [|now apply wp_ret]. eapply r_put_plain; eauto; [now rewrite E|easy|exact I].
  - eapply wp_mono; [apply (wp_iterM D _ (fun s => At false P s0 pre (fun x => In x l \/ G x) s))|].
    + intros x s1 IX H1. eapply IH; eauto.
    + apply at_more; [exact H|]. intros x IX. eapply at_dref; eauto. now rewrite E2.
    + cbv beta. intros u s1 H1. eapply at_weaken; [exact H1|]. intros x GX. apply (a_good _ _ _ _ _ _ _ H1). auto.
Qed.
Lemma string_push_ok P s0 pre : forall f (G : ref -> Prop) self other s, At false P s0 pre G s -> G self -> G other ->
  wp (string_push f self other) (fun _ s' => At false P s0 pre G s') s.
Proof.
  induction f as [|f IH]; intros G self other s H GS GO; cbn [string_push]; [apply wp_nofuel|].
  apply wp_bind, wp_get; [now apply (a_good _ _ _ _ _ _ _ H)|]. intros c L. apply wp_bind, wp_get; [now apply (a_good _ _ _ _ _ _ _ H)|]. intros d LD.
  destruct (cdata c) eqn:E; try apply wp_abort. assert (PRINT : wp (rd <- read readably ;; t <- heap_op (fun h => to_text rd false f h other) ;; put self (DStr (s1 ++ t))) (fun _ s' => At false P s0 pre G s') s).
  { apply wp_bind, wp_read. apply wp_bind, wp_heap; [intros ED; apply nd_to_text; [eapply at_closed; eauto|now apply (a_good _ _ _ _ _ _ _ H)]|]. intros w _.
    eapply r_put_plain; eauto; [now rewrite E|easy|exact I]. }
  destruct (cdata d) as [ | |y|y|y|y|y| |l| | | | | | | | |] eqn:E2; try exact PRINT; clear PRINT.
  - destruct (self =? other); [apply wp_undef|]. eapply r_put_plain; eauto; [now rewrite E|easy|exact I].
  - eapply r_put_plain; eauto; [now rewrite E|easy|exact I].
  - eapply r_put_plain; eauto; [now rewrite E|easy|exact I].
  - eapply wp_mono; [apply (wp_iterM D _ (fun s => At false P s0 pre (fun x => In x l \/ G x) s))|].
    + intros x s2 IX H1. eapply IH; eauto.
    + apply at_more; [exact H|]. intros x IX. eapply at_dref; eauto. now rewrite E2.
    + cbv beta. intros u s2 H1. eapply at_weaken; [exact H1|]. intros x GX. apply (a_good _ _ _ _ _ _ _ H1). auto.
Qed.
Lemma put_pairs_ok q P s0 pre (G : ref -> Prop) f self : forall l s, At q P s0 pre G s -> has q s0 pre G self -> mine q P s0 self -> (forall x, In x l -> G x) ->
  wp (put_pairs f self l) (fun _ s' => At q P s0 pre G s') s.
Proof.
  fix IH 1. intros l s H GS MS GL. destruct l as [|k [|v t]]; cbn [put_pairs]; [now apply wp_ret|now apply wp_ret|].
  apply wp_bind. eapply r_hash_map_put; [exact H|exact GS|exact MS| | |].
  - apply (a_good _ _ _ _ _ _ _ H), GL. now left.
  - apply (a_good _ _ _ _ _ _ _ H), GL. right. now left.
  - intros s1 H1. apply (IH t s1 H1 GS MS). intros x IX. apply GL. right. now right.
Qed.
Lemma put_elements_ok q P s0 pre (G : ref -> Prop) f self es s : At q P s0 pre G s -> has q s0 pre G self -> mine q P s0 self ->
  (forall e x, In e es -> x = ekey e \/ In x (evals e) -> G x) ->
  wp (put_elements f self es) (fun _ s' => At q P s0 pre G s') s.
Proof.
  intros H GS MS GE. unfold put_elements. apply wp_iterM; [|exact H]. clear s H. intros e s IE H.
  apply wp_iterM; [|exact H]. clear s H. intros v s IV H.
  assert (GK : good P s (ekey e)) by (apply (a_good _ _ _ _ _ _ _ H); eapply GE; eauto).
  assert (GV : good P s v) by (apply (a_good _ _ _ _ _ _ _ H); eapply GE; eauto).
  apply wp_bind. eapply r_map_of; [exact H|exact GS|]. intros c m L E. apply wp_bind. eapply (wp_vmap_put D P); [apply H|apply GK| |].
  - intros ED. eapply map_alive_of; [apply H|exact ED|exact L|exact E].
  - intros m' R. eapply (r_put_map D q P s0 self m m' (ekey e) v pre G); eauto.
Qed.
Lemma hash_map_add_ok P s0 pre (G : ref -> Prop) f self x y s : At false P s0 pre G s -> G self -> G x -> (forall v, y = Some v -> G v) ->
  wp (hash_map_add f self x y) (fun _ s' => At false P s0 pre G s') s.
Proof.
  intros H GS GX GY. unfold hash_map_add. assert (MS : mine false P s0 self) by (eapply mine_in_G; eauto).
  apply wp_bind, wp_get; [now apply (a_good _ _ _ _ _ _ _ H)|]. intros c L.
  assert (OTHER : wp match y with None => ret false | Some v => hash_map_put f self x v ;;; ret true end (fun _ s' => At false P s0 pre G s') s).
  { destruct y as [v|]; [|now apply wp_ret]. apply wp_bind. eapply r_hash_map_put; [exact H|has|exact MS| | |].
    - now apply (a_good _ _ _ _ _ _ _ H).
    - apply (a_good _ _ _ _ _ _ _ H). auto.
    - intros s1 H1. now apply wp_ret. }
  destruct (cdata c) eqn:E; try exact OTHER; clear OTHER; destruct y; try apply wp_abort.
  - destruct (Nat.even (length l)); [|now apply wp_ret].
    eapply wp_mono; [eapply (put_pairs_ok false P s0 pre (fun z => In z l \/ G z))|].
    + apply at_more; [exact H|]. intros z IZ. eapply at_dref; eauto. now rewrite E.
    + left. now right.
    + exact MS.
    + auto.
    + cbv beta. intros b s1 H1. eapply at_weaken; [exact H1|]. intros z GZ. apply (a_good _ _ _ _ _ _ _ H1). auto.
  - destruct (self =? x); [apply wp_unmodelled|]. apply wp_bind.
    eapply wp_mono; [eapply (put_elements_ok false P s0 pre (fun z => dref (DMap m) z \/ G z))|].
    + apply at_more; [exact H|]. intros z IZ. eapply at_dref; eauto. now rewrite E.
    + left. now right.
    + exact MS.
    + intros e z IE W. left. exists e. auto.
    + cbv beta. intros b s1 H1. apply wp_ret. eapply at_weaken; [exact H1|]. intros z GZ. apply (a_good _ _ _ _ _ _ _ H1). auto.
Qed.
Lemma r_seq_push_atom q P s0 f self x pre (G : ref -> Prop) (Q : unit -> vm -> Prop) s : At q P s0 pre G s -> src s x -> good P s x -> mine q P s0 self ->
  (forall s', At q P s0 pre (fun _ => False) s' -> good P s' self) ->
  (forall s', At q P s0 pre (fun _ => False) s' -> Q tt s') -> wp (seq_push_atom f self x) Q s.
Proof.
  intros H SX GX MS GS K. unfold seq_push_atom. apply wp_bind. eapply r_copy_atom; [exact H|exact SX|exact GX|]. intros y s1 H1.
  assert (GY : good P s1 y) by (apply (a_good _ _ _ _ _ _ _ H1); reflexivity).
  assert (H2 : At q P s0 pre (fun z => z = self) s1). { eapply at_weaken; [exact H1|]. intros z ->. apply GS. eapply at_weaken; [exact H1|easy]. }
  eapply (r_seq_push D q P s0 self y pre); [exact H2|has|exact MS|exact GY|]. intros s2 H3. apply K. eapply at_weaken; [exact H3|easy].
Qed.
Lemma code_shift_ok t f (Q : text -> vm -> Prop) s : (forall u, Q u s) -> wp (code_shift t f) Q s.
Proof. intros K. unfold code_shift. destruct t; [apply wp_abort|]. apply wp_bind, wp_lift; [intros; apply nd_int32|]. intros z _. apply wp_ret, K. Qed.
Lemma character_add_ok P s0 pre (G : ref -> Prop) self other s : At false P s0 pre G s -> G self -> G other ->
  wp (character_add self other) (fun _ s' => At false P s0 pre G s') s.
Proof.
  intros H GS GO. unfold character_add.
  apply wp_bind, wp_get; [now apply (a_good _ _ _ _ _ _ _ H)|]. intros c L. apply wp_bind, wp_get; [now apply (a_good _ _ _ _ _ _ _ H)|]. intros d LD.
  destruct (cdata c) eqn:E; try apply wp_abort. destruct (cdata d); try (apply wp_ret; exact H).
  - apply wp_bind, code_shift_ok. intros u. eapply r_put_plain; eauto; [now rewrite E|easy|exact I].
  - destruct (self =? other); [apply wp_undef|]. eapply r_put_plain; eauto; [now rewrite E|easy|exact I].
Qed.
Lemma character_sub_ok P s0 pre (G : ref -> Prop) self other s : At false P s0 pre G s -> G self -> G other ->
  wp (character_sub self other) (fun _ s' => At false P s0 pre G s') s.
Proof.
  intros H GS GO. unfold character_sub.
  apply wp_bind, wp_get; [now apply (a_good _ _ _ _ _ _ _ H)|]. intros c L. apply wp_bind, wp_get; [now apply (a_good _ _ _ _ _ _ _ H)|]. intros d LD.
  destruct (cdata c) as [ | | | | |tt0| | | | | | | | | | | |] eqn:E; try apply wp_abort. destruct (cdata d) as [ | | | | |uu| | | | | | | | | | | |]; try (destruct tt0; apply wp_ret; exact H).
  - destruct tt0; apply wp_bind, code_shift_ok; intros u; (eapply r_put_plain; eauto; [now rewrite E|easy|exact I]).
  - destruct tt0; [apply wp_abort|]. destruct uu; [apply wp_abort|]. eapply r_put_plain; eauto; [now rewrite E|easy|exact I].
Qed.
Lemma version_change_ok b P s0 pre (G : ref -> Prop) self other s : At false P s0 pre G s -> G self -> G other ->
  wp (version_change b self other) (fun _ s' => At false P s0 pre G s') s.
Proof.
  intros H GS GO. unfold version_change.
  apply wp_bind, wp_get; [now apply (a_good _ _ _ _ _ _ _ H)|]. intros c L. apply wp_bind, wp_get; [now apply (a_good _ _ _ _ _ _ _ H)|]. intros d LD.
  destruct (cdata c) eqn:E; try apply wp_abort. destruct (cdata d); try (apply wp_ret; exact H).
  assert (GO' : forall v' (ok : bool), wp (put self (DSemver v') ;;; ret ok) (fun _ s' => At false P s0 pre G s') s).
  { intros v' ok. apply wp_bind. eapply r_put_plain; [exact H|exact GS|exact L|now rewrite E|easy|exact I|]. intros s' H'. now apply wp_ret. }
  destruct (self =? other); cbv zeta; [|apply GO']. match goal with |- context [if ?c then _ else _] => destruct c end; [apply GO'|]. destruct b; [|apply GO']. match goal with |- context [match ?p with [] => _ | _ => _ end] => destruct p end; [apply GO'|apply wp_nofuel].
Qed.
Lemma subtract_versions_ok P s0 pre (G : ref -> Prop) self : forall t s, At false P s0 pre G s -> G self -> (forall y, In y t -> G y) ->
  wp (subtract_versions self t) (fun _ s' => At false P s0 pre G s') s.
Proof.
  induction t as [|y t IH]; intros s H GS GT; cbn [subtract_versions]; [now apply wp_ret|].
  apply wp_bind. eapply wp_mono; [eapply version_change_ok; [exact H|exact GS|apply GT; now left]|]. intros ok s1 H1. destruct ok; [|now apply wp_ret].
  apply IH; auto. intros z J. apply GT. now right.
Qed.
Lemma plus_eq_ok fuel P a s : bok false (b_plus_eq fuel a) P a s.
Proof.
  unfold b_plus_eq. start_f H c l L E. destruct l as [|x t]; [err|]. getarg. intros cx LX.
  assert (T : incl t (x :: t)) by (intros y; now right). assert (IX : In x (x :: t)) by now left.
  assert (H1 : At false P s [] (fun y => In y (x :: t)) s) by (eapply arg_at; eauto).
  assert (OUT : forall s', At false P s [] (fun y => In y (x :: t)) s' -> wp (ret x) (fun r s' => At false P s [] (eq r) s') s').
  { intros s' H'. eapply out_ret; [exact H'|]. apply (a_good _ _ _ _ _ _ _ H'). exact IX. }
  assert (W : forall f, (forall y s, In y t -> At false P s [] (fun y => In y (x :: t)) s -> True) ->
     (forall y s1, In y t -> At false P s [] (fun y => In y (x :: t)) s1 -> wp (f y) (fun _ s' => At false P s [] (fun y => In y (x :: t)) s') s1) ->
     wp (iterM f t ;;; ret x) (fun r s' => At false P s [] (eq r) s') s).
  { intros f _ F. apply wp_bind. eapply wp_mono; [apply (over_args P s (x :: t) t f s T F H1)|]. intros u s1 H2. now apply OUT. }
  assert (SP : forall y s1, In y t -> At false P s [] (fun y => In y (x :: t)) s1 -> wp (seq_push_atom fuel x y) (fun _ s' => At false P s [] (fun y => In y (x :: t)) s') s1).
  { intros y s1 IY H2. eapply r_seq_push_atom; [exact H2|args|argg|eapply mine_in_G; eauto| |].
    - intros s2 H3. argg.
    - intros s2 H3. eapply arg_at; eauto. }
  destruct (cdata cx) eqn:EX; try err; try apply wp_unmodelled.
  - apply W; [auto|]. intros y s1 IY H2. eapply integer_add_ok; eauto.
  - apply W; [auto|]. intros y s1 IY H2. eapply real_add_ok; eauto.
  - apply W; [auto|]. intros y s1 IY H2. eapply string_push_ok; eauto.
  - destruct t as [|y t']; [now apply OUT|]. apply wp_bind. eapply wp_mono; [eapply character_add_ok; [exact H1|exact IX|cbn; auto]|].
    cbv beta. intros u1 s1 H2. apply wp_bind. eapply wp_mono; [apply (over_args P s (x :: y :: t') t')|]; [intros z J; cbn; auto| |exact H2|intros u2 s2 H3; now apply OUT].
    intros z s2 IZ H3. eapply string_push_ok; [exact H3|exact IX|cbn; auto].
  - now apply OUT.
  - apply W; [auto|]. intros y s1 IY H2. eapply r_vec_push; [exact H2|has|eapply mine_in_G; eauto|apply (a_good _ _ _ _ _ _ _ H2); auto|]. auto.
  - assert (OK : forall k y, In k (x :: t) -> (forall v, y = Some v -> In v (x :: t)) -> wp (ok <- hash_map_add fuel x k y ;; (if (ok : bool) then ret x else new_error)) (fun r s' => At false P s [] (eq r) s') s).
    { intros k y IK IY. apply wp_bind. eapply wp_mono; [eapply hash_map_add_ok; [exact H1|exact IX|exact IK|exact IY]|]. intros b s1 H2. destruct b; [now apply OUT|err]. }
    destruct t as [|k [|v [|]]]; try err; apply OK; cbn; auto; try discriminate. intros v' [= <-]. auto.
  - apply W; [auto|]. exact SP.
  - apply W; [auto|]. exact SP.
  - apply W; [auto|]. intros y s1 IY H2. apply wp_bind. eapply wp_mono; [eapply version_change_ok; [exact H2|exact IX|now right]|]. intros b s2 H3. now apply wp_ret.
Qed.

Lemma not_fun_dec d : (match d with DFun _ | DMac _ => False | _ => True end) -> ~ is_fun d. Proof. destruct d; cbn; tauto. Qed.
Ltac plain := eapply r_put_plain; [eassumption|assumption || (cbn; auto)|eassumption|match goal with E : cdata _ = _ |- _ => rewrite E; cbn; tauto end| |exact I|].
Lemma incr_each_ok P s0 (l : list ref) : forall t last s, At false P s0 [] (fun y => In y l) s -> incl t l -> In last l ->
  wp (incr_each t last) (fun r s' => At false P s0 [] (eq r) s') s.
Proof.
  induction t as [|x t IH]; intros last s H T IL; cbn [incr_each].
  - eapply out_ret; [exact H|]. now apply (a_good _ _ _ _ _ _ _ H).
  - assert (IX : In x l) by (apply T; now left). assert (T' : incl t l) by (intros y J; apply T; now right).
    apply wp_bind, wp_get; [now apply (a_good _ _ _ _ _ _ _ H)|]. intros c L. destruct (cdata c) eqn:E; try err.
    + apply wp_bind, wp_lift; [intros; apply nd_int32|]. intros z' _. apply wp_bind. plain; [easy|]. intros s1 H1. now apply IH.
    + apply wp_bind. plain; [easy|]. intros s1 H1. now apply IH.
Qed.
Lemma incr_ok P a s : bok false (b_incr a) P a s.
Proof.
  unfold b_incr. start_f H c l L E. destruct l as [|x t]; [err|]. eapply incr_each_ok; [eapply arg_at; eauto|apply incl_refl|now left].
Qed.
Lemma in_removelast {X} (x : X) : forall l, In x (removelast l) -> In x l.
Proof. induction l as [|y l IH]; cbn; [auto|]. destruct l; [intros []|]. intros [->|J]; [now left|right; auto]. Qed.
Lemma in_tl {X} (x : X) l : In x (tl l) -> In x l. Proof. destruct l; cbn; auto. Qed.
Lemma decr_each_ok P s0 (l : list ref) : forall t last s, At false P s0 [] (fun y => In y l) s -> incl t l -> In last l ->
  wp (decr_each t last) (fun r s' => At false P s0 [] (eq r) s') s.
Proof.
  induction t as [|x t IH]; intros last s H T IL; cbn [decr_each].
  - eapply out_ret; [exact H|]. now apply (a_good _ _ _ _ _ _ _ H).
  - assert (IX : In x l) by (apply T; now left). assert (T' : incl t l) by (intros y J; apply T; now right).
    apply wp_bind, wp_get; [now apply (a_good _ _ _ _ _ _ _ H)|]. intros c L. destruct (cdata c) eqn:E; try err.
    + apply wp_bind, wp_lift; [intros; apply nd_int32|]. intros z' _. apply wp_bind. plain; [easy|]. intros s1 H1. now apply IH.
    + apply wp_bind. plain; [easy|]. intros s1 H1. now apply IH.
    + destruct s1; [err|]. apply wp_bind. plain; [easy|]. intros s2 H1. now apply IH.
    + destruct l0 as [|y0 l0]; [err|]. apply wp_bind. plain; [rewrite E; intros y; apply in_removelast|]. intros s2 H1. now apply IH.
    + apply wp_bind. plain; [rewrite E; intros y; apply in_tl|]. intros s1 H1. now apply IH.
    + apply wp_bind. plain; [rewrite E; intros y; apply in_removelast|]. intros s1 H1. now apply IH.
Qed.
Lemma decr_ok P a s : bok false (b_decr a) P a s.
Proof.
  unfold b_decr. start_f H c l L E. destruct l as [|x t]; [err|]. eapply decr_each_ok; [eapply arg_at; eauto|apply incl_refl|now left].
Qed.
Lemma pop_back_ok P a s : bok false (b_pop_back a) P a s.
Proof.
  unfold b_pop_back. start_f H c l L E. destruct l as [|x [|]]; try err. getarg. intros cx LX.
  assert (H1 : At false P s [] (fun y => In y [x]) s) by (eapply arg_at; eauto). clear H.
  assert (OUT : forall s', At false P s [] (fun y => In y [x]) s' -> wp (ret x) (fun r s' => At false P s [] (eq r) s') s').
  { intros s' H'. eapply out_ret; [exact H'|]. apply (a_good _ _ _ _ _ _ _ H'). now left. }
  destruct (cdata cx) eqn:EX; try err; try apply wp_unmodelled.
  - apply wp_bind. plain; [easy|exact OUT].
  - now apply OUT.
  - apply wp_bind. plain; [rewrite EX; intros y; apply in_removelast|exact OUT].
  - apply wp_bind. plain; [rewrite EX; intros y; apply in_tl|exact OUT].
  - apply wp_bind. plain; [rewrite EX; intros y; apply in_removelast|exact OUT].
  - apply wp_bind. plain; [easy|exact OUT].
Qed.
Lemma pop_front_ok P a s : bok false (b_pop_front a) P a s.
Proof.
  unfold b_pop_front. start_f H c l L E. destruct l as [|x [|]]; try err. getarg. intros cx LX.
  assert (H1 : At false P s [] (fun y => In y [x]) s) by (eapply arg_at; eauto). clear H.
  assert (OUT : forall s', At false P s [] (fun y => In y [x]) s' -> wp (ret x) (fun r s' => At false P s [] (eq r) s') s').
  { intros s' H'. eapply out_ret; [exact H'|]. apply (a_good _ _ _ _ _ _ _ H'). now left. }
  destruct (cdata cx) eqn:EX; try err; try apply wp_unmodelled.
  - apply wp_bind. plain; [easy|exact OUT].
  - now apply OUT.
  - apply wp_bind. plain; [rewrite EX; intros y; apply in_tl|exact OUT].
  - apply wp_bind. plain; [rewrite EX; intros y; apply in_tl|exact OUT].
  - apply wp_bind. plain; [easy|exact OUT].
Qed.

(** ** Arithmetic *)
Lemma mod_ok P a s : bok true (b_mod a) P a s.
Proof.
  unfold b_mod. start H c l L E. destruct l as [|x [|y [|]]]; try err. getarg. intros cx LX. destruct (cdata cx); try err; try rt.
  getarg. intros cy LY. destruct (cdata cy); try err; try rt. destruct (z0 =? 0)%Z; [err|]. destruct ((z =? INT32_MIN) && (z0 =? -1))%Z%bool; [apply wp_undef|al].
Qed.
Lemma div_each_ok P s0 (l : list ref) : forall t acc s, At true P s0 [] (fun y => In y l) s -> incl t l ->
  wp (div_each t acc) (fun r s' => At true P s0 [] (eq r) s') s.
Proof.
  induction t as [|x t IH]; intros acc s H T; cbn [div_each]; [al|].
  assert (IX : In x l) by (apply T; now left). assert (T' : incl t l) by (intros y J; apply T; now right).
  apply wp_bind, wp_get; [now apply (a_good _ _ _ _ _ _ _ H)|]. intros c L. destruct (as_double (cdata c)).
  - destruct (is_zero _); [err|]. now apply IH.
  - destruct (is_error_data _); [|err]. eapply out_ret; [exact H|]. now apply (a_good _ _ _ _ _ _ _ H).
Qed.
Lemma div_ok P a s : bok true (b_div a) P a s.
Proof.
  unfold b_div. start H c l L E. assert (H1 : At true P s [] (fun y => In y l) s) by (eapply arg_at; eauto). destruct l as [|x t]; [err|].
  destruct t as [|y t]; [eapply div_each_ok; [exact H1|apply incl_refl]|]. getarg. intros cx LX. destruct (as_double (cdata cx)).
  - eapply div_each_ok; [exact H1|]. intros z J. now right.
  - destruct (is_error_data _); [rt|err].
Qed.
Lemma arith_each_ok P s0 o (l : list ref) : forall t b z f s, At true P s0 [] (fun y => In y l) s -> incl t l ->
  wp (arith_each o t b z f) (fun r s' => At true P s0 [] (eq r) s') s.
Proof.
  induction t as [|x t IH]; intros b z f s H T; cbn [arith_each]; [destruct b; al|].
  assert (IX : In x l) by (apply T; now left). assert (T' : incl t l) by (intros y J; apply T; now right).
  apply wp_bind, wp_get; [now apply (a_good _ _ _ _ _ _ _ H)|]. intros c L. destruct (cdata c); try err.
  - apply wp_bind, wp_lift; [intros; apply nd_int32|]. intros z' _. now apply IH.
  - apply wp_bind, wp_lift; [intros; apply nd_trunc|]. intros i _. apply wp_bind, wp_lift; [intros; apply nd_int32|]. intros z' _. now apply IH.
  - eapply out_ret; [exact H|]. now apply (a_good _ _ _ _ _ _ _ H).
Qed.
Lemma times_ok P a s : bok true (b_times a) P a s.
Proof. unfold b_times. start H c l L E. eapply arith_each_ok; [eapply arg_at; eauto|apply incl_refl]. Qed.
Lemma plus_numerical_ok P a s : bok true (plus_numerical a) P a s.
Proof. unfold plus_numerical. start H c l L E. eapply arith_each_ok; [eapply arg_at; eauto|apply incl_refl]. Qed.
Lemma minus_numerical_ok P a s : bok true (minus_numerical a) P a s.
Proof.
  unfold minus_numerical. start H c l L E. assert (H1 : At true P s [] (fun y => In y l) s) by (eapply arg_at; eauto). destruct l as [|x t]; [al|].
  destruct t as [|y t].
  - getarg. intros cx LX. destruct (cdata cx); try err; try rt.
    + apply wp_bind, wp_lift; [intros; apply nd_int32|]. intros z' _. al.
    + apply wp_bind, wp_lift; [intros; apply nd_trunc|]. intros i _. al.
  - getarg. intros cx LX. destruct (cdata cx); try err; try rt.
    + eapply arith_each_ok; [exact H1|]. intros w J. now right.
    + apply wp_bind, wp_lift; [intros; apply nd_trunc|]. intros i _. eapply arith_each_ok; [exact H1|]. intros w J. now right.
Qed.
Lemma new_put_ok q P s0 pre (G : ref -> Prop) r d c s (Q : unit -> vm -> Prop) : mine q P s0 r -> has q s0 pre G r -> At q P s0 pre G s ->
  lookup (all s) r = Some c -> ~ is_fun (cdata c) -> (forall x, ~ dref d x) -> tame d -> (forall s', At q P s0 pre G s' -> Q tt s') -> wp (put r d) Q s.
Proof.
  intros MR HR H L NF ND TD K. eapply (r_put D q P s0 r); [exact H|exact HR|exact MR|intros x R; now apply ND in R|intros _; exact TD| |].
  - intros _ c' L' F. congruence.
  - intros s1 H1 _ _. now apply K.
Qed.
Lemma append_texts_ok q P s0 pre (G : ref -> Prop) r : mine q P s0 r -> has q s0 pre G r -> forall t s, At q P s0 pre G s -> (forall x, In x t -> G x) ->
  wp (append_texts r t) (fun _ s' => At q P s0 pre G s') s.
Proof.
  intros MR HR. induction t as [|x t IH]; intros s H GT; cbn [append_texts]; [now apply wp_ret|].
  apply wp_bind, wp_get; [apply (a_good _ _ _ _ _ _ _ H), GT; now left|]. intros c L.
  apply wp_bind. eapply r_get; [exact H|exact HR|]. intros d LD _.
  assert (GT' : forall y, In y t -> G y) by (intros y J; apply GT; now right).
  assert (W : forall w, (forall y, ~ dref w y) -> tame w -> ~ is_fun (cdata d) -> wp (put r w ;;; append_texts r t) (fun _ s' => At q P s0 pre G s') s).
  { intros w ND TD NF. apply wp_bind. eapply new_put_ok; eauto. }
  destruct (cdata c); try (apply wp_ret; exact H); destruct (cdata d); try (apply wp_ret; exact H); apply W; easy.
Qed.
Lemma plus_text_ok P a s : bok true (plus_text a) P a s.
Proof.
  unfold plus_text. start H c l L E. destruct l as [|x t]; [apply wp_abort|]. getarg. intros cx LX.
  apply wp_bind. apply (wp_mono D _ (fun d s1 => s1 = s /\ (forall y, ~ dref d y) /\ tame d)).
  { destruct (cdata cx); try apply wp_abort; (apply wp_bind, wp_lift; [intros; apply nd_c_string_copy|]); intros w _; apply wp_ret; repeat split; auto. }
  intros d' s1 (-> & ND & TD).
  apply wp_bind, (r_alloc D true P s _ [] _ _ _ H); [intros y R; now apply ND in R|auto|]. clear H. intros r s1 H _ MR.
  apply wp_bind, (r_push D true P s r [] _ _ _ H); [has|]. clear H. intros s2 H.
  apply wp_bind. eapply wp_mono; [eapply (append_texts_ok true P s [r] (fun y => In y (x :: t)) r MR); [has|eapply arg_at; eauto|cbn; auto]|].
  clear H. intros ok s3 H. apply wp_bind, (r_pop D true P s r [] _ _ _ H). clear H. intros s4 H.
  destruct ok; [|err]. apply wp_ret. eapply at_eq; [exact H|]. left. split; [reflexivity|apply MR].
Qed.
Lemma change_versions_ok b q P s0 pre (G : ref -> Prop) r : mine q P s0 r -> has q s0 pre G r -> forall t s, At q P s0 pre G s -> (forall x, In x t -> G x) ->
  wp (change_versions b r t) (fun _ s' => At q P s0 pre G s') s.
Proof.
  intros MR HR. induction t as [|x t IH]; intros s H GT; cbn [change_versions]; [now apply wp_ret|].
  apply wp_bind, wp_get; [apply (a_good _ _ _ _ _ _ _ H), GT; now left|]. intros c L.
  apply wp_bind. eapply r_get; [exact H|exact HR|]. intros d LD _.
  assert (GT' : forall y, In y t -> G y) by (intros y J; apply GT; now right).
  destruct (cdata c); try (apply wp_ret; exact H); destruct (cdata d) eqn:ED; try (apply wp_ret; exact H). apply wp_bind.
  eapply new_put_ok; eauto; try easy. now rewrite ED.
Qed.
Lemma version_arith_ok b P a s : bok true (version_arith b a) P a s.
Proof.
  unfold version_arith. start H c l L E. destruct l as [|x t]; [apply wp_abort|]. getarg. intros cx LX. destruct (cdata cx); try apply wp_abort.
  apply wp_bind, (r_alloc D true P s _ [] _ _ _ H); [easy|easy|]. clear H. intros r s1 H _ MR.
  apply wp_bind, (r_push D true P s r [] _ _ _ H); [has|]. clear H. intros s2 H.
  apply wp_bind. eapply wp_mono; [eapply (change_versions_ok b true P s [r] (fun y => In y (x :: t)) r MR); [has|eapply arg_at; eauto|cbn; auto]|].
  clear H. intros ok s3 H. apply wp_bind, (r_pop D true P s r [] _ _ _ H). clear H. intros s4 H.
  destruct ok; [|err]. apply wp_ret. eapply at_eq; [exact H|]. left. split; [reflexivity|apply MR].
Qed.
Lemma hash_map_add_new_ok q P s0 pre (G : ref -> Prop) f self k v s : At q P s0 pre G s -> has q s0 pre G self -> mine q P s0 self -> good P s k -> good P s v ->
  wp (hash_map_add f self k (Some v)) (fun _ s' => At q P s0 pre G s') s.
Proof.
  intros H HS MS GK GV. unfold hash_map_add. apply wp_bind, wp_get; [apply GK|]. intros c L.
  destruct (cdata c); try apply wp_abort; (apply wp_bind; eapply r_hash_map_put; [exact H|exact HS|exact MS|exact GK|exact GV|]; intros s9 H9; now apply wp_ret).
Qed.
Lemma add_copies_ok P s0 f r : mine true P s0 r -> forall n l s, (List.length l <= n)%nat -> (forall y, In y l -> reach s0 y) ->
  At true P s0 [r] (fun _ => False) s -> wp (add_copies f r l) (fun _ s' => At true P s0 [r] (fun _ => False) s') s.
Proof.
  intros MR. induction n as [|n IH]; intros [|k [|v t]] s LN RL H; cbn in LN; try lia; cbn [add_copies]; try (apply wp_ret; exact H).
  assert (RK : reach s0 k) by (apply RL; now left). assert (RV : reach s0 v) by (apply RL; right; now left).
  apply wp_bind. eapply r_copy; [exact H|right; eapply at_reach; eauto|]. pose proof (a_next _ _ _ _ _ _ _ H) as N1. clear H. intros k' s1 H NK.
  assert (MK : mine true P s0 k') by (split; [apply (a_good _ _ _ _ _ _ _ H); reflexivity|intros _; lia]).
  apply wp_bind, (r_push D true P s0 k' [r] _ _ _ H); [has|]. clear H. intros s2 H.
  apply wp_bind. eapply r_copy; [exact H|right; eapply at_reach; eauto|]. pose proof (a_next _ _ _ _ _ _ _ H) as N2. clear H. intros v' s3 H NV.
  assert (MV : mine true P s0 v') by (split; [apply (a_good _ _ _ _ _ _ _ H); reflexivity|intros _; lia]).
  apply wp_bind, (r_push D true P s0 v' [k'; r] _ _ _ H); [has|]. clear H. intros s4 H.
  apply wp_bind. eapply wp_mono; [eapply hash_map_add_new_ok; [exact H|right; left; cbn; auto|exact MR| |]|].
  - eapply at_good; [exact H|right; left; cbn; auto|right; apply MK].
  - eapply at_good; [exact H|right; left; cbn; auto|right; apply MV].
  - clear H. intros ok s5 H. destruct ok; [|apply wp_abort].
    apply wp_bind, (r_pop D true P s0 v' [k'; r] _ _ _ H). clear H. intros s6 H.
    apply wp_bind, (r_pop D true P s0 k' [r] _ _ _ H). clear H. intros s7 H.
    apply IH; [lia|intros y J; apply RL; right; now right|]. eapply at_weaken; [exact H|easy].
Qed.
Lemma plus_map_ok fuel P a s : bok true (plus_map fuel a) P a s.
Proof.
  unfold plus_map. start H c l L E. destruct l as [|x t]; [apply wp_abort|]. destruct (Nat.odd (length t)); [err|].
  assert (RE : forall y, In y (x :: t) -> reach s y) by (intros y J; exact (arg_reach P a s c (x :: t) IN L E _ _ _ s y H J)).
  apply wp_bind. eapply r_copy; [exact H|args|]. clear H. intros r s1 H NR.
  assert (MR : mine true P s r) by (split; [apply (a_good _ _ _ _ _ _ _ H); reflexivity|auto]).
  apply wp_bind, (r_push D true P s r [] _ _ _ H); [has|]. clear H. intros s2 H.
  apply wp_bind. eapply wp_mono; [eapply (add_copies_ok P s fuel r MR _ t s2 (le_n _)); [intros y J; apply RE; now right|eapply at_weaken; [exact H|easy]]|].
  clear H. intros u s3 H. apply wp_bind, (r_pop D true P s r [] _ _ _ H). clear H. intros s4 H.
  apply wp_ret. eapply at_eq; [exact H|]. left. split; [reflexivity|apply MR].
Qed.
(** Copies of the arguments appended to a value on the stack. *)
Lemma copies_ok P s0 f r (l : list ref) pre G s : mine true P s0 r -> In r pre -> (forall y, In y l -> reach s0 y) -> At true P s0 pre G s ->
  wp (iterM (fun y => y' <- copy f y ;; vec_push r y') l) (fun _ s' => At true P s0 pre (fun _ => False) s') s.
Proof.
  intros MR IR RL H. apply wp_iterM; [|eapply at_weaken; [exact H|easy]]. clear s H. intros y s IY H. apply wp_bind.
  eapply r_copy; [exact H|right; eapply at_reach; eauto|]. clear H. intros y' s1 H _.
  eapply (r_vec_push D true P s0 r y' pre); [exact H|right; left; exact IR|exact MR|apply (a_good _ _ _ _ _ _ _ H); reflexivity|].
  intros s2 H2 _ _. eapply at_weaken; [exact H2|easy].
Qed.
Lemma plus_vector_ok fuel P a s : bok true (plus_vector fuel a) P a s.
Proof.
  unfold plus_vector. start H c l L E. destruct l as [|x t]; [apply wp_abort|].
  assert (RE : forall y, In y (x :: t) -> reach s y) by (intros y J; exact (arg_reach P a s c (x :: t) IN L E _ _ _ s y H J)).
  apply wp_bind. eapply r_copy; [exact H|args|]. clear H. intros r s1 H NR.
  assert (MR : mine true P s r) by (split; [apply (a_good _ _ _ _ _ _ _ H); reflexivity|auto]).
  apply wp_bind, (r_push D true P s r [] _ _ _ H); [has|]. clear H. intros s2 H.
  apply wp_bind. eapply wp_mono; [eapply (copies_ok P s fuel r t [r]); [exact MR|now left|intros y J; apply RE; now right|exact H]|].
  clear H. intros u s3 H. apply wp_bind, (r_pop D true P s r [] _ _ _ H). clear H. intros s4 H.
  apply wp_ret. eapply at_eq; [exact H|]. left. split; [reflexivity|apply MR].
Qed.
Lemma plus_ok fuel P a s : bok true (b_plus fuel a) P a s.
Proof.
  unfold b_plus. start H c l L E. destruct l as [|x t]; [now apply plus_numerical_ok|]. getarg. intros cx LX.
  destruct (cdata cx); try (now apply plus_numerical_ok); try (now apply plus_text_ok); [now apply plus_vector_ok|now apply plus_map_ok|now apply version_arith_ok].
Qed.
Lemma remove_texts_ok P s0 f x (l : list ref) : In x l -> forall t s, At false P s0 [] (fun y => In y l) s -> incl t l ->
  wp (remove_texts f x t) (fun r s' => At false P s0 [] (eq r) s') s.
Proof.
  intros IX. induction t as [|y t IH]; intros s H T; cbn [remove_texts].
  - eapply out_ret; [exact H|]. now apply (a_good _ _ _ _ _ _ _ H).
  - assert (IY : In y l) by (apply T; now left). assert (T' : incl t l) by (intros z J; apply T; now right).
    apply wp_bind, wp_get; [now apply (a_good _ _ _ _ _ _ _ H)|]. intros c L. apply wp_bind, wp_get; [now apply (a_good _ _ _ _ _ _ _ H)|]. intros d LD.
    destruct (cdata c) eqn:E; try err. destruct (cdata d); try err.
    + apply wp_bind, wp_lift; [intros; apply nd_remove_all|]. intros p _. apply wp_bind. plain; [easy|]. intros s3 H1. now apply IH.
    + apply wp_bind, wp_lift; [intros; apply nd_remove_all|]. intros p _. apply wp_bind. plain; [easy|]. intros s3 H1. now apply IH.
Qed.
Lemma minus_ok fuel P a s : bok false (b_minus fuel a) P a s.
Proof.
  unfold b_minus. start_f H c l L E.
  assert (N : wp (minus_numerical a) (fun r s' => At false P s [] (eq r) s') s).
  { eapply wp_mono; [exact (minus_numerical_ok P a s A IN)|]. intros r s' H'. exact (at_loud D P true s [] _ s' H'). }
  destruct l as [|x t]; [exact N|]. getarg. intros cx LX. destruct (cdata cx); try exact N.
  - eapply (remove_texts_ok P s fuel x (x :: t)); [now left|eapply arg_at; eauto|intros y J; now right].
  - eapply wp_mono; [exact (version_arith_ok false P a s A IN)|]. intros r s' H'. exact (at_loud D P true s [] _ s' H').
Qed.

(** ** Collections *)
Lemma hash_map_ok fuel P a s : bok true (b_hash_map fuel a) P a s.
Proof.
  intros A IN. pose proof (at_start D true P s A) as H. unfold b_hash_map.
  apply wp_bind, (r_alloc D true P s _ [] _ _ _ H); [intros x R; now apply map_new_ref in R|easy|]. clear H. intros r s1 H _ MR.
  apply wp_bind, (r_push D true P s r [] _ _ _ H); [has|]. clear H. intros s2 H.
  apply wp_bind. apply wp_vec_of; [eapply at_live; [exact H|right; right; left; now apply (i_priv _ _ _ A)]|]. intros c l L E.
  rewrite (a_same _ _ _ _ _ _ _ H) in L by auto.
  apply wp_bind. eapply wp_mono; [eapply (put_pairs_ok true P s [r] (fun y => In y l) fuel r l); [eapply arg_at; eauto|has|exact MR|auto]|].
  clear H. intros ok s3 H. apply wp_bind, (r_pop D true P s r [] _ _ _ H). clear H. intros s4 H.
  destruct ok; [|err]. apply wp_ret. eapply at_eq; [exact H|]. left. split; [reflexivity|apply MR].
Qed.
Lemma new_seq_ok fuel P s d t : Inv P s -> (forall x, ~ dref d x) -> tame d -> (forall y, In y t -> reach s y /\ ~ In y P) ->
  wp (new_seq fuel d t) (fun r s' => At true P s [] (eq r) s') s.
Proof.
  intros A ND TD RT. unfold new_seq. pose proof (at_start D true P s A) as H.
  apply wp_bind, (r_alloc D true P s _ [] _ _ _ H); [intros x R; now apply ND in R|easy|]. clear H. intros r s1 H _ MR.
  apply wp_bind, (r_push D true P s r [] _ _ _ H); [has|]. clear H. intros s2 H.
  apply wp_bind. apply (wp_mono D _ (fun _ s' => At true P s [r] (fun _ => False) s')).
  - apply wp_iterM; [|eapply at_weaken; [exact H|easy]]. clear H. intros y s3 IY H. destruct (RT y IY) as (RY & NY).
    eapply r_seq_push_atom; [exact H|right; eapply at_reach; eauto| |exact MR| |auto].
    + eapply at_good; [exact H| |auto]. right. right. right. auto.
    + intros s4 H4. eapply at_good; [exact H4|has|right; apply MR].
  - clear H. intros u s3 H. apply wp_bind, (r_pop D true P s r [] _ _ _ H). clear H. intros s4 H.
    apply wp_ret. eapply at_eq; [exact H|]. left. split; [reflexivity|apply MR].
Qed.
Lemma queue_ok fuel P a s : bok true (b_queue fuel a) P a s.
Proof.
  unfold b_queue. start H c l L E. apply new_seq_ok; [exact A|easy|exact I|]. intros y J. split; [exact (arg_reach P a s c l IN L E _ _ _ s y H J)|].
  eapply (arg_good P a s c l IN L E _ _ _ s y H J).
Qed.
Lemma list_ok fuel P a s : bok true (b_list fuel a) P a s.
Proof.
  unfold b_list. start H c l L E. apply new_seq_ok; [exact A|easy|exact I|]. intros y J. split; [exact (arg_reach P a s c l IN L E _ _ _ s y H J)|].
  eapply (arg_good P a s c l IN L E _ _ _ s y H J).
Qed.
Lemma queue_max_ok fuel P a s : bok true (b_queue_max fuel a) P a s.
Proof.
  unfold b_queue_max. start H c l L E. destruct l as [|x t]; [err|]. getarg. intros cx LX. destruct (cdata cx); try err.
  destruct (z <? 0)%Z; [err|]. apply new_seq_ok; [exact A|easy|exact I|]. intros y J. assert (J' : In y (x :: t)) by now right.
  split; [exact (arg_reach P a s c _ IN L E _ _ _ s y H J')|]. eapply (arg_good P a s c _ IN L E _ _ _ s y H J').
Qed.
Lemma wp_vmap_found P fuel m hk k (Q : option (element ref ref) -> vm -> Prop) s : Inv P s -> (D = false -> live s k) -> (D = false -> map_alive (all s) m) ->
  (forall o, (forall e, o = Some e -> In e (concat (buckets m))) -> Q o s) -> wp (vmap_find fuel m hk k) Q s.
Proof.
  intros A L MA K. unfold vmap_find. apply wp_heap.
  - intros E. apply (nd_find_o (all s)).
    + intros a b LA LB. apply nd_compare; auto. eapply inv_closed; eauto.
    + now apply L.
    + intros e I. apply nth_concat in I. exact (proj1 (MA E e I)).
  - intros o E. apply K. intros e ->. apply find_o_in in E. now apply nth_concat in E.
Qed.
Lemma map_at_ok P s0 fuel m i w pre G s cx x : At true P s0 pre G s -> lookup (all s) x = Some cx -> cdata cx = DMap m ->
  (D = false -> live s i) -> (D = false -> live s w) -> wp (map_at fuel m i w) (fun o s' => s' = s /\ forall v, o = Some v -> dref (cdata cx) v) s.
Proof.
  intros H LX EX LI LW. unfold map_at. apply wp_bind, wp_get; [exact LW|]. intros cw _. 
  assert (NONE : wp (ret None) (fun (o : option ref) s' => s' = s /\ forall v, o = Some v -> dref (cdata cx) v) s) by (apply wp_ret; easy).
  assert (SOME : forall e, In e (concat (buckets m)) -> wp (v <- lift (single e) ;; ret (Some v)) (fun (o : option ref) s' => s' = s /\ forall v, o = Some v -> dref (cdata cx) v) s).
  { intros e IE. apply wp_bind, wp_lift; [intros; apply nd_single|]. intros v V. apply wp_ret. split; [reflexivity|]. intros v' [= <-]. rewrite EX.
    exists e. split; [exact IE|]. right. now apply single_in. }
  destruct (cdata cw); try exact NONE. destruct (text_eqb _ _).
  - apply wp_bind, wp_get; [exact LI|]. intros ci _. destruct (cdata ci); try exact NONE. destruct (map_get_at_index m z) as [e|] eqn:G1; [|exact NONE].
    apply SOME. eapply get_at_index_in; eauto.
  - destruct (text_eqb _ _); [|exact NONE]. apply wp_bind. eapply (wp_hash D P); [apply H|exact LI|]. intros hk. apply wp_bind.
    eapply (wp_vmap_found P); [apply H|exact LI|intros ED; eapply map_alive_of; [apply H|exact ED|exact LX|exact EX]|]. intros o O. destruct o as [e|]; [|exact NONE].
    apply SOME. now apply O.
Qed.
Lemma list_at_in l i r : list_at l i = Some r -> In r l.
Proof. unfold list_at. destruct (i <? 0)%Z; intros E; apply nth_error_In in E; [now apply in_rev|exact E]. Qed.
Lemma ln_at_ok fuel P a s : bok true (b_ln_at fuel a) P a s.
Proof.
  unfold b_ln_at. start H c l L E. destruct l as [|x [|i t]]; try err. getarg. intros cx LX.
  destruct (cdata cx) eqn:EX; try apply wp_abort; try err.
  - destruct t; [|err]. getarg. intros ci LI. destruct (cdata ci); try err.
    destruct (norm_index _ z); [|err]. destruct (nth_error l n) as [r|] eqn:EN; [|err]. eapply out_ret; [exact H|].
    eapply at_dref; [exact H|exact LX|]. rewrite EX. eapply nth_error_In; eauto.
  - destruct t as [|w [|]]; try err. apply wp_bind. eapply wp_mono; [eapply (map_at_ok P s); [exact H|exact LX|exact EX|argl|argl]|]. cbv beta. intros o s' (-> & O).
    destruct o as [v|]; [|err]. eapply out_ret; [exact H|]. eapply at_dref; eauto.
  - destruct t; [|err]. getarg. intros ci LI. destruct (cdata ci); try err.
    destruct (list_at l z) as [r|] eqn:EN; [|apply wp_abort]. eapply out_ret; [exact H|].
    eapply at_dref; [exact H|exact LX|]. rewrite EX. eapply list_at_in; eauto.
Qed.

(** ** Searching and measuring *)
Lemma best_each_ok (better : heap -> ref -> ref -> outcome bool) (l : list ref) P s0 :
  (forall h x y, closed h -> lookup h x <> None -> lookup h y <> None -> nd (better h x y)) ->
  forall t best s, At true P s0 [] (fun y => In y l) s -> incl t l -> In best l -> wp (best_each better best t) (fun r s' => At true P s0 [] (eq r) s') s.
Proof.
  intros B. induction t as [|y t IH]; intros best s H T IB; cbn [best_each].
  - eapply out_ret; [exact H|]. now apply (a_good _ _ _ _ _ _ _ H).
  - apply wp_bind, wp_heap.
    + intros ED. apply B; [eapply at_closed; eauto| |]; apply (a_good _ _ _ _ _ _ _ H); auto. apply T. now left.
    + intros b _. apply IH; [exact H|intros z J; apply T; now right|]. destruct b; [apply T; now left|exact IB].
Qed.
Lemma nd_greater fuel h x y : closed h -> lookup h x <> None -> lookup h y <> None -> nd (vgreater fuel h x y).
Proof. intros. apply nd_pred. now apply nd_compare. Qed.
Lemma nd_less fuel h x y : closed h -> lookup h x <> None -> lookup h y <> None -> nd (vless fuel h x y).
Proof. intros. apply nd_pred. now apply nd_compare. Qed.
Lemma max_ok fuel P a s : bok true (b_max fuel a) P a s.
Proof.
  unfold b_max. start H c l L E. destruct l as [|x [|y t]]; try err. eapply best_each_ok; [apply nd_greater|eapply arg_at; eauto|intros z J; now right|now left].
Qed.
Lemma min_ok fuel P a s : bok true (b_min fuel a) P a s.
Proof.
  unfold b_min. start H c l L E. destruct l as [|x [|y t]]; try err. eapply best_each_ok; [apply nd_less|eapply arg_at; eauto|intros z J; now right|now left].
Qed.
Lemma starts_with_ok P a s : bok true (b_starts_with a) P a s.
Proof.
  unfold b_starts_with. start H c l L E. destruct l as [|x [|y [|]]]; try err.
  apply wp_bind, (r_push D true P s a [] _ _ _ H); [right; right; left; now apply (i_priv _ _ _ A)|]. clear H. intros s1 H.
  getarg. intros cx LX. getarg. intros cy LY.
  assert (F : wp (pop a ;;; value_false) (fun r s' => At true P s [] (eq r) s') s1).
  { apply wp_bind, (r_pop D true P s a [] _ _ _ H). clear H. intros s2 H. eapply (r_use D true true); [exact H|apply value_false_ok; apply H|auto|auto]. }
  destruct (cdata cx); try exact F. destruct (cdata cy); try exact F. clear F.
  apply wp_bind, (r_pop D true P s a [] _ _ _ H). clear H. intros s4 H. al.
Qed.
Lemma to_real_ok P a s : bok true (b_to_real a) P a s.
Proof.
  unfold b_to_real. start H c l L E. destruct l as [|x [|]]; try err. getarg. intros cx LX. destruct (as_double (cdata cx)); [al|].
  destruct (cdata cx); try err; try al; (apply wp_bind, wp_lift; [intros; apply nd_c_string|]; intros z _; al).
Qed.
Lemma to_integer_ok P a s : bok true (b_to_integer a) P a s.
Proof.
  unfold b_to_integer. start H c l L E. destruct l as [|x [|]]; try err. getarg. intros cx LX. destruct (cdata cx); try err; try al.
  - apply wp_bind, wp_lift; [intros; apply nd_trunc|]. intros z _. al.
  - apply wp_bind, wp_lift; [intros; apply nd_c_string|]. intros z _. al.
  - apply wp_bind, wp_lift; [intros; apply nd_c_string|]. intros z _. al.
Qed.
Lemma to_string_ok fuel P a s : bok true (b_to_string fuel a) P a s.
Proof.
  unfold b_to_string. start H c l L E. destruct l as [|x t]; [err|]. apply wp_bind, wp_read. apply wp_bind, wp_heap; [|intros ts _; al].
  intros ED. apply nd_omap. intros y J. apply nd_to_text; [eapply at_closed; eauto|]. exact (arg_live P a s c _ IN L E _ _ _ s y H J ED).
Qed.
Lemma nd_octets t : nd (octets_of t).
Proof. apply nd_bind; [apply nd_c_string|discriminate]. Qed.
Lemma string_format_ok fuel P a s : bok true (b_string_format fuel a) P a s.
Proof.
  unfold b_string_format. start H c l L E. destruct l as [|x t]; [err|]. apply wp_bind, wp_read.
  assert (TX : forall pl y, In y (x :: t) -> D = false -> nd (to_text (readably s) pl fuel (all s) y)).
  { intros pl y J ED. apply nd_to_text; [eapply at_closed; eauto|]. exact (arg_live P a s c _ IN L E _ _ _ s y H J ED). }
  destruct t as [|y t].
  - apply wp_bind, wp_heap; [apply TX; now left|intros u _; al].
  - getarg. intros cx LX. destruct (cdata cx) as [ | | | |txt| | | | | | | | | | | | |]; try err. cbv zeta. apply wp_bind, wp_heap.
    + intros ED. apply nd_omap. intros [ch|k] _; [discriminate|]. cbn [piece_text]. destruct (nth_error (x :: y :: t) k) as [z|] eqn:N; [|discriminate]. apply TX; [eapply nth_error_In; exact N|exact ED].
    + intros ts _. destruct (snd _); [al|err].
Qed.
Lemma print_ok fuel P a s : bok false (b_print fuel a) P a s.
Proof.
  unfold b_print. start_f H c l L E. destruct l as [|x t]; [err|]. getarg. intros cx LX. apply wp_bind, wp_read.
  assert (TX : forall y, In y (x :: t) -> D = false -> nd (to_text (readably s) false fuel (all s) y)).
  { intros y J ED. apply nd_to_text; [eapply at_closed; eauto|]. exact (arg_live P a s c _ IN L E _ _ _ s y H J ED). }
  assert (ONE : wp (o <- heap_op (fun h => obind (to_text (readably s) false fuel h x) octets_of) ;; write_out o ;;; value_true) (fun r s' => At false P s [] (eq r) s') s).
  { apply wp_bind, wp_heap; [intros ED; apply nd_bind; [apply TX; [now left|exact ED]|intros; apply nd_octets]|]. intros o _. apply wp_bind. eapply r_write_out; [exact H|]. clear H TX. intros s1 H.
    eapply (r_use D false true P s []); [exact H|apply value_true_ok; apply H|auto|auto]. }
  destruct (cdata cx) as [ | | | |txt| | | | | | | | | | | | |]; try exact ONE. destruct t as [|y t]; [exact ONE|]. clear ONE. cbv zeta. apply wp_bind, wp_heap.
  - intros ED. apply nd_omap. intros [ch|k] _; [discriminate|]. cbn [piece_octets]. destruct (nth_error (x :: y :: t) k) as [z|] eqn:N; [|discriminate].
    apply nd_bind; [apply TX; [eapply nth_error_In; exact N|exact ED]|intros; apply nd_octets].
  - intros o _. apply wp_bind. eapply r_write_out; [exact H|]. clear H TX. intros s1 H. destruct (snd _); [|err].
    eapply (r_use D false true P s []); [exact H|apply value_true_ok; apply H|auto|auto].
Qed.
Lemma println_ok fuel P a s : bok false (b_println fuel a) P a s.
Proof.
  unfold b_println. start_f H c l L E. destruct l as [|x t].
  - apply wp_bind. eapply r_write_out; [exact H|]. clear H. intros s1 H. eapply (r_use D false true P s []); [exact H|apply value_true_ok; apply H|auto|auto].
  - apply wp_bind. eapply wp_mono; [apply (print_ok fuel P a s A IN)|]. cbv beta. clear H. intros r s1 H. apply wp_bind. eapply r_write_out; [exact H|]. clear H. intros s2 H. now apply wp_ret.
Qed.
Lemma print_readably_ok P a s : bok false (b_print_readably a) P a s.
Proof.
  unfold b_print_readably. start_f H c l L E. destruct l as [|x [|y t]].
  - apply wp_bind, wp_read. al.
  - apply wp_bind, (r_push D false P s a [] _ _ _ H); [right; right; left; now apply (i_priv _ _ _ A)|]. clear H. intros s1 H.
    getarg. intros cx LX. destruct (cdata cx); try (apply wp_bind, (r_pop D false P s a [] _ _ _ H); clear H; intros s2 H; err).
    apply wp_bind. eapply r_set_readably; [exact H|]. clear H LX. intros s2 H. apply wp_bind, (r_pop D false P s a [] _ _ _ H). clear H. intros s3 H. apply wp_bind, wp_read. al.
  - err.
Qed.
Lemma distance_ok P a s : bok true (b_distance a) P a s.
Proof.
  unfold b_distance. start H c l L E. destruct l as [|x [|y [|]]]; try err. getarg. intros cx LX. getarg. intros cy LY.
  destruct (as_double (cdata cx)), (as_double (cdata cy)); try err; try al. destruct (as_text (cdata cx)), (as_text (cdata cy)); try err; al.
Qed.
Lemma sqrt_ok P a s : bok true (b_sqrt a) P a s.
Proof.
  unfold b_sqrt. start H c l L E. destruct l as [|x [|]]; try err. getarg. intros cx LX. destruct (as_double (cdata cx)); [|err]. destruct (SFltb _ _); [err|al].
Qed.
Lemma character_ok P a s : bok true (b_character a) P a s.
Proof.
  unfold b_character. start H c l L E. destruct l as [|x [|]]; try err. getarg. intros cx LX.
  destruct (cdata cx); try err; try (destruct (text_eqb _ _); [al|]; destruct (text_eqb _ _); [al|err]).
  - destruct (z <? 0)%Z; [err|al].
  - apply wp_bind, wp_lift; [intros; apply nd_trunc|]. intros z _. destruct (z <? 0)%Z; [err|al].
Qed.
Lemma abort_ok P a s : bok true (b_abort a) P a s.
Proof. unfold b_abort. start H c l L E. destruct l as [|x [|]]; try err. apply wp_abort. Qed.
(** A new vector filled with new values while it is on the stack. *)
Lemma fill_ok {X} (data_of : X -> data) P s (l : list X) : (forall x y, ~ dref (data_of x) y) -> (forall x, tame (data_of x)) -> Inv P s ->
  wp (r <- alloc (DVec []) ;; push r ;;; iterM (fun i => k <- alloc (data_of i) ;; vec_push r k) l ;;; pop r ;;; ret r) (fun r s' => At true P s [] (eq r) s') s.
Proof.
  intros ND T A. pose proof (at_start D true P s A) as H.
  apply wp_bind, (r_alloc D true P s _ [] _ _ _ H); [easy|easy|]. clear H. intros r s1 H _ MR.
  apply wp_bind, (r_push D true P s r [] _ _ _ H); [has|]. clear H. intros s2 H.
  apply wp_bind. apply (wp_mono D _ (fun _ s' => At true P s [r] (fun _ => False) s')).
  - apply wp_iterM; [|eapply at_weaken; [exact H|easy]]. clear H. intros y s3 IY H. apply wp_bind.
    apply (r_alloc D true P s _ [r] _ _ _ H); [intros z R; now apply ND in R|intros; apply T|]. clear H. intros k s4 H _ _.
    eapply (r_vec_push D true P s r k [r]); [exact H|has|exact MR|apply (a_good _ _ _ _ _ _ _ H); reflexivity|].
    intros s5 H5 _ _. eapply at_weaken; [exact H5|easy].
  - clear H. intros u s3 H. apply wp_bind, (r_pop D true P s r [] _ _ _ H). clear H. intros s4 H.
    apply wp_ret. eapply at_eq; [exact H|]. left. split; [reflexivity|apply MR].
Qed.
Lemma ints_or_ok P s o none : Inv P s -> wp none (fun r s' => At true P s [] (eq r) s') s -> wp (ints_or o none) (fun r s' => At true P s [] (eq r) s') s.
Proof. intros A N. destruct o; cbn [ints_or]; [|exact N]. now apply (fill_ok (fun i => DInt (wrap32 (Z.of_nat i)))). Qed.
Lemma find_elements_ok fuel P s0 r k pre : mine true P s0 r -> In r pre -> reach s0 k -> forall l i s, At true P s0 pre (fun _ => False) s -> (forall y, In y l -> reach s0 y) ->
  wp (find_elements fuel r k i l) (fun _ s' => At true P s0 pre (fun _ => False) s') s.
Proof.
  intros MR IR RK. induction l as [|y l IH]; intros i s H RL; cbn [find_elements]; [now apply wp_ret|].
  assert (LV : forall z, reach s0 z -> D = false -> live s z) by (intros z RZ; eapply at_live; [exact H|right; right; right; auto]).
  apply wp_bind, wp_heap.
  - intros ED. apply nd_pred. apply nd_compare; [eapply at_closed; eauto| |]; apply LV; auto. apply RL. now left.
  - intros b _. apply wp_bind. eapply wp_mono with (Q := fun _ s' => At true P s0 pre (fun _ => False) s').
    + destruct b; [|now apply wp_ret]. apply wp_bind. apply (r_alloc D true P s0 _ pre _ _ _ H); [easy|easy|]. clear H LV. intros n s1 H _ _.
      eapply (r_vec_push D true P s0 r n pre); [exact H|right; left; exact IR|exact MR|apply (a_good _ _ _ _ _ _ _ H); reflexivity|].
      intros s5 H5 _ _. eapply at_weaken; [exact H5|easy].
    + clear H LV. intros u s1 H. apply IH; [exact H|]. intros z J. apply RL. now right.
Qed.
Lemma find_from_ok fuel P s x k : Inv P s -> reach s x -> reach s k -> wp (find_from fuel x k) (fun r s' => At true P s [] (eq r) s') s.
Proof.
  intros A RX RK. pose proof (at_start D true P s A) as H. unfold find_from.
  assert (LV : forall z, reach s z -> D = false -> live s z) by (intros z RZ; eapply at_live; [exact H|right; right; right; auto]).
  apply wp_bind, wp_get; [auto|]. intros cx LX. apply wp_bind, wp_get; [auto|]. intros ck LK.
  destruct (cdata cx) eqn:EX; try err.
  - destruct (cdata ck); try err; try (apply wp_bind, wp_lift; [intros; apply nd_g_text|]; intros t _); apply ints_or_ok; auto; try apply wp_abort; try al.
  - destruct (cdata ck); try err; try (apply wp_bind, wp_lift; [intros; apply nd_g_text|]; intros t _); apply ints_or_ok; auto; try apply wp_abort; try al.
  - apply wp_bind, (r_alloc D true P s _ [] _ _ _ H); [easy|easy|]. clear H LV. intros r s1 H _ MR.
    apply wp_bind, (r_push D true P s r [] _ _ _ H); [has|]. clear H. intros s2 H.
    apply wp_bind. eapply wp_mono; [eapply (find_elements_ok fuel P s r k [r] MR); [now left|exact RK|eapply at_weaken; [exact H|easy]|]|].
    + intros y J. eapply reach_child; [exact RX|exact LX|]. now rewrite EX.
    + clear H. cbv beta. intros u s3 H. apply wp_bind, (r_pop D true P s r [] _ _ _ H). clear H. intros s4 H.
      apply wp_ret. eapply at_eq; [exact H|]. left. split; [reflexivity|apply MR].
  - apply wp_bind. eapply (wp_hash D P); [exact A|auto|]. intros hk. apply wp_bind.
    eapply (wp_vmap_found P); [exact A|auto|intros ED; eapply map_alive_of; [exact A|exact ED|exact LX|exact EX]|]. intros o O. destruct o as [e|].
    + apply wp_lift; [intros; apply nd_single|]. intros v V. eapply at_weaken; [exact H|]. intros y <-. eapply at_dref; [exact H|exact LX|]. rewrite EX.
      exists e. split; [now apply O|]. right. now apply single_in.
    + now apply value_nil_ok.
  - destruct (cdata ck); try apply wp_unmodelled. apply wp_bind. eapply (r_env_get D true P s x); [exact H|auto|]. intros o O. destruct o as [v|]; [|now apply value_nil_ok].
    eapply out_ret; [exact H|]. now apply O.
Qed.
Lemma find_ok fuel P a env s : good P s env -> In env (stack s) -> bok true (b_find fuel a env) P a s.
Proof.
  intros GE KE A IN. pose proof (at_start D true P s A) as H. unfold b_find.
  apply wp_bind, (r_push D true P s a [] _ _ _ H); [right; right; left; now apply (i_priv _ _ _ A)|]. clear H. intros s1 H.
  apply wp_bind, (r_push D true P s env [a] _ _ _ H); [right; right; left; exact KE|]. clear H. intros s2 H.
  apply wp_bind. apply wp_vec_of; [eapply at_live; [exact H|right; right; left; now apply (i_priv _ _ _ A)]|]. intros c l L E.
  rewrite (a_same _ _ _ _ _ _ _ H) in L by auto.
  assert (RE : forall pre s3 G y, At true P s pre G s3 -> In y l -> reach s3 y) by (intros pre s3 G y H3 J; exact (arg_reach P a s c l IN L E _ _ _ s3 y H3 J)).
  assert (PP : forall s3 (G : ref -> Prop), At true P s [env; a] G s3 -> forall m, (forall s4, At true P s [] G s4 -> wp m (fun r s' => At true P s [] (eq r) s') s4) -> wp (pop env ;;; pop a ;;; m) (fun r s' => At true P s [] (eq r) s') s3).
  { intros s3 G H3 m K. apply wp_bind, (r_pop D true P s env [a] _ _ _ H3). intros s4 H4. apply wp_bind, (r_pop D true P s a [] _ _ _ H4). intros s5 H5. apply K. eapply at_weaken; [exact H5|]. intros z GZ. apply (a_good _ _ _ _ _ _ _ H5). auto. }
  assert (RET : forall r s3, At true P s [env; a] (eq r) s3 -> wp (pop env ;;; pop a ;;; ret r) (fun r s' => At true P s [] (eq r) s') s3).
  { intros r s3 H3. eapply PP; [exact H3|]. intros s4 H4. now apply wp_ret. }
  destruct l as [|x [|k [|k2 t]]].
  - eapply PP; [exact H|]. intros s3 H3. err.
  - eapply PP; [exact H|]. intros s3 H3. err.
  - apply wp_bind. eapply (r_use D true true); [exact H|apply find_from_ok; [apply H|eapply RE; [exact H|cbn; auto]|eapply RE; [exact H|cbn; auto]]|auto|]. intros r s3 H3. now apply RET.
  - apply wp_bind, (r_alloc D true P s _ [env; a] _ _ _ H); [easy|easy|]. clear H. intros r s3 H _ MR.
    apply wp_bind, (r_push D true P s r [env; a] _ _ _ H); [has|]. clear H. intros s4 H.
    apply wp_bind. apply (wp_mono D _ (fun _ s' => At true P s [r; env; a] (fun _ => False) s')).
    + apply wp_iterM; [|eapply at_weaken; [exact H|easy]]. clear H. intros y s5 IY H. apply wp_bind.
      eapply (r_use D true true); [exact H|apply find_from_ok; [apply H|eapply RE; [exact H|cbn; auto]|eapply RE; [exact H|right; exact IY]]|auto|]. clear H. intros v s6 H.
      eapply (r_vec_push D true P s r v [r; env; a]); [exact H|has|exact MR|apply (a_good _ _ _ _ _ _ _ H); reflexivity|].
      intros s7 H7 _ _. eapply at_weaken; [exact H7|easy].
    + clear H. intros u s5 H. apply wp_bind, (r_pop D true P s r [env; a] _ _ _ H). clear H. intros s6 H.
      apply RET. eapply at_eq; [exact H|]. left. split; [reflexivity|apply MR].
Qed.
Lemma nd_split_loop d : forall l coll, nd (split_loop d coll l).
Proof.
  induction l as [|ch l IH]; intros coll; cbn [split_loop].
  - destruct coll as [|x coll]; [discriminate|]. destruct (_ && _)%bool; [discriminate|]. destruct (str_ends_with _ _); [|discriminate]. destruct (str_substring _ _ _); discriminate.
  - apply nd_bind; [|intros p _; apply nd_bind; [apply IH|discriminate]]. unfold split_step. destruct (_ && _)%bool; [discriminate|].
    destruct (str_ends_with _ _); [|discriminate]. destruct (str_substring _ _ _); discriminate.
Qed.
Lemma nd_split s d : nd (str_split s d). Proof. apply nd_split_loop. Qed.
Lemma split_ok P a s : bok true (b_split a) P a s.
Proof.
  unfold b_split. start H c l L E. destruct l as [|x [|y [|]]]; try err. getarg. intros cx LX. getarg. intros cy LY.
  destruct (cdata cx); try err. destruct (cdata cy); try err. 
  apply wp_bind, (r_alloc D true P s _ [] _ _ _ H); [easy|easy|]. clear H. intros r s3 H _ MR.
  apply wp_bind, (r_push D true P s r [] _ _ _ H); [has|]. clear H. intros s4 H.
  apply wp_bind, wp_lift; [intros; apply nd_c_string_copy|]. intros delim _. apply wp_bind, wp_lift; [intros; apply nd_split|]. intros ts _.
  apply wp_bind. apply (wp_mono D _ (fun _ s' => At true P s [r] (fun _ => False) s')).
  - apply wp_iterM; [|eapply at_weaken; [exact H|easy]]. clear H. intros w s5 IW H. apply wp_bind.
    apply (r_alloc D true P s _ [r] _ _ _ H); [easy|easy|]. clear H. intros k s6 H _ _.
    eapply (r_vec_push D true P s r k [r]); [exact H|has|exact MR|apply (a_good _ _ _ _ _ _ _ H); reflexivity|].
    intros s7 H7 _ _. eapply at_weaken; [exact H7|easy].
  - clear H. intros u s5 H. apply wp_bind, (r_pop D true P s r [] _ _ _ H). clear H. intros s6 H.
    apply wp_ret. eapply at_eq; [exact H|]. left. split; [reflexivity|apply MR].
Qed.

(** ** Taking away in place *)
Lemma integer_sub_ok P s0 pre : forall f (G : ref -> Prop) self other s, At false P s0 pre G s -> G self -> G other ->
  wp (integer_sub f self other) (fun _ s' => At false P s0 pre G s') s.
Proof.
  induction f as [|f IH]; intros G self other s H GS GO; cbn [integer_sub]; [apply wp_nofuel|].
  apply wp_bind, wp_get; [now apply (a_good _ _ _ _ _ _ _ H)|]. intros c L. apply wp_bind, wp_get; [now apply (a_good _ _ _ _ _ _ _ H)|]. intros d LD.
  destruct (cdata c) eqn:E; try apply wp_abort. destruct (cdata d) as [ | |y|y|y| | | |l| | | | | | | | |] eqn:E2; try (apply wp_ret; exact H).
  - apply wp_bind, wp_lift; [intros; apply nd_int32|]. intros x _. eapply r_put_plain; eauto; [now rewrite E|easy|exact I].
  - eapply r_put_plain; eauto; [now rewrite E|easy|exact I].
  - apply wp_bind, wp_lift; [intros; apply nd_text_number|]. intros [n|] _; [|now apply wp_ret]. apply wp_bind, wp_lift; [intros; apply nd_long_op|]. intros x _. eapply r_put_plain; eauto; [now rewrite E|easy|exact I].
  - eapply wp_mono; [apply (wp_iterM D _ (fun s => At false P s0 pre (fun x => In x l \/ G x) s))|].
    + intros x s1 IX H1. eapply IH; eauto.
    + apply at_more; [exact H|]. intros x IX. eapply at_dref; eauto. now rewrite E2.
    + cbv beta. intros u s1 H1. eapply at_weaken; [exact H1|]. intros x GX. apply (a_good _ _ _ _ _ _ _ H1). auto.
Qed.
Lemma real_sub_ok P s0 pre : forall f (G : ref -> Prop) self other s, At false P s0 pre G s -> G self -> G other ->
  wp (real_sub f self other) (fun _ s' => At false P s0 pre G s') s.
Proof.
  induction f as [|f IH]; intros G self other s H GS GO; cbn [real_sub]; [apply wp_nofuel|].
  apply wp_bind, wp_get; [now apply (a_good _ _ _ _ _ _ _ H)|]. intros c L. apply wp_bind, wp_get; [now apply (a_good _ _ _ _ _ _ _ H)|]. intros d LD.
  destruct (cdata c) eqn:E; try apply wp_abort. destruct (cdata d) as [ | |y|y|y| | | |l| | | | | | | | |] eqn:E2; try (apply wp_ret; exact H).
  - eapply r_put_plain; eauto; [now rewrite E|easy|exact I].
  - eapply r_put_plain; eauto; [now rewrite E|easy|exact I].
  - apply wp_bind, wp_lift; [intros; apply nd_text_number|]. intros [n|] _; [|now apply wp_ret]. eapply r_put_plain; eauto; [now rewrite E|easy|exact I].
  - eapply wp_mono; [apply (wp_iterM D _ (fun s => At false P s0 pre (fun x => In x l \/ G x) s))|].
    + intros x s1 IX H1. eapply IH; eauto.
    + apply at_more; [exact H|]. intros x IX. eapply at_dref; eauto. now rewrite E2.
    + cbv beta. intros u s1 H1. eapply at_weaken; [exact H1|]. intros x GX. apply (a_good _ _ _ _ _ _ _ H1). auto.
Qed.
Lemma in_without {X} (y : X) l j : In y (firstn j l ++ skipn (S j) l) -> In y l.
Proof.
  intros H. apply in_app_or in H as [H|H]; [rewrite <- (firstn_skipn j l); apply in_or_app; now left|].
  rewrite <- (firstn_skipn (S j) l). apply in_or_app. now right.
Qed.
Lemma remove_where_ok (same : heap -> ref -> outcome bool) P s0 x : forall n j (G : ref -> Prop) s, 
  (forall s v, At false P s0 [] G s -> D = false -> live s v -> nd (same (all s) v)) -> At false P s0 [] G s -> G x ->
  wp (remove_where same x n j) (fun _ s' => At false P s0 [] G s') s.
Proof.
  induction n as [|n IH]; intros j G s SAME H GX; cbn [remove_where]; [now apply wp_ret|].
  apply wp_bind, wp_vec_of; [now apply (a_good _ _ _ _ _ _ _ H)|]. intros c l L E. destruct (nth_error l j) as [v|] eqn:EN; [|now apply wp_ret].
  apply wp_bind, wp_heap.
  - intros ED. apply SAME; auto. eapply at_dref; [exact H|exact L| |exact ED]. rewrite E. eapply nth_error_In; eauto.
  - intros b _. destruct b; [|now apply IH]. apply wp_bind. plain; [|intros s1 H1; now apply IH]. rewrite E. intros y. apply in_without.
Qed.
Lemma remove_each_text_ok P s0 f x (l : list ref) : In x l -> forall t s, At false P s0 [] (fun y => In y l) s -> incl t l ->
  wp (remove_each_text f x t) (fun _ s' => At false P s0 [] (fun y => In y l) s') s.
Proof.
  intros IX. induction t as [|y t IH]; intros s H T; cbn [remove_each_text]; [now apply wp_ret|].
  assert (IY : In y l) by (apply T; now left). assert (T' : incl t l) by (intros z J; apply T; now right).
  apply wp_bind, wp_get; [now apply (a_good _ _ _ _ _ _ _ H)|]. intros c L. apply wp_bind, wp_get; [now apply (a_good _ _ _ _ _ _ _ H)|]. intros d LD.
  destruct (cdata c) eqn:E; try apply wp_abort. destruct (cdata d); try (now apply wp_ret);
    (apply wp_bind, wp_lift; [intros; apply nd_remove_all|]); intros p _; apply wp_bind; (plain; [easy|]); intros s3 H1; now apply IH.
Qed.
Lemma remove_keys_ok P s0 f x (l : list ref) : In x l -> forall t s, At false P s0 [] (fun y => In y l) s -> incl t l ->
  wp (remove_keys f x t) (fun _ s' => At false P s0 [] (fun y => In y l) s') s.
Proof.
  intros IX. induction t as [|k t IH]; intros s H T; cbn [remove_keys]; [now apply wp_ret|].
  assert (IK : In k l) by (apply T; now left). assert (T' : incl t l) by (intros z J; apply T; now right).
  assert (LK : D = false -> live s k) by now apply (a_good _ _ _ _ _ _ _ H).
  apply wp_bind. eapply (wp_hash D P); [apply H|exact LK|]. intros hk.
  apply wp_bind. eapply r_map_of; [exact H|left; exact IX|]. intros c m L E.
  assert (MA : D = false -> map_alive (all s) m) by (intros ED; eapply map_alive_of; [apply H|exact ED|exact L|exact E]).
  apply wp_bind. eapply (wp_vmap_find D P); [apply H|exact LK|exact MA|]. intros o. destruct o; [|now apply wp_ret].
  apply wp_bind. eapply (wp_vmap_remove D P); [apply H|exact LK|exact MA|]. intros m' R. apply wp_bind. plain; [rewrite E; exact R|]. intros s1 H1. now apply IH.
Qed.
Lemma minus_eq_ok fuel P a s : bok false (b_minus_eq fuel a) P a s.
Proof.
  unfold b_minus_eq. start_f H c l L E. destruct l as [|x t]; [err|]. getarg. intros cx LX.
  assert (T : incl t (x :: t)) by (intros y; now right). assert (IX : In x (x :: t)) by now left.
  assert (H1 : At false P s [] (fun y => In y (x :: t)) s) by (eapply arg_at; eauto).
  assert (OUT : forall s', At false P s [] (fun y => In y (x :: t)) s' -> wp (ret x) (fun r s' => At false P s [] (eq r) s') s').
  { intros s' H'. eapply out_ret; [exact H'|]. apply (a_good _ _ _ _ _ _ _ H'). exact IX. }
  assert (W : forall f, (forall y s1, In y t -> At false P s [] (fun y => In y (x :: t)) s1 -> wp (f y) (fun _ s' => At false P s [] (fun y => In y (x :: t)) s') s1) ->
     wp (iterM f t ;;; ret x) (fun r s' => At false P s [] (eq r) s') s).
  { intros f F. apply wp_bind. eapply wp_mono; [apply (over_args P s (x :: t) t f s T F H1)|]. intros u s1 H2. now apply OUT. }
  destruct (cdata cx) eqn:EX; try err; try apply wp_unmodelled.
  - apply W. intros y s1 IY H2. eapply integer_sub_ok; eauto.
  - apply W. intros y s1 IY H2. eapply real_sub_ok; eauto.
  - apply wp_bind. eapply wp_mono; [eapply remove_each_text_ok; eauto|]. intros b s2 H2. destruct b; [now apply OUT|err].
  - destruct t as [|y [|y2 t']]; [now apply OUT| |];
      (apply wp_bind; eapply wp_mono; [eapply character_sub_ok; [exact H1|exact IX|cbn; auto]|]; intros u1 s1 H2; first [now apply OUT|apply wp_abort]).
  - now apply OUT.
  - apply W. intros y s1 IY H2. apply wp_bind, wp_vec_of; [now apply (a_good _ _ _ _ _ _ _ H2)|]. intros c1 l1 _ _. eapply remove_where_ok; [|exact H2|exact IX].
    intros s2 v H3 ED LV. apply nd_pred. apply nd_compare; [eapply at_closed; eauto| |exact LV]. apply (a_good _ _ _ _ _ _ _ H3); auto.
  - apply wp_bind. eapply wp_mono; [eapply remove_keys_ok; eauto|]. intros b s2 H2. destruct b; [now apply OUT|err].
  - apply wp_bind. eapply wp_mono; [eapply subtract_versions_ok; [exact H1|exact IX|auto]|]. intros b s2 H2. destruct b; [now apply OUT|err].
Qed.
Lemma minus_eq_eq_ok P a s : bok false (b_minus_eq_eq a) P a s.
Proof.
  unfold b_minus_eq_eq. start_f H c l L E. destruct l as [|x t]; [err|]. getarg. intros cx LX.
  assert (T : incl t (x :: t)) by (intros y; now right). assert (IX : In x (x :: t)) by now left.
  assert (H1 : At false P s [] (fun y => In y (x :: t)) s) by (eapply arg_at; eauto).
  assert (OUT : forall s', At false P s [] (fun y => In y (x :: t)) s' -> wp (ret x) (fun r s' => At false P s [] (eq r) s') s').
  { intros s' H'. eapply out_ret; [exact H'|]. apply (a_good _ _ _ _ _ _ _ H'). exact IX. }
  destruct (cdata cx) eqn:EX; try err; [now apply OUT|].
  apply wp_bind. eapply wp_mono; [apply (over_args P s (x :: t) t)|intros u s1 H2; now apply OUT]; [exact T| |exact H1].
  intros y s1 IY H2. apply wp_bind, wp_vec_of; [now apply (a_good _ _ _ _ _ _ _ H2)|]. intros c1 l1 _ _. eapply remove_where_ok; [|exact H2|exact IX].
  intros s2 v H3 ED LV. discriminate.
Qed.
(** cp@ with a range, when freed values are allowed. *)
Lemma keep_fresh P s0 r s : D = true -> mine true P s0 r -> r < nextId s -> good P s r.
Proof. intros ED (N & _) L. split; [exact L|]. split; [exact N|congruence]. Qed.
Lemma push_fresh P s0 r k G s : D = true -> mine true P s0 r -> r < nextId s -> At true P s0 [] G s -> good P s k ->
  wp (vec_push r k) (fun _ s' => At true P s0 [] (fun y => y = r) s') s.
Proof.
  intros ED MR LR H GK. assert (H1 : At true P s0 [] (fun y => y = r) s) by (eapply at_weaken; [exact H|]; intros y ->; eapply keep_fresh; eauto).
  eapply (r_vec_push D true P s0 r k []); [exact H1|has|exact MR|exact GK|]. auto.
Qed.
Lemma cp_chars_ok P s0 r : D = true -> mine true P s0 r -> forall cs s, At true P s0 [] (fun y => y = r) s ->
  wp (cp_chars r cs) (fun _ s' => At true P s0 [] (fun y => y = r) s') s.
Proof.
  intros ED MR. induction cs as [|ch cs IH]; intros s H; cbn [cp_chars]; [now apply wp_ret|].
  assert (LR : r < nextId s) by (apply (a_good _ _ _ _ _ _ _ H); reflexivity).
  apply wp_bind, (r_alloc D true P s0 _ [] _ _ _ H); [easy|easy|]. clear H. intros k s1 H AL _.
  pose proof (al_old _ _ _ _ _ _ AL). pose proof (al_next _ _ _ _ _ _ AL).
  apply wp_bind. eapply wp_mono; [eapply push_fresh; [exact ED|exact MR|lia|exact H|apply (a_good _ _ _ _ _ _ _ H); reflexivity]|]. intros u s2 H2. now apply IH.
Qed.
Lemma cp_elements_ok P s0 f x r : D = true -> mine true P s0 r -> forall n i s, At true P s0 [] (fun y => y = r) s ->
  wp (cp_elements f x r n i) (fun _ s' => At true P s0 [] (fun y => y = r) s') s.
Proof.
  intros ED MR. induction n as [|n IH]; intros i s H; cbn [cp_elements]; [now apply wp_ret|].
  assert (LR : r < nextId s) by (apply (a_good _ _ _ _ _ _ _ H); reflexivity).
  apply wp_bind, wp_vec_of; [congruence|]. intros c l L E. destruct (nth_error l i) as [y|]; [|apply wp_undef].
  apply wp_bind. eapply r_copy; [exact H|now left|]. clear H. intros y' s1 H NY.
  assert (GY : good P s1 y') by (apply (a_good _ _ _ _ _ _ _ H); reflexivity). assert (y' < nextId s1) by apply GY.
  apply wp_bind. eapply wp_mono; [eapply push_fresh; [exact ED|exact MR|lia|exact H|exact GY]|]. intros u s2 H2. now apply IH.
Qed.
Lemma nd_number_index d : nd (number_index d).
Proof. destruct d; try discriminate. cbn [number_index]. destruct (sf_int f); [|discriminate]. destruct (_ && _)%bool; discriminate. Qed.
Lemma cp_at_ok fuel P a s : D = true -> bok true (b_cp_at fuel a) P a s.
Proof.
  intros ED. unfold b_cp_at. start H c l L E. destruct l as [|x [|i t]]; try err. getarg. intros cx LX.
  assert (NEW : forall m, (forall r s1, mine true P s r -> At true P s [] (fun y => y = r) s1 -> wp (m r) (fun _ s' => At true P s [] (fun y => y = r) s') s1) ->
     wp (r <- alloc (DVec []) ;; (m r : M unit) ;;; ret r) (fun r s' => At true P s [] (eq r) s') s).
  { intros m K. apply wp_bind, (r_alloc D true P s _ [] _ _ _ H); [easy|easy|]. intros r s1 H1 _ MR. apply wp_bind. eapply wp_mono; [apply K; [exact MR|]|].
    - eapply at_weaken; [exact H1|]. intros y ->. apply (a_good _ _ _ _ _ _ _ H1). reflexivity.
    - cbv beta. intros u s2 H2. apply wp_ret. eapply at_eq; [exact H2|reflexivity]. }
  assert (CP : forall y, wp (copy fuel y) (fun r s' => At true P s [] (eq r) s') s) by (intros y; eapply r_copy; [exact H|now left|auto]).
  assert (IDX : forall (o : list ref) i1 (k : option Z -> M ref), incl o t -> (forall w, wp (k w) (fun r s' => At true P s [] (eq r) s') s) ->
     wp (w <- match o with [] => ret (Some i1) | j :: _ => e <- get j ;; lift (number_index e) end ;; k w) (fun r s' => At true P s [] (eq r) s') s).
  { intros o i1 k T K. apply wp_bind. destruct o as [|j o]; [now apply wp_ret|]. apply wp_bind, wp_get; [congruence|]. intros cj _. apply wp_lift; [intros; apply nd_number_index|]. auto. }
  assert (TXT : forall w, wp (match t with
          | _ :: _ :: _ => new_error
          | _ =>
              e <- get i ;; o <- lift (number_index e) ;;
              match o with
              | None => new_error
              | Some i1 =>
                  o <- match t with [] => ret (Some i1) | j :: _ => e <- get j ;; lift (number_index e) end ;;
                  match o with
                  | None => new_error
                  | Some i2 =>
                      match str_index (text_str w) i1, str_index (text_str w) i2 with
                      | (k1, true), (k2, true) =>
                          if (i1 =? i2)%Z then c <- lift (str_get (text_str w) i1) ;; alloc (DChar [c])
                          else
                            r <- alloc (DVec []) ;;
                            if (k2 <? k1)%Z then abort
                            else cp_chars r (firstn (Z.to_nat (k2 - k1) + 1) (skipn (Z.to_nat k1) w)) ;;; ret r
                      | _, _ => new_error
                      end
                  end
              end
          end) (fun r s' => At true P s [] (eq r) s') s).
  { intros w. assert (K : wp (e <- get i ;; o <- lift (number_index e) ;;
              match o with
              | None => new_error
              | Some i1 =>
                  o <- match t with [] => ret (Some i1) | j :: _ => e <- get j ;; lift (number_index e) end ;;
                  match o with
                  | None => new_error
                  | Some i2 =>
                      match str_index (text_str w) i1, str_index (text_str w) i2 with
                      | (k1, true), (k2, true) =>
                          if (i1 =? i2)%Z then c <- lift (str_get (text_str w) i1) ;; alloc (DChar [c])
                          else
                            r <- alloc (DVec []) ;;
                            if (k2 <? k1)%Z then abort
                            else cp_chars r (firstn (Z.to_nat (k2 - k1) + 1) (skipn (Z.to_nat k1) w)) ;;; ret r
                      | _, _ => new_error
                      end
                  end
              end) (fun r s' => At true P s [] (eq r) s') s).
    { getarg. intros ci _. apply wp_bind, wp_lift; [intros; apply nd_number_index|]. intros o _. destruct o as [i1|]; [|err].
      apply IDX; [apply incl_refl|]. intros o. destruct o as [i2|]; [|err].
      destruct (str_index _ i1) as (k1 & [|]); [|err]. destruct (str_index _ i2) as (k2 & [|]); [|err].
      destruct (i1 =? i2)%Z; [apply wp_bind, wp_lift; [intros; apply nd_str_get|]; intros ch _; al|].
      destruct (k2 <? k1)%Z.
      - apply wp_bind, (r_alloc D true P s _ [] _ _ _ H); [easy|easy|]. intros. apply wp_abort.
      - apply (NEW (fun r => cp_chars r _)). intros r s1 MR H1. now apply cp_chars_ok. }
    destruct t as [|j [|]]; [exact K|exact K|err]. }
  destruct (cdata cx) eqn:EX; try err; try apply wp_abort; try apply wp_unmodelled; try apply TXT; clear TXT.
  - destruct t; [al|err].
  - destruct t; [|err]. getarg. intros ci _. destruct (cdata ci); try err. destruct (_ || _)%bool; [err|al].
  - assert (K : wp (e <- get i ;; o <- lift (number_index e) ;;
              match o with
              | None => new_error
              | Some i1 =>
                  match norm_index (List.length l) i1 with
                  | None => new_error
                  | Some k1 =>
                      o <- match t with [] => ret (Some i1) | j :: _ => e <- get j ;; lift (number_index e) end ;;
                      match o with
                      | None => new_error
                      | Some i2 =>
                          match norm_index (List.length l) i2 with
                          | None => new_error
                          | Some k2 =>
                              if (i1 =? i2)%Z then
                                match nth_error l k1 with Some y => copy fuel y | None => undef end
                              else
                                r <- alloc (DVec []) ;;
                                cp_elements fuel x r (if Nat.leb k1 k2 then S (k2 - k1) else S (List.length l)) k1 ;;; ret r
                          end
                      end
                  end
              end) (fun r s' => At true P s [] (eq r) s') s).
    { getarg. intros ci _. apply wp_bind, wp_lift; [intros; apply nd_number_index|]. intros o _. destruct o as [i1|]; [|err].
      destruct (norm_index _ i1) as [k1|]; [|err]. apply IDX; [apply incl_refl|]. intros o. destruct o as [i2|]; [|err].
      destruct (norm_index _ i2) as [k2|]; [|err]. destruct (i1 =? i2)%Z.
      - destruct (nth_error l k1); [apply CP|apply wp_undef].
      - apply (NEW (fun r => cp_elements fuel x r _ k1)). intros r s1 MR H1. now apply cp_elements_ok. }
    destruct t as [|j [|]]; [exact K|exact K|err].
  - destruct t as [|w [|]]; try err. apply wp_bind. eapply wp_mono; [eapply (map_at_ok P s); [exact H|exact LX|exact EX|argl|argl]|]. cbv beta. intros o s' (-> & O).
    destruct o as [v|]; [apply CP|err].
  - destruct t; [|err]. getarg. intros ci _. destruct (cdata ci); try err. destruct (list_at l z); [apply CP|apply wp_undef].  - destruct t; [|err]. getarg. intros ci _. destruct (cdata ci); try err. unfold version_at. cbv zeta.
    destruct (_ =? _)%Z; [apply wp_undef|]. destruct (_ <=? _)%Z; [err|]. destruct (Z.to_nat _) as [|[|[|k]]]; try al.
    destruct (Nat.ltb _ _).
    + destruct (pre v) as [|[m|w] t]; [apply wp_abort|al|]. apply wp_bind, wp_lift; [intros; apply nd_c_string_copy|]. intros u _. al.
    + destruct (nth_error _ _) as [w|]; [|err]. apply wp_bind, wp_lift; [intros; apply nd_c_string_copy|]. intros u _. al.
Qed.
Lemma env_new_ok P a s : bok true (b_env_new a) P a s.
Proof.
  unfold b_env_new. start H c l L E. destruct l as [|x [|]]; try err.
  - eapply out_alloc; [exact H| |exact I]. intros x [(t & k & v & [] & _)|R]. discriminate.
  - getarg. intros cx LX. destruct (cdata cx); try err.
    apply (r_alloc D true P s _ [] _ _ _ H); [|easy|auto]. intros y [(t & k & v & [] & _)|[= <-]].
    split; [apply (arg_good P a s c [x] IN L E _ _ _ s x H); now left|]. right. right. right. apply (arg_reach P a s c [x] IN L E _ _ _ s x H); now left.
Qed.
Lemma env_current_ok P a env s : good P s env -> bok true (b_env_current a env) P a s.
Proof. intros GE. unfold b_env_current. start H c l L E. destruct l; [|err]. eapply out_ret; [exact H|exact GE]. Qed.
Lemma env_global_ok P a s : bok true (b_env_global a) P a s.
Proof.
  unfold b_env_global. start H c l L E. destruct l; [|err]. apply wp_read. eapply at_weaken; [exact H|]. intros x <-. now apply good_genv.
Qed.
Lemma is_ok tags P a s : bok true (b_is tags a) P a s.
Proof. unfold b_is. start H c l L E. destruct l as [|x [|]]; try err. getarg. intros cx LX. al. Qed.
End Safe.
