(** The invariant of the evaluator and the rules for the memory operations.

    [D] = true: nothing is assumed about the program, and using a freed value
    ([Dangling]) is possible; the invariant then says that the stack, the
    identities and the private values of the evaluator are in order.
    [D] = false: in addition nothing reachable dangles, and no step uses a freed
    value. *)
From Coq Require Import List NArith ZArith Bool Lia Arith.
From Coq Require Import ZifyBool ZifyNat ZifyN.
From Verif Require Import Base HMap Heap SpecHeap GcProofs VmProofs Env.
Import ListNotations.
Local Open Scope N_scope.

(** What the union of a value refers to. *)
Definition dref (d : data) (x : ref) : Prop :=
  match d with
  | DVec l | DQueue l _ | DList l => In x l
  | DMap m => exists e, In e (concat (buckets m)) /\ (x = ekey e \/ In x (evals e))
  | DEnv b enc => (exists t k v, In (t, (k, v)) b /\ (x = k \/ x = v)) \/ enc = Some x
  | DFun f | DMac f => x = fformals f \/ x = fbody f \/ x = fenv f
  | _ => False
  end.
Lemma refers_iff c x : refers c x <-> cdoc c = Some x \/ dref (cdata c) x.
Proof.
  split.
  - intros H; inversion H as [d E|l y E I|l m y E I|l y E I|m b e E I1 I2|m b e v E I1 I2 I3|bs en t k v E I|bs en t k v E I|bs e E|f E|f E|f E];
      subst; auto; right; try (destruct E as [E|E]); rewrite E; cbn; auto.
    + exists e. split; [apply in_concat; eauto|auto].
    + exists e. split; [apply in_concat; eauto|auto].
    + left. eauto 6.
    + left. eauto 6.
  - intros [H|H]; [now apply r_doc|]. destruct (cdata c) eqn:E; cbn in H; try easy.
    + eapply r_vec; eauto.
    + destruct H as (e & I & [->|H]); apply in_concat in I as (b & I1 & I2); [eapply r_key|eapply r_val]; eauto.
    + eapply r_queue; eauto.
    + eapply r_list; eauto.
    + destruct H as [(t & k & v & I & [->| ->])|H]; [eapply r_name|eapply r_bound|subst; eapply r_enc]; eauto.
    + destruct H as [->|[->| ->]]; [eapply r_formals|eapply r_body|eapply r_denv]; eauto.
    + destruct H as [->|[->| ->]]; [eapply r_formals|eapply r_body|eapply r_denv]; eauto.
Qed.

Definition live (s : vm) (x : ref) : Prop := lookup (all s) x <> None.
(** Without return, =, copy and cp@. *)
Definition tame (d : data) : Prop :=
  match d with DBuiltin BiReturn | DBuiltin BiSet | DBuiltin BiCopy | DBuiltin BiCpAt | DSpecial SpTemplate => False | _ => True end.
Definition is_fun (d : data) : Prop := match d with DFun _ | DMac _ => True | _ => False end.

Section Safe.
Context (D : bool).

Definition wp {X} (m : M X) (Q : X -> vm -> Prop) (s : vm) : Prop :=
  match m s with
  | Ret (x, s') => Q x s'
  | Dangling => D = true
  | _ => True
  end.

Lemma wp_ret {X} (x : X) (Q : X -> vm -> Prop) s : Q x s -> wp (ret x) Q s.
Proof. easy. Qed.
Lemma wp_bind {X Y} (m : M X) (k : X -> M Y) (Q : Y -> vm -> Prop) s : wp m (fun x s' => wp (k x) Q s') s -> wp (bind m k) Q s.
Proof. unfold wp, bind. destruct (m s) as [[x s']| | | | |]; cbn; auto. Qed.
Lemma wp_mono {X} (m : M X) (Q R : X -> vm -> Prop) s : wp m Q s -> (forall x s', Q x s' -> R x s') -> wp m R s.
Proof. unfold wp. destruct (m s) as [[x s']| | | | |]; auto. Qed.
Lemma wp_abort {X} (Q : X -> vm -> Prop) s : wp abort Q s. Proof. exact I. Qed.
Lemma wp_undef {X} (Q : X -> vm -> Prop) s : wp undef Q s. Proof. exact I. Qed.
Lemma wp_nofuel {X} (Q : X -> vm -> Prop) s : wp nofuel Q s. Proof. exact I. Qed.
Lemma wp_unmodelled {X} (Q : X -> vm -> Prop) s : wp unmodelled Q s. Proof. exact I. Qed.
Lemma wp_need o (Q : ref -> vm -> Prop) s : (forall r, o = Some r -> Q r s) -> wp (need o) Q s.
Proof. destruct o; cbn; intros H; [apply H; reflexivity|exact I]. Qed.
Lemma wp_read {X} (f : vm -> X) (Q : X -> vm -> Prop) s : Q (f s) s -> wp (read f) Q s. Proof. easy. Qed.
Lemma wp_lift {X} (o : outcome X) (Q : X -> vm -> Prop) s : (D = false -> o <> Dangling) -> (forall x, o = Ret x -> Q x s) -> wp (lift o) Q s.
Proof. unfold wp, lift. destruct o; cbn; auto. intros H _. destruct D; [reflexivity|]. now elim H. Qed.
Lemma wp_heap {X} (f : heap -> outcome X) (Q : X -> vm -> Prop) s :
  (D = false -> f (all s) <> Dangling) -> (forall x, f (all s) = Ret x -> Q x s) -> wp (heap_op f) Q s.
Proof. unfold wp, heap_op. destruct (f (all s)); cbn; auto. intros H _. destruct D; [reflexivity|]. now elim H. Qed.

(** ** The invariant *)

(** A value the program may hold: allocated, not private, and alive. *)
Definition good (P : list ref) (s : vm) (x : ref) : Prop :=
  x < nextId s /\ ~ In x P /\ (D = false -> live s x).
Record Inv (P : list ref) (s : vm) : Prop := {
  i_ids : ids_ok s;
  i_refs : forall r c x, lookup (all s) r = Some c -> refers c x \/ cdocvec c = Some x -> x < nextId s /\ ~ In x P;
  i_closed : D = false -> forall r c x, lookup (all s) r = Some c -> refers c x -> live s x;
  i_stack : forall x, In x (stack s) -> x < nextId s /\ (D = false -> live s x);
  i_priv : incl P (stack s);
  i_genv : genv s < nextId s /\ ~ In (genv s) P /\ (D = false -> In (genv s) (stack s));
  i_fret : match fret s with Some q => q < nextId s /\ ~ In q P /\ D = true | None => True end;
  i_tame : D = false -> forall r c, lookup (all s) r = Some c -> tame (cdata c) /\ (cdocvec c = None \/ is_fun (cdata c))
}.
Lemma inv_outside P s o : Inv P s -> Inv P (with_outside s o).
Proof. intros []. constructor; auto. Qed.
Definition reach (s : vm) (x : ref) : Prop := reachable (all s) (stack s) x.

Lemma good_stack P s x : Inv P s -> In x (stack s) -> ~ In x P -> good P s x.
Proof. intros H I N. destruct (i_stack _ _ H x I). split; auto. Qed.
Lemma good_child P s r c x : Inv P s -> lookup (all s) r = Some c -> refers c x -> good P s x.
Proof. intros H L R. destruct (i_refs _ _ H r c x L (or_introl R)). split; [auto|split; [auto|]]. intros E. eapply i_closed; eauto. Qed.
Lemma good_dref P s r c x : Inv P s -> lookup (all s) r = Some c -> dref (cdata c) x -> good P s x.
Proof. intros H L R. eapply good_child; eauto. apply refers_iff. auto. Qed.
Lemma good_genv P s : Inv P s -> good P s (genv s).
Proof. intros H. destruct (i_genv _ _ H) as (A & B & C). split; [auto|split; [auto|]]. intros E. apply (i_stack _ _ H); auto. Qed.
Lemma reach_stack s x : In x (stack s) -> reach s x.
Proof. apply re_root. Qed.
Lemma reach_child s r c x : reach s r -> lookup (all s) r = Some c -> dref (cdata c) x -> reach s x.
Proof. intros R L H. eapply re_step; eauto. apply refers_iff. auto. Qed.
Lemma live_some s x : live s x <-> exists c, lookup (all s) x = Some c.
Proof. unfold live. destruct (lookup (all s) x); split; [eauto|discriminate|congruence|intros (c & H); discriminate]. Qed.
Lemma lookup_lt P s x c : Inv P s -> lookup (all s) x = Some c -> x < nextId s.
Proof. intros H L. destruct (i_ids _ _ H) as ((ND & _) & B). apply (lookup_in _ _ _ ND) in L. eauto. Qed.
Lemma reach_lt P s x : Inv P s -> reach s x -> x < nextId s.
Proof.
  intros H R. induction R as [x I|r c x R IH L F]; [now apply (i_stack _ _ H)|].
  apply (i_refs _ _ H r c x L). auto.
Qed.
Lemma inv_unpriv P P' s : Inv P s -> incl P' P -> Inv P' s.
Proof.
  intros [A B C E F G H T] I. constructor; auto.
  - intros r c x L R. destruct (B r c x L R). split; [assumption|]. intros J. apply I in J. auto.
  - intros x J. apply F, I, J.
  - destruct G as (G1 & G2 & G3). repeat split; auto.
  - destruct (fret s); [|auto]. destruct H as (H1 & H2 & H3). repeat split; auto.
Qed.

(** ** Reading *)
Lemma wp_get_cell r (Q : cell -> vm -> Prop) s : (D = false -> live s r) -> (forall c, lookup (all s) r = Some c -> Q c s) -> wp (get_cell r) Q s.
Proof.
  unfold wp, get_cell, live. intros L H. destruct (lookup (all s) r) as [c|]; [auto|]. destruct D; [reflexivity|]. now elim L.
Qed.
Lemma wp_get r (Q : data -> vm -> Prop) s : (D = false -> live s r) -> (forall c, lookup (all s) r = Some c -> Q (cdata c) s) -> wp (get r) Q s.
Proof. intros L H. unfold get. apply wp_bind, wp_get_cell; [exact L|]. intros c E. apply wp_ret. auto. Qed.
Lemma wp_vec_of r (Q : list ref -> vm -> Prop) s : (D = false -> live s r) ->
  (forall c l, lookup (all s) r = Some c -> cdata c = DVec l -> Q l s) -> wp (vec_of r) Q s.
Proof.
  intros L H. unfold vec_of. apply wp_bind, wp_get; [exact L|]. intros c E. destruct (cdata c) eqn:ED; try apply wp_abort.
  apply wp_ret. eauto.
Qed.
Lemma wp_arg a i (Q : ref -> vm -> Prop) s : (D = false -> live s a) ->
  (forall c l x, lookup (all s) a = Some c -> cdata c = DVec l -> nth_error l i = Some x -> Q x s) -> wp (arg a i) Q s.
Proof. intros L H. unfold arg. apply wp_bind, wp_vec_of; [exact L|]. intros c l E ED. apply wp_need. eauto. Qed.
Lemma wp_nargs a (Q : nat -> vm -> Prop) s : (D = false -> live s a) ->
  (forall c l, lookup (all s) a = Some c -> cdata c = DVec l -> Q (length l) s) -> wp (nargs a) Q s.
Proof. intros L H. unfold nargs. apply wp_bind, wp_vec_of; [exact L|]. intros c l E ED. apply wp_ret. eauto. Qed.
Lemma wp_get_at r a (Q : data -> vm -> Prop) s : (D = false -> live s r) ->
  (forall c, lookup (all s) r = Some c -> caddr c = a -> Q (cdata c) s) -> wp (get_at r a) Q s.
Proof.
  intros L H. unfold get_at. apply wp_bind, wp_get_cell; [exact L|]. intros c E. destruct (N.eqb_spec (caddr c) a); [|apply wp_undef].
  apply wp_ret. auto.
Qed.
Lemma wp_is_error r (Q : bool -> vm -> Prop) s : (D = false -> live s r) ->
  (forall c, lookup (all s) r = Some c -> Q (is_error_data (cdata c)) s) -> wp (is_error r) Q s.
Proof. intros L H. unfold is_error. apply wp_bind, wp_get; [exact L|]. intros c E. apply wp_ret. auto. Qed.
Lemma wp_sym_of r (Q : option text -> vm -> Prop) s : (D = false -> live s r) -> (forall o, Q o s) -> wp (sym_of r) Q s.
Proof. intros L H. unfold sym_of. apply wp_bind, wp_get; [exact L|]. intros c E. destruct (cdata c); apply wp_ret; auto. Qed.
Lemma wp_formal_name r (Q : text -> vm -> Prop) s : (D = false -> live s r) -> (forall c t, lookup (all s) r = Some c -> cdata c = DSym t -> Q t s) -> wp (formal_name r) Q s.
Proof. intros L H. unfold formal_name. apply wp_bind, wp_get; [exact L|]. intros c E. destruct (cdata c) eqn:ED; try apply wp_abort. apply wp_ret. eauto. Qed.

(** ** The stack *)
Lemma inv_push P s r : Inv P s -> r < nextId s -> (D = false -> live s r) -> Inv P (with_stack s (r :: stack s)).
Proof.
  intros [A B C E F G H T] LT L. constructor; auto; cbn.
  - intros x [<-|I]; [exact (conj LT L)|exact (E x I)].
  - intros x I. right. now apply F.
  - destruct G as (G1 & G2 & G3). repeat split; auto.
Qed.
Lemma wp_push P r (Q : unit -> vm -> Prop) s : Inv P s -> r < nextId s -> (D = false -> live s r) ->
  (Inv P (with_stack s (r :: stack s)) -> Q tt (with_stack s (r :: stack s))) -> wp (push r) Q s.
Proof. intros A B C H. unfold wp, push. apply H. now apply inv_push. Qed.
Lemma inv_pop P s r st : Inv P s -> stack s = r :: st -> incl P st -> (D = false -> In (genv s) st) -> Inv P (with_stack s st).
Proof.
  intros [A B C E F G H T] ES I GE. constructor; auto; cbn.
  - intros x J. apply E. rewrite ES. now right.
  - destruct G as (G1 & G2 & G3). repeat split; auto.
Qed.
Lemma wp_pop P r x st (Q : unit -> vm -> Prop) s : Inv P s -> stack s = x :: st -> incl P st -> (D = false -> In (genv s) st) ->
  (x = r -> Inv P (with_stack s st) -> Q tt (with_stack s st)) -> wp (pop r) Q s.
Proof.
  intros A ES I GE H. unfold wp, pop. rewrite ES. destruct (N.eqb_spec x r); [|exact Logic.I].
  apply H; [assumption|]. now apply (inv_pop P s x).
Qed.

(** ** Writing *)
Lemma live_update s r c x : live (with_all s (update (all s) r c)) x <-> live s x.
Proof.
  unfold live. cbn. rewrite lookup_update. destruct (N.eqb_spec r x); [|tauto]. destruct (lookup (all s) x); cbn; split; congruence.
Qed.
Lemma inv_put P s r c' : Inv P s -> cmark c' = false ->
  (forall x, refers c' x \/ cdocvec c' = Some x -> x < nextId s /\ ~ In x P) ->
  (D = false -> forall x, refers c' x -> live s x) ->
  (D = false -> tame (cdata c') /\ (cdocvec c' = None \/ is_fun (cdata c'))) ->
  Inv P (with_all s (update (all s) r c')).
Proof.
  intros [A B C E F G H T] MK R1 R2 R3. constructor; auto; cbn.
  - destruct A as (TD & LT). split; cbn; [now apply update_tidy|]. intros x c I.
    apply update_in in I as [I|(-> & _ & (c0 & L))]; [eauto|]. apply (lookup_in _ _ _ (proj1 TD)) in L. eauto.
  - intros y c x L. rewrite lookup_update in L. destruct (N.eqb_spec r y); [|eauto].
    destruct (lookup (all s) y); [|discriminate]. injection L as <-. auto.
  - intros ED y c x L RF. apply live_update. rewrite lookup_update in L. destruct (N.eqb_spec r y); [|eauto].
    destruct (lookup (all s) y); [|discriminate]. injection L as <-. auto.
  - intros x I. destruct (E x I) as (E1 & E2). split; [auto|]. intros ED. apply live_update. auto.
  - intros ED y c L. rewrite lookup_update in L. destruct (N.eqb_spec r y); [|eauto].
    destruct (lookup (all s) y); [|discriminate]. injection L as <-. auto.
Qed.
Lemma wp_put_cell P r c' (Q : unit -> vm -> Prop) s : Inv P s -> (D = false -> live s r) -> cmark c' = false ->
  (forall x, refers c' x \/ cdocvec c' = Some x -> x < nextId s /\ ~ In x P) ->
  (D = false -> forall x, refers c' x -> live s x) ->
  (D = false -> tame (cdata c') /\ (cdocvec c' = None \/ is_fun (cdata c'))) ->
  (Inv P (with_all s (update (all s) r c')) -> Q tt (with_all s (update (all s) r c'))) -> wp (put_cell r c') Q s.
Proof.
  intros A L MK R1 R2 R3 H. unfold wp, put_cell, live in *. destruct (lookup (all s) r); [apply H; now apply inv_put|].
  destruct D; [reflexivity|]. now elim L.
Qed.
(** Changing the union of a value. *)
Definition good_data (P : list ref) (s : vm) (d : data) : Prop :=
  (forall x, dref d x -> good P s x) /\ (D = false -> tame d).
Lemma wp_put P r d (Q : unit -> vm -> Prop) s : Inv P s -> (D = false -> live s r) -> good_data P s d ->
  (D = false -> forall c, lookup (all s) r = Some c -> is_fun (cdata c) -> is_fun d) ->
  (forall c, lookup (all s) r = Some c ->
     Inv P (with_all s (update (all s) r (mkCell d (cdoc c) (cdocvec c) (cmark c) (caddr c)))) ->
     Q tt (with_all s (update (all s) r (mkCell d (cdoc c) (cdocvec c) (cmark c) (caddr c))))) -> wp (put r d) Q s.
Proof.
  intros A L (G1 & G2) FN H. unfold put. apply wp_bind, wp_get_cell; [exact L|]. intros c LC.
  apply (wp_put_cell P); auto; cbn.
  - apply (tidy_lookup _ _ _ (proj1 (i_ids _ _ A)) LC).
  - intros x [R|R].
    + apply refers_iff in R as [R|R]; cbn in R; [|apply G1 in R; destruct R as (R1 & R2 & _); auto].
      apply (i_refs _ _ A r c x LC). left. apply refers_iff. auto.
    + apply (i_refs _ _ A r c x LC). auto.
  - intros ED x R. apply refers_iff in R as [R|R]; cbn in R; [|apply G1; auto].
    apply (i_closed _ _ A ED r c x LC). apply refers_iff. auto.
  - intros ED. split; [auto|]. destruct (i_tame _ _ A ED r c LC) as (_ & [?|?]); [auto|right; eauto].
Qed.
Lemma wp_set_docs P r d dv (Q : unit -> vm -> Prop) s : Inv P s -> (D = false -> live s r) ->
  (forall x, d = Some x -> good P s x) ->
  (forall x, dv = Some x -> x < nextId s /\ ~ In x P) ->
  (D = false -> forall c, lookup (all s) r = Some c -> dv = None \/ is_fun (cdata c)) ->
  (forall c, lookup (all s) r = Some c -> Inv P (with_all s (update (all s) r (mkCell (cdata c) d dv (cmark c) (caddr c)))) ->
     Q tt (with_all s (update (all s) r (mkCell (cdata c) d dv (cmark c) (caddr c))))) -> wp (set_docs r d dv) Q s.
Proof.
  intros A L GD GV FN H. unfold set_docs. apply wp_bind, wp_get_cell; [exact L|]. intros c LC.
  apply (wp_put_cell P); auto; cbn.
  - apply (tidy_lookup _ _ _ (proj1 (i_ids _ _ A)) LC).
  - intros x [R|R]; [|auto]. apply refers_iff in R as [R|R]; cbn in R; [apply GD in R; destruct R as (R1 & R2 & _); auto|].
    apply (i_refs _ _ A r c x LC). left. apply refers_iff. auto.
  - intros ED x R. apply refers_iff in R as [R|R]; cbn in R; [apply GD; auto|].
    apply (i_closed _ _ A ED r c x LC). apply refers_iff. auto.
  - intros ED. split; [|auto]. now apply (i_tame _ _ A ED r c LC).
Qed.

(** ** Allocation *)

(** In a closed heap marking never meets a freed value. *)
Lemma mark_no_dangling fuel : forall h r,
  (forall r c x, lookup h r = Some c -> refers c x -> lookup h x <> None) -> lookup h r <> None -> mark fuel h r <> Dangling.
Proof.
  induction fuel as [|f IH]; cbn [mark]; intros h r C L; [discriminate|].
  destruct (lookup h r) as [c|] eqn:Lk; [|congruence]. destruct (cmark c); [discriminate|].
  assert (NDc : children c <> Dangling).
  { unfold children. assert (G : forall es, map_children es <> Dangling).
    { induction es as [|e es IHe]; cbn; [discriminate|]. unfold single. destruct (evals e) as [|v [|]]; cbn; try discriminate.
      destruct (map_children es); cbn; congruence. }
    destruct (cdata c) as [ | | | | | | | |l|m|l q|l|b enc|g|g| | |]; cbn; try discriminate.
    specialize (G (concat (buckets m))). destruct (map_children (concat (buckets m))); cbn; congruence. }
  destruct (children c) as [ch| | | | |] eqn:EC; cbn; try congruence.
  pose proof (children_refers c ch EC) as CR.
  assert (CC : forall h1, (forall x, lookup h1 x <> None <-> lookup h x <> None) -> unmark h1 = unmark h ->
     forall r c x, lookup h1 r = Some c -> refers c x -> lookup h1 x <> None).
  { intros h1 E U r1 c1 x L1 R. apply E. destruct (unmark_lookup h h1 r1 c1 U L1) as (c2 & L2 & S).
    apply (C r1 c2 x L2). apply (refers_set_mark c2 false). rewrite S. now apply refers_set_mark. }
  assert (UE : forall h1, unmark h1 = unmark h -> forall x, lookup h1 x <> None <-> lookup h x <> None).
  { intros h1 U x. pose proof (lookup_unmark h1 x) as A. pose proof (lookup_unmark h x) as B. rewrite U in A. rewrite A in B.
    destruct (lookup h1 x), (lookup h x); cbn in B; split; congruence. }
  assert (G : forall l h1, unmark h1 = unmark h -> (forall x, In x l -> lookup h x <> None) -> mark_each (mark f) h1 l <> Dangling).
  { induction l as [|x l IHl]; cbn; intros h1 U A; [discriminate|].
    pose proof (IH h1 x (CC h1 (UE h1 U) U) (proj2 (UE h1 U x) (A x (or_introl eq_refl)))) as I1.
    destruct (mark f h1 x) as [h2| | | | |] eqn:E2; cbn; try congruence.
    apply IHl; [|auto]. destruct (mark_spec _ _ _ _ E2) as ((U2 & _) & _). congruence. }
  apply G; [now apply unmark_mark|]. intros x Ix. apply (C r c x Lk). now apply CR.
Qed.
Lemma gc_no_dangling h st :
  (forall r c x, lookup h r = Some c -> refers c x -> lookup h x <> None) -> (forall x, In x st -> lookup h x <> None) ->
  gc h st <> Dangling.
Proof.
  intros C L. unfold gc.
  assert (G : forall l h1, unmark h1 = unmark h -> (forall x, In x l -> lookup h x <> None) -> mark_each (mark (S (length h))) h1 l <> Dangling).
  { induction l as [|x l IHl]; cbn [mark_each]; intros h1 U A; [discriminate|].
    assert (UE : forall x, lookup h1 x <> None <-> lookup h x <> None).
    { intros y. pose proof (lookup_unmark h1 y) as A1. pose proof (lookup_unmark h y) as B1. rewrite U in A1. rewrite A1 in B1.
      destruct (lookup h1 y), (lookup h y); cbn in B1; split; congruence. }
    assert (I1 : mark (S (length h)) h1 x <> Dangling).
    { apply mark_no_dangling; [|apply UE, A; now left]. intros r1 c1 y L1 R. apply UE. destruct (unmark_lookup h h1 r1 c1 U L1) as (c2 & L2 & S2).
      apply (C r1 c2 y L2). apply (refers_set_mark c2 false). rewrite S2. now apply refers_set_mark. }
    destruct (mark (S (length h)) h1 x) as [h2| | | | |] eqn:E2; cbn [obind]; try congruence.
    apply IHl; [|intros; apply A; now right]. destruct (mark_spec _ _ _ _ E2) as ((U2 & _) & _). congruence. }
  specialize (G (rev st) h eq_refl). destruct (mark_each (mark (S (length h))) h (rev st)); cbn [obind]; try congruence.
  exfalso. apply G; [|reflexivity]. intros x Ix. apply L. now apply in_rev.
Qed.

(** The relation between the states before and after a step that changes no
    value reachable before. *)
Record quiet (P : list ref) (s s' : vm) : Prop := {
  q_inv : Inv P s';
  q_stack : stack s' = stack s;
  q_next : nextId s <= nextId s';
  q_same : forall x, reach s x -> lookup (all s') x = lookup (all s) x;
  q_misc : genv s' = genv s /\ fret s' = fret s /\ quit s' = quit s /\ exitCode s' = exitCode s /\ readably s' = readably s /\ output s' = output s
}.
Lemma quiet_refl P s : Inv P s -> quiet P s s.
Proof. intros H. constructor; auto 9; lia. Qed.
Lemma reach_same s s' x : stack s' = stack s -> (forall x, reach s x -> lookup (all s') x = lookup (all s) x) -> reach s x -> reach s' x.
Proof.
  unfold reach. intros E Sm R. rewrite E. induction R as [x I|r c x R IH L F]; [now apply re_root|].
  apply (re_step _ _ r c); auto. now rewrite Sm.
Qed.
Lemma quiet_trans P s1 s2 s3 : quiet P s1 s2 -> quiet P s2 s3 -> quiet P s1 s3.
Proof.
  intros [A1 B1 C1 E1 M1] [A2 B2 C2 E2 M2]. constructor; auto; try lia.
  - congruence.
  - intros x R. rewrite E2; [auto|]. apply (reach_same s1); auto.
  - intuition congruence.
Qed.
Lemma reach_quiet P s s' x : quiet P s s' -> reach s x -> reach s' x.
Proof. intros [A B C E M]. now apply reach_same. Qed.

Lemma wp_maybe_gc P (Q : unit -> vm -> Prop) s : Inv P s ->
  (forall s', quiet P s s' -> nextId s' = nextId s -> Q tt s') -> wp maybe_gc Q s.
Proof.
  intros A H. unfold wp, maybe_gc. destruct ((gcLimit s <=? numAlloc s) && negb (preventGc s))%bool.
  - unfold do_gc. destruct (gc (all s) (stack s)) as [h'| | | | |] eqn:E; cbn [obind]; auto.
    + cbn. pose proof (gc_spec _ _ _ (proj1 (i_ids _ _ A)) E) as (T & K & N & L). destruct A as [A B C E' F G H' TM].
      assert (LL : D = false -> forall x, reachable (all s) (stack s) x -> live (with_numAlloc (with_all s h') 0) x).
      { intros _ x R. unfold live. cbn. destruct (K x R) as (c & _ & ->). discriminate. }
      apply H; [|reflexivity]. constructor; auto 9; cbn.
      * constructor; cbn; auto.
        -- split; [exact T|]. cbn. intros r c I. apply (lookup_in _ _ _ (proj1 T)) in I. apply L in I as (_ & I & _).
           apply (lookup_in _ _ _ (proj1 (proj1 A))) in I. apply A in I. exact I.
        -- intros r c x LK. apply L in LK as (_ & LK & _). now apply (B r c x).
        -- intros ED r c x LK R. apply LL; [exact ED|]. apply L in LK as (RR & LK & _). now apply (re_step _ _ r c).
        -- intros x I. split; [now apply E'|]. intros ED. apply LL; [exact ED|now apply re_root].
        -- intros ED r c LK. apply L in LK as (_ & LK & _). eauto.
      * lia.
      * intros x R. destruct (K x R) as (c & L1 & L2). congruence.
    + destruct D eqn:ED; [reflexivity|]. exfalso. revert E. apply gc_no_dangling.
      * intros r c x LK RF. now apply (i_closed _ _ A ED r c x).
      * intros x I. now apply (i_stack _ _ A).
  - apply H; [|reflexivity]. destruct A as [A B C E F G H' T]. constructor; auto 9; cbn; [|lia]. constructor; auto.
Qed.
Lemma inv_fresh P s d : Inv P s -> good_data P s d ->
  forall r s', fresh d s = Ret (r, s') ->
  quiet P s s' /\ r = nextId s /\ nextId s' = r + 1
  /\ lookup (all s') r = Some (mkCell d None None false (addrs s (nextAddr s)))
  /\ (forall x, x <> r -> lookup (all s') x = lookup (all s) x).
Proof.
  intros A (G1 & G2) r s' E. destruct (fresh_ids _ _ _ _ (i_ids _ _ A) E) as (I2 & -> & NX & ST & LR & LO & LN).
  assert (GE : genv s' = genv s /\ fret s' = fret s /\ quit s' = quit s /\ exitCode s' = exitCode s /\ readably s' = readably s /\ output s' = output s).
  { unfold fresh in E. destruct (nextId s =? two64 - 1); [discriminate|]. injection E as <-. auto 9. }
  assert (LV : forall x, live s x -> live s' x).
  { unfold live. intros x L. destruct (N.eq_dec x (nextId s)) as [->|NE]; [congruence|]. now rewrite LO. }
  assert (NP : ~ In (nextId s) P).
  { intros I. apply (i_priv _ _ A) in I. apply (i_stack _ _ A) in I. lia. }
  pose proof A as A0. destruct A as [A B C E' F G H T]. split; [|auto]. constructor; auto; try lia.
  - constructor; auto.
    + intros y c x L R. destruct (N.eq_dec y (nextId s)) as [->|NE].
      * rewrite LR in L. injection L as <-. destruct R as [R|R]; [|discriminate]. apply refers_iff in R as [R|R]; cbn in R; [discriminate|].
        apply G1 in R as (R1 & R2 & _). split; [lia|auto].
      * rewrite LO in L by exact NE. destruct (B y c x L R). split; [lia|auto].
    + intros ED y c x L R. destruct (N.eq_dec y (nextId s)) as [->|NE].
      * rewrite LR in L. injection L as <-. apply refers_iff in R as [R|R]; cbn in R; [discriminate|]. apply LV, G1; auto.
      * rewrite LO in L by exact NE. apply LV. eauto.
    + rewrite ST. intros x I. destruct (E' x I). split; [lia|auto].
    + now rewrite ST.
    + destruct GE as (-> & _). rewrite ST. destruct G as (X1 & X2 & X3). repeat split; auto. lia.
    + destruct GE as (_ & -> & _). destruct (fret s); [|auto]. destruct H as (X1 & X2 & X3). repeat split; auto. lia.
    + intros ED y c L. destruct (N.eq_dec y (nextId s)) as [->|NE].
      * rewrite LR in L. injection L as <-. cbn. auto.
      * rewrite LO in L by exact NE. eauto.
  - intros x R. apply LO. intros ->. apply (reach_lt P) in R; auto. lia.
Qed.
(** A freshly allocated value, after an allocation from [s] to [s']. *)
Record allocated (P : list ref) (s : vm) (d : data) (r : ref) (s' : vm) : Prop := {
  al_quiet : quiet P s s';
  al_old : nextId s <= r;
  al_next : r < nextId s';
  al_cell : exists addr, lookup (all s') r = Some (mkCell d None None false addr);
  al_unref : forall y c, lookup (all s') y = Some c -> ~ refers c r /\ cdocvec c <> Some r
}.
Lemma al_good P s d r s' : Inv P s -> allocated P s d r s' -> good P s' r.
Proof.
  intros A [Qt O N (a & C) _]. split; [auto|]. split.
  - intros I. apply (i_priv _ _ A) in I. apply (i_stack _ _ A) in I. lia.
  - intros _. unfold live. rewrite C. discriminate.
Qed.
Lemma wp_alloc_gen P (f : vm -> data) (Q : ref -> vm -> Prop) s : Inv P s ->
  (forall s', quiet P s s' -> good_data P s' (f s')) ->
  (forall r s' s1, quiet P s s1 -> allocated P s (f s1) r s' -> Q r s') ->
  wp (maybe_gc ;;; (fun s => fresh (f s) s)) Q s.
Proof.
  intros A GD H. apply wp_bind. apply (wp_maybe_gc P); [exact A|]. intros s1 Q1 N1. unfold wp.
  pose proof (inv_fresh P s1 (f s1) (q_inv _ _ _ Q1) (GD s1 Q1)) as K.
  destruct (fresh (f s1) s1) as [[r s']| | | | |] eqn:E; auto.
  - destruct (K r s' eq_refl) as (Q2 & -> & N2 & L & O). apply (H (nextId s1) s' s1); [exact Q1|]. constructor; try lia.
    + eapply quiet_trans; eauto.
    + eauto.
    + intros y c Ly.
      assert (LT : forall x, refers c x \/ cdocvec c = Some x -> x < nextId s1).
      { intros x R. destruct (N.eq_dec y (nextId s1)) as [->|NE].
        - rewrite L in Ly. injection Ly as <-. destruct R as [R|R]; [|discriminate]. apply refers_iff in R as [R|R]; cbn in R; [discriminate|].
          now apply (GD s1 Q1).
        - rewrite O in Ly by exact NE. now apply (i_refs _ _ (q_inv _ _ _ Q1) y c). }
      split; intros R; [specialize (LT _ (or_introl R))|specialize (LT _ (or_intror R))]; lia.
  - exfalso. unfold fresh in E. destruct (nextId s1 =? two64 - 1); discriminate.
Qed.

(** ** Assertions about a state inside a procedure entered in the state [s0]

    [pre] is what the procedure has pushed, [G] values it holds that are alive
    though perhaps not on the stack. [q]: so far nothing reachable at entry has
    been changed. *)
Record At (q : bool) (P : list ref) (s0 : vm) (pre : list ref) (G : ref -> Prop) (s : vm) : Prop := {
  a_inv0 : Inv P s0;
  a_inv : Inv P s;
  a_stack : stack s = pre ++ stack s0;
  a_next : nextId s0 <= nextId s;
  a_genv : genv s = genv s0;
  a_same : forall x, In x P \/ (q = true /\ reach s0 x) -> lookup (all s) x = lookup (all s0) x;
  a_misc : q = true -> fret s = fret s0 /\ quit s = quit s0 /\ exitCode s = exitCode s0 /\ readably s = readably s0 /\ output s = output s0;
  a_good : forall x, G x -> good P s x
}.
Lemma at_start q P s : Inv P s -> At q P s [] (fun _ => False) s.
Proof. intros H. constructor; auto; try lia; easy. Qed.
Definition has (q : bool) (s0 : vm) (pre : list ref) (G : ref -> Prop) (x : ref) : Prop :=
  G x \/ In x pre \/ In x (stack s0) \/ (q = true /\ reach s0 x).

Lemma reach_lookup q P s0 pre G s x : At q P s0 pre G s -> q = true -> reach s0 x -> reach s x.
Proof.
  intros A E R. unfold reach. induction R as [x I|r c x R IH L F].
  - apply re_root. rewrite (a_stack _ _ _ _ _ _ A). apply in_or_app. auto.
  - apply (re_step _ _ r c); auto. rewrite (a_same _ _ _ _ _ _ A); auto.
Qed.
Lemma reach_live P s x : Inv P s -> D = false -> reach s x -> live s x.
Proof.
  intros A E R. induction R as [x I|r c x R IH L F]; [now apply (i_stack _ _ A)|]. now apply (i_closed _ _ A E r c x).
Qed.
Lemma at_live q P s0 pre G s x : At q P s0 pre G s -> has q s0 pre G x -> D = false -> live s x.
Proof.
  intros A [H|[H|[H|(Q & H)]]] E.
  - now apply (a_good _ _ _ _ _ _ A).
  - apply (i_stack _ _ (a_inv _ _ _ _ _ _ A)); auto. rewrite (a_stack _ _ _ _ _ _ A). apply in_or_app. auto.
  - apply (i_stack _ _ (a_inv _ _ _ _ _ _ A)); auto. rewrite (a_stack _ _ _ _ _ _ A). apply in_or_app. auto.
  - eapply reach_live; eauto; [apply A|]. eapply reach_lookup; eauto.
Qed.
Lemma at_lt q P s0 pre G s x : At q P s0 pre G s -> has q s0 pre G x -> x < nextId s.
Proof.
  intros A [H|[H|[H|(Q & H)]]].
  - now apply (a_good _ _ _ _ _ _ A).
  - apply (i_stack _ _ (a_inv _ _ _ _ _ _ A)); auto. rewrite (a_stack _ _ _ _ _ _ A). apply in_or_app. auto.
  - apply (i_stack _ _ (a_inv _ _ _ _ _ _ A)); auto. rewrite (a_stack _ _ _ _ _ _ A). apply in_or_app. auto.
  - eapply reach_lt; [apply A|]. eapply reach_lookup; eauto.
Qed.
Lemma at_good q P s0 pre G s x : At q P s0 pre G s -> has q s0 pre G x -> (G x \/ ~ In x P) -> good P s x.
Proof.
  intros A H [N|N]; [now apply (a_good _ _ _ _ _ _ A)|]. split; [eapply at_lt; eauto|]. split; [exact N|]. eapply at_live; eauto.
Qed.
Lemma at_weaken q P s0 pre G (G' : ref -> Prop) s : At q P s0 pre G s -> (forall x, G' x -> good P s x) -> At q P s0 pre G' s.
Proof. intros [A B C E F H I J] W. constructor; auto. Qed.
Lemma at_more q P s0 pre G (G' : ref -> Prop) s : At q P s0 pre G s -> (forall x, G' x -> good P s x) -> At q P s0 pre (fun x => G' x \/ G x) s.
Proof. intros A W. apply (at_weaken q P s0 pre G); auto. intros x [H|H]; [auto|now apply (a_good _ _ _ _ _ _ A)]. Qed.
Lemma at_loud P q s0 pre G s : At q P s0 pre G s -> At false P s0 pre G s.
Proof. intros [A B C E F H I J]. constructor; auto; [|discriminate]. intros x [K|(K & _)]; [auto|discriminate]. Qed.
(** What a called procedure leaves. *)
Lemma at_call q q' P s0 pre G s G' s' : At q P s0 pre G s -> At q' P s [] G' s' -> (q = true -> q' = true) ->
  At q P s0 pre G' s'.
Proof.
  intros A B QQ. constructor.
  - apply A.
  - apply B.
  - rewrite (a_stack _ _ _ _ _ _ B). apply A.
  - pose proof (a_next _ _ _ _ _ _ A). pose proof (a_next _ _ _ _ _ _ B). lia.
  - rewrite (a_genv _ _ _ _ _ _ B). apply A.
  - intros x [I|(Q & R)].
    + rewrite (a_same _ _ _ _ _ _ B); auto. now apply (a_same _ _ _ _ _ _ A); auto.
    + rewrite (a_same _ _ _ _ _ _ B); [now apply (a_same _ _ _ _ _ _ A); auto|]. right. split; [auto|]. eapply reach_lookup; eauto.
  - intros Q. destruct (a_misc _ _ _ _ _ _ A Q) as (A1 & A2 & A3 & A4 & A5). destruct (a_misc _ _ _ _ _ _ B (QQ Q)) as (B1 & B2 & B3 & B4 & B5). repeat split; congruence.
  - apply B.
Qed.
Lemma at_quiet P s s' : Inv P s -> quiet P s s' -> At true P s [] (fun _ => False) s'.
Proof.
  intros H [A B C E (M1 & M2 & M3 & M4)]. constructor; auto; try easy.
  intros x [I|(_ & R)]; [|auto]. apply E. apply re_root. now apply (i_priv _ _ H).
Qed.

(** *** Rules *)
Section Rules.
Context (q : bool) (P : list ref) (s0 : vm).
Notation A pre G s := (At q P s0 pre G s).
Implicit Types (pre : list ref) (G : ref -> Prop) (s : vm).

Lemma r_push r pre G (Q : unit -> vm -> Prop) s : A pre G s -> has q s0 pre G r ->
  (forall s', A (r :: pre) G s' -> Q tt s') -> wp (push r) Q s.
Proof.
  intros H R K. apply (wp_push P); [apply H|eapply at_lt; eauto|eapply at_live; eauto|]. intros I. apply K.
  destruct H as [A1 A2 A3 A4 A5 A6 A7 A8]. constructor; auto. cbn. now rewrite A3.
Qed.
Lemma r_pop r pre G (Q : unit -> vm -> Prop) s : A (r :: pre) G s -> 
  (forall s', A pre (fun x => (x = r /\ ~ In r P) \/ G x) s' -> Q tt s') -> wp (pop r) Q s.
Proof.
  intros H K. pose proof (a_stack _ _ _ _ _ _ H) as ES. cbn in ES.
  apply (wp_pop P r r (pre ++ stack s0)); auto.
  - apply H.
  - intros x I. apply in_or_app. right. now apply (i_priv _ _ (a_inv0 _ _ _ _ _ _ H)).
  - intros E. apply in_or_app. right. rewrite (a_genv _ _ _ _ _ _ H). now apply (i_genv _ _ (a_inv0 _ _ _ _ _ _ H)).
  - intros _ I. apply K. assert (GR : ~ In r P -> good P s r).
    { intros N. eapply at_good; eauto. right. left. now left. }
    destruct H as [A1 A2 A3 A4 A5 A6 A7 A8]. constructor; auto. intros x [(-> & N)|W]; [exact (GR N)|exact (A8 x W)].
Qed.
Lemma r_get_cell r pre G (Q : cell -> vm -> Prop) s : A pre G s -> has q s0 pre G r ->
  (forall c, lookup (all s) r = Some c -> A pre (fun x => refers c x \/ G x) s -> Q c s) -> wp (get_cell r) Q s.
Proof.
  intros H R K. apply wp_get_cell; [eapply at_live; eauto|]. intros c L. apply K; [exact L|].
  apply at_more; auto. intros x RF. eapply good_child; eauto. apply H.
Qed.
Lemma r_get r pre G (Q : data -> vm -> Prop) s : A pre G s -> has q s0 pre G r ->
  (forall c, lookup (all s) r = Some c -> A pre (fun x => dref (cdata c) x \/ G x) s -> Q (cdata c) s) -> wp (get r) Q s.
Proof.
  intros H R K. unfold get. apply wp_bind, (r_get_cell r pre G); auto. intros c L A'. apply wp_ret. apply K; [exact L|].
  apply (at_weaken _ _ _ _ _ _ _ A'). intros x [W|W]; [|now apply (a_good _ _ _ _ _ _ H)].
  apply (a_good _ _ _ _ _ _ A'). left. apply refers_iff. auto.
Qed.
Lemma r_is_error r pre G (Q : bool -> vm -> Prop) s : A pre G s -> has q s0 pre G r -> (forall b, Q b s) -> wp (is_error r) Q s.
Proof. intros H R K. apply wp_is_error; [eapply at_live; eauto|]. intros; apply K. Qed.
Lemma r_get_at r a pre G (Q : data -> vm -> Prop) s : A pre G s -> has q s0 pre G r ->
  (forall c, lookup (all s) r = Some c -> caddr c = a -> A pre (fun x => dref (cdata c) x \/ G x) s -> Q (cdata c) s) -> wp (get_at r a) Q s.
Proof.
  intros H R K. unfold get_at. apply wp_bind, (r_get_cell r pre G); auto. intros c L A'. destruct (N.eqb_spec (caddr c) a); [|apply wp_undef].
  apply wp_ret. apply K; auto. apply (at_weaken _ _ _ _ _ _ _ A'). intros x [W|W]; [|now apply (a_good _ _ _ _ _ _ H)].
  apply (a_good _ _ _ _ _ _ A'). left. apply refers_iff. auto.
Qed.
Lemma r_vec_of r pre G (Q : list ref -> vm -> Prop) s : A pre G s -> has q s0 pre G r ->
  (forall c l, lookup (all s) r = Some c -> cdata c = DVec l -> A pre (fun x => In x l \/ G x) s -> Q l s) -> wp (vec_of r) Q s.
Proof.
  intros H R K. unfold vec_of. apply wp_bind, (r_get r pre G); auto. intros c L A'. destruct (cdata c) eqn:ED; try apply wp_abort.
  apply wp_ret. eapply K; eauto.
Qed.
Lemma r_arg a i pre G (Q : ref -> vm -> Prop) s : A pre G s -> has q s0 pre G a ->
  (forall c l x, lookup (all s) a = Some c -> cdata c = DVec l -> nth_error l i = Some x -> A pre (fun y => y = x \/ G y) s -> Q x s) -> wp (arg a i) Q s.
Proof.
  intros H R K. unfold arg. apply wp_bind, (r_vec_of a pre G); auto. intros c l L ED A'. apply wp_need. intros x E. eapply K; eauto.
  apply (at_weaken _ _ _ _ _ _ _ A'). intros y [->|W]; apply (a_good _ _ _ _ _ _ A'); [left; eapply nth_error_In; eauto|auto].
Qed.
Lemma r_nargs a pre G (Q : nat -> vm -> Prop) s : A pre G s -> has q s0 pre G a ->
  (forall c l, lookup (all s) a = Some c -> cdata c = DVec l -> Q (length l) s) -> wp (nargs a) Q s.
Proof.
  intros H R K. unfold nargs. apply wp_bind, (r_vec_of a pre G); auto. intros c l L ED A'. apply wp_ret. eauto.
Qed.
Lemma r_sym_of r pre G (Q : option text -> vm -> Prop) s : A pre G s -> has q s0 pre G r -> (forall o, Q o s) -> wp (sym_of r) Q s.
Proof. intros H R K. apply wp_sym_of; [eapply at_live; eauto|auto]. Qed.
Lemma r_formal_name r pre G (Q : text -> vm -> Prop) s : A pre G s -> has q s0 pre G r -> (forall o, Q o s) -> wp (formal_name r) Q s.
Proof. intros H R K. apply wp_formal_name; [eapply at_live; eauto|auto]. Qed.

(** Writing a cell: one made since entry, or, when [q] is off, any cell that is
    not private. *)
Definition mine (r : ref) : Prop := ~ In r P /\ (q = true -> nextId s0 <= r).
Lemma at_write r c' pre G s : A pre G s -> mine r ->
  Inv P (with_all s (update (all s) r c')) -> A pre G (with_all s (update (all s) r c')).
Proof.
  intros H (N & W) I. destruct H as [A1 A2 A3 A4 A5 A6 A7 A8]. constructor; auto.
  - cbn. intros x R. rewrite lookup_update. destruct (N.eqb_spec r x); [|auto]. subst x. exfalso.
    destruct R as [R|(Q & R)]; [auto|]. apply (reach_lt P) in R; auto. specialize (W Q). lia.
  - intros x W'. destruct (A8 x W') as (B1 & B2 & B3). split; [exact B1|]. split; [exact B2|]. intros E. apply live_update. auto.
Qed.
Lemma r_put r d pre G (Q : unit -> vm -> Prop) s : A pre G s -> has q s0 pre G r -> mine r ->
  (forall x, dref d x -> good P s x) -> (D = false -> tame d) ->
  (D = false -> forall c, lookup (all s) r = Some c -> is_fun (cdata c) -> is_fun d) ->
  (forall s', A pre G s' -> (exists c, lookup (all s') r = Some c /\ cdata c = d) -> (forall x, x <> r -> lookup (all s') x = lookup (all s) x) -> Q tt s') ->
  wp (put r d) Q s.
Proof.
  intros H R W GD T FN K. apply (wp_put P); auto; [apply H|eapply at_live; eauto|split; auto|].
  intros c L I. apply K.
  - now apply at_write.
  - cbn. rewrite lookup_update, N.eqb_refl, L. cbn. eauto.
  - cbn. intros x NE. rewrite lookup_update. now rewrite (proj2 (N.eqb_neq _ _) (not_eq_sym NE)).
Qed.
Lemma r_set_docs r d dv pre G (Q : unit -> vm -> Prop) s : A pre G s -> has q s0 pre G r -> mine r ->
  (forall x, d = Some x -> good P s x) ->
  (forall x, dv = Some x -> x < nextId s /\ ~ In x P) ->
  (D = false -> forall c, lookup (all s) r = Some c -> dv = None \/ is_fun (cdata c)) ->
  (forall s', A pre G s' -> (forall c, lookup (all s) r = Some c -> exists c', lookup (all s') r = Some c' /\ cdata c' = cdata c) -> (forall x, x <> r -> lookup (all s') x = lookup (all s) x) -> Q tt s') ->
  wp (set_docs r d dv) Q s.
Proof.
  intros H R W GD GV FN K. apply (wp_set_docs P); auto; [apply H|eapply at_live; eauto|].
  intros c L I. apply K.
  - now apply at_write.
  - cbn. rewrite lookup_update, N.eqb_refl, L. cbn. intros c0 [= <-]. eexists. split; [reflexivity|]. reflexivity.
  - cbn. intros x NE. rewrite lookup_update. now rewrite (proj2 (N.eqb_neq _ _) (not_eq_sym NE)).
Qed.
(** Values that stay alive in an allocation. *)
Lemma keeps_alive pre G s s' x : A pre G s -> quiet P s s' -> In x pre \/ In x (stack s0) \/ (q = true /\ reach s0 x) \/ reach s x ->
  x < nextId s' /\ (D = false -> live s' x).
Proof.
  intros H Qt R. assert (RS : reach s x).
  { destruct R as [R|[R|[(Q & R)|R]]]; [| |eapply reach_lookup; eauto|exact R]; apply re_root; rewrite (a_stack _ _ _ _ _ _ H); apply in_or_app; auto. }
  apply (reach_quiet P s s') in RS; auto. split; [eapply reach_lt; eauto; apply Qt|]. intros E. eapply reach_live; eauto. apply Qt.
Qed.
Lemma r_alloc_gen (f : vm -> data) pre G (Q : ref -> vm -> Prop) s : A pre G s ->
  (forall s1 x, dref (f s1) x -> ~ In x P /\ (In x pre \/ In x (stack s0) \/ (q = true /\ reach s0 x) \/ reach s x)) ->
  (forall s1, D = false -> tame (f s1)) ->
  (forall r s' s1, A pre (eq r) s' -> allocated P s (f s1) r s' -> mine r -> Q r s') ->
  wp (maybe_gc ;;; (fun s => fresh (f s) s)) Q s.
Proof.
  intros H GD T K. pose proof (a_inv _ _ _ _ _ _ H) as I. apply (wp_alloc_gen P); [exact I| |].
  - intros s1 Q1. split; [|auto]. intros x R. destruct (GD s1 x R) as (N & W). destruct (keeps_alive _ _ _ _ _ H Q1 W). split; auto.
  - intros r s' s1 Q1 AL. apply (K r s' s1).
    + apply (at_call q true P s0 pre G s); auto.
      apply (at_weaken true P s [] (fun _ => False)); [apply at_quiet; auto; apply AL|]. intros x <-. eapply al_good; eauto.
    + exact AL.
    + split; [eapply al_good; eauto|]. intros _. pose proof (al_old _ _ _ _ _ AL). pose proof (a_next _ _ _ _ _ _ H). lia.
Qed.
Lemma r_alloc d pre G (Q : ref -> vm -> Prop) s : A pre G s ->
  (forall x, dref d x -> ~ In x P /\ (In x pre \/ In x (stack s0) \/ (q = true /\ reach s0 x) \/ reach s x)) -> (D = false -> tame d) ->
  (forall r s', A pre (eq r) s' -> allocated P s d r s' -> mine r -> Q r s') -> wp (alloc d) Q s.
Proof. intros H GD T K. apply (r_alloc_gen (fun _ => d) pre G); auto. Qed.
Lemma r_new_error pre G (Q : ref -> vm -> Prop) s : A pre G s ->
  (forall r s', A pre (eq r) s' -> Q r s') -> wp new_error Q s.
Proof. intros H K. unfold new_error. apply (r_alloc_gen (fun s => DErr (msgs s (nextAddr s)) 0) pre G); [exact H|easy|intros; exact I|]. intros r s' s1 A' _ _. eauto. Qed.
End Rules.
End Safe.
