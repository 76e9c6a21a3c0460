(** A value that is not a root but survives to the end of an operation: the
    operation goes as if the value had been a root all the time. *)
From Coq Require Import NArith ZArith Bool Lia String List.
From Verif Require Import Base OString HMap Heap SpecHeap GcProofs VmProofs ValueOps Env Copy Builtins Specials Eval Relate.
Import ListNotations.
Local Open Scope N_scope.

Lemma assoc_eq : forall (h h' : heap), map fst h = map fst h' -> NoDup (map fst h) -> (forall r, lookup h r = lookup h' r) -> h = h'.
Proof.
  induction h as [|[i c] h IH]; intros [|[j c'] h'] E ND K; cbn in E; try discriminate; [reflexivity|]. injection E as <- E. cbn in ND. inversion ND as [|? ? NI ND']; subst.
  assert (LO : forall (l : heap), ~ In i (map fst l) -> lookup l i = None).
  { induction l as [|[k ck] l IHl]; cbn; intros N; [reflexivity|]. destruct (N.eqb_spec k i); [tauto|]. apply IHl. tauto. }
  pose proof (K i) as K1. cbn in K1. rewrite N.eqb_refl in K1. injection K1 as <-. f_equal. apply IH; auto.
  intros z. pose proof (K z) as K2. cbn in K2. destruct (N.eqb_spec i z) as [EZ|]; [|exact K2]. subst z. rewrite (LO h NI). symmetry. apply LO. now rewrite <- E.
Qed.
Lemma lookup_filter (h : heap) p r : NoDup (map fst h) -> lookup (filter p h) r = match lookup h r with Some c => if p (r, c) then Some c else None | None => None end.
Proof.
  intros ND. induction h as [|[i c] h IH]; cbn in *; [reflexivity|]. inversion ND as [|? ? NI ND']; subst. specialize (IH ND'). destruct (p (i, c)) eqn:EP; cbn.
  - destruct (N.eqb_spec i r) as [->|]; [now rewrite EP|exact IH].
  - destruct (N.eqb_spec i r) as [->|]; [|exact IH]. rewrite EP, IH. destruct (lookup h r) as [c'|] eqn:L; [|reflexivity].
    elim NI. apply (lookup_in h r c' ND') in L. apply (in_map fst) in L. exact L.
Qed.
(** A collection keeps a part of the heap, in order. *)
Lemma gc_filter h st h' : tidy h -> gc h st = Ret h' -> h' = filter (fun rc => match lookup h' (fst rc) with Some _ => true | None => false end) h.
Proof.
  intros T E. destruct (gc_spec _ _ _ T E) as (T' & _ & _ & BACK). destruct (gc_ids _ _ _ E T) as (p & I).
  assert (ND : NoDup (map fst h)) by apply T. assert (IDS : forall q, map fst (filter q h) = filter (fun r => match lookup h r with Some c => q (r, c) | None => false end) (map fst h)).
  { intros q. assert (G : forall l, (forall r c, In (r, c) l -> lookup h r = Some c) -> map fst (filter q l) = filter (fun r => match lookup h r with Some c => q (r, c) | None => false end) (map fst l)).
    { induction l as [|[i c] l IH]; cbn; intros K; [reflexivity|]. rewrite (K i c) by now left. destruct (q (i, c)); cbn; rewrite IH; auto. }
    apply G. intros r c J. now apply lookup_in. }
  assert (ML : forall r (l : heap), lookup l r <> None <-> In r (map fst l)).
  { intros r. induction l as [|[i c] l IH]; cbn; [tauto|]. destruct (N.eqb_spec i r) as [->|]; [split; [auto|congruence]|]. rewrite IH. split; [auto|intros [|]; [congruence|auto]]. }
  apply assoc_eq; [|apply T'|].
  - rewrite I at 1. rewrite !IDS. apply filter_ext_in. intros r J. cbn [fst]. destruct (lookup h r) as [c|] eqn:L; [|reflexivity].
    assert (M := ML r h'). rewrite I, IDS, filter_In, L in M. destruct (lookup h' r) as [c'|]; [apply (proj1 M); congruence|].
    destruct (p (r, c)); [|reflexivity]. elim (proj2 M); auto.
  - intros r. rewrite lookup_filter by exact ND. cbn [fst]. destruct (lookup h' r) as [c|] eqn:L.
    + destruct (BACK r c L) as (_ & -> & _). reflexivity.
    + now destruct (lookup h r).
Qed.
Lemma gc_more h st r h' : tidy h -> gc h st = Ret h' -> reachable h st r -> gc h (st ++ [r]) = Ret h'.
Proof.
  intros T E R. destruct (gc_spec _ _ _ T E) as (_ & KEEP & DROP & BACK).
  assert (RE : forall x, reachable h (st ++ [r]) x <-> reachable h st x).
  { intros x. split; apply reachable_more; intros y J.
    - apply in_app_or in J as [J|[<-|[]]]; [now apply re_root|exact R].
    - apply re_root, in_or_app. now left. }
  destruct (gc_progress h (st ++ [r]) T) as (h2 & E2).
  { intros x RX. apply RE in RX. destruct (KEEP x RX) as (c & L & L'). exists c. split; [exact L|]. now apply (BACK x c). }
  rewrite E2. f_equal. destruct (gc_spec _ _ _ T E2) as (_ & KEEP2 & DROP2 & BACK2).
  assert (LE : forall x, lookup h2 x = lookup h' x).
  { intros x. destruct (lookup h2 x) as [c|] eqn:L2.
    - destruct (BACK2 x c L2) as (RX & L & _). apply RE in RX. destruct (KEEP x RX) as (c' & L' & L1). congruence.
    - destruct (lookup h' x) as [c|] eqn:L1; [|reflexivity]. destruct (BACK x c L1) as (RX & _). apply RE in RX. destruct (KEEP2 x RX) as (c' & _ & L'). congruence. }
  rewrite (gc_filter _ _ _ T E2), (gc_filter _ _ _ T E). apply filter_ext. intros [x c]. cbn [fst]. now rewrite LE.
Qed.

Section Rooted.
Context (r0 : ref).
Definition rooted (s : vm) : vm := with_stack s (stack s ++ [r0]).
Definition gone (s : vm) : Prop := lookup (all s) r0 = None.
Definition rel X (m m' : M X) : Prop := forall s, ids_ok s -> r0 < nextId s ->
  match m s with
  | Ret (x, s') => ids_ok s' /\ nextId s <= nextId s' /\ (gone s -> gone s') /\ (gone s' \/ m' (rooted s) = Ret (x, rooted s'))
  | _ => True
  end.
Arguments rel {X} _ _.
Lemma rel_state X (m : M X) : (forall s x s', ids_ok s -> m s = Ret (x, s') -> ids_ok s' /\ nextId s' = nextId s /\ (gone s -> gone s')) ->
  (forall s x s', m s = Ret (x, s') -> m (rooted s) = Ret (x, rooted s')) -> rel m m.
Proof. intros K1 K2 s I L. destruct (m s) as [[x s']| | | | |] eqn:E; auto. destruct (K1 _ _ _ I E) as (A & B & C). split; [exact A|]. split; [lia|]. auto. Qed.
Lemma rel_ret X (x : X) : rel (ret x) (ret x).
Proof. apply rel_state; unfold ret; intros; congruence || (injection H0 as <- <-; auto) || (injection H as <- <-; auto). Qed.
Lemma rel_bind X Y (m m' : M X) (k k' : X -> M Y) : rel m m' -> (forall x, rel (k x) (k' x)) -> rel (bind m k) (bind m' k').
Proof.
  intros A B s I L. specialize (A s I L). unfold bind. destruct (m s) as [[x s1]| | | | |]; cbn [obind]; auto. destruct A as (I1 & L1 & G1 & C).
  specialize (B x s1 I1 ltac:(lia)). cbn [fst snd]. destruct (k x s1) as [[y s2]| | | | |]; auto. destruct B as (I2 & L2 & G2 & C2). split; [exact I2|]. split; [lia|]. split; [auto|].
  destruct C as [C|C]; [left; auto|]. rewrite C. cbn [obind fst snd]. exact C2.
Qed.
Lemma rel_assoc X Y Z (m m' : M X) (f f' : X -> M Y) (k k' : Y -> M Z) : rel (bind m (fun x => bind (f x) k)) (bind m' (fun x => bind (f' x) k')) -> rel (bind (bind m f) k) (bind (bind m' f') k').
Proof. intros K s I L. rewrite !bind_assoc. exact (K s I L). Qed.
Lemma rel_nofuel X (m : M X) : rel nofuel m.
Proof. intros s _ _. exact I. Qed.
Lemma rel_push r : rel (push r) (push r).
Proof. apply rel_state; unfold push; intros s x s'; [intros I [= <- <-]|intros [= <- <-]]; auto. Qed.
Lemma rel_pop r : rel (pop r) (pop r).
Proof.
  apply rel_state; unfold pop; intros s x s'; [intros I|]; unfold rooted; cbn [stack with_stack]; destruct (stack s) as [|y t] eqn:ES; try discriminate; cbn [app]; destruct (y =? r); try discriminate; intros [= <- <-]; auto.
Qed.
Lemma rel_cell X r (k k' : cell -> M X) : (forall c, cmark c = false -> rel (k c) (k' c)) -> rel (bind (get_cell r) k) (bind (get_cell r) k').
Proof.
  intros K s I L. unfold bind, get_cell. change (all (rooted s)) with (all s). destruct (lookup (all s) r) as [c|] eqn:E; cbn [obind fst snd]; auto. apply K; auto. eapply tidy_lookup; [apply I|exact E].
Qed.
Lemma gone_update s r c : gone s -> gone (with_all s (update (all s) r c)).
Proof. unfold gone. cbn. rewrite lookup_update. intros ->. now destruct (r =? r0). Qed.
Lemma ids_update s r c : ids_ok s -> cmark c = false -> ids_ok (with_all s (update (all s) r c)).
Proof. intros (T & B) M. split; cbn; [now apply update_tidy|]. intros x c' [J|(-> & -> & c0 & L)]%update_in; [eauto|]. apply lookup_in in L; [eauto|apply T]. Qed.
Lemma rel_put_cell r c : cmark c = false -> rel (put_cell r c) (put_cell r c).
Proof.
  intros M. apply rel_state; unfold put_cell; intros s x s'; [intros I|change (all (rooted s)) with (all s)]; destruct (lookup (all s) r) eqn:L; try discriminate; intros [= <- <-]; [|reflexivity].
  split; [now apply ids_update|]. split; [reflexivity|]. apply gone_update.
Qed.
Lemma rel_maybe_gc : rel maybe_gc maybe_gc.
Proof.
  intros s I L. unfold maybe_gc. change (gcLimit (rooted s)) with (gcLimit s). change (numAlloc (rooted s)) with (numAlloc s). change (preventGc (rooted s)) with (preventGc s).
  destruct (_ && _)%bool.
  - unfold do_gc. change (all (rooted s)) with (all s). change (stack (rooted s)) with (stack s ++ [r0]). destruct (gc (all s) (stack s)) as [h| | | | |] eqn:E; cbn [obind fst snd]; auto.
    destruct (gc_spec _ _ _ (proj1 I) E) as (T' & KEEP & DROP & BACK).
    split; [split; [exact T'|]; cbn; intros r c J; apply lookup_in in J; [|apply T']; destruct (BACK r c J) as (_ & J' & _); apply lookup_in in J'; [eapply I; exact J'|apply I]|].
    split; [apply N.le_refl|]. split.
    + unfold gone. cbn. intros G. destruct (lookup h r0) as [c|] eqn:L0; [|reflexivity]. destruct (BACK r0 c L0) as (_ & J & _). congruence.
    + unfold gone. cbn. destruct (lookup h r0) as [c|] eqn:L0; [|now left]. right. rewrite (gc_more _ _ _ _ (proj1 I) E); [reflexivity|]. now apply (BACK r0 c).
  - split; [exact I|]. split; [apply N.le_refl|]. auto.
Qed.
Lemma lookup_snoc (h : heap) i c r : r <> i -> lookup (h ++ [(i, c)]) r = lookup h r.
Proof. intros N. induction h as [|[j cj] h IH]; cbn; [destruct (N.eqb_spec i r); congruence|]. destruct (j =? r); auto. Qed.
Lemma rel_fresh (d : vm -> data) : (forall s, d (rooted s) = d s) -> rel (fun s => fresh (d s) s) (fun s => fresh (d s) s).
Proof.
  intros DS s I L. unfold fresh. change (nextId (rooted s)) with (nextId s). destruct (nextId s =? two64 - 1) eqn:EN; auto.
  assert (F : fresh (d s) s = Ret (nextId s, with_nextAddr (with_nextId (with_all s (all s ++ [(nextId s, mkCell (d s) None None false (addrs s (nextAddr s)))])) (nextId s + 1)) (nextAddr s + 1))) by (unfold fresh; now rewrite EN).
  split; [exact (proj1 (fresh_ids _ _ _ _ I F))|]. split; [cbn; lia|]. split.
  - unfold gone. cbn. intros G. rewrite lookup_snoc; [exact G|lia].
  - right. rewrite DS. reflexivity.
Qed.
Lemma rel_alloc d : rel (alloc d) (alloc d).
Proof. apply rel_bind; [apply rel_maybe_gc|]. intros _. now apply (rel_fresh (fun _ => d)). Qed.
Lemma rel_new_error : rel new_error new_error.
Proof. apply rel_bind; [apply rel_maybe_gc|]. intros _. now apply (rel_fresh (fun s => DErr (msgs s (nextAddr s)) 0)). Qed.
Lemma rel_annotate r : rel (annotate r) (annotate r).
Proof.
  apply rel_cell. intros c M. destruct (cdata c); try apply rel_ret. apply rel_state; unfold put_cell; intros s x s'; [intros I|]; cbn [all with_nextAddr rooted with_stack]; destruct (lookup (all s) r); try discriminate; intros [= <- <-]; [|reflexivity].
  split; [|split; [reflexivity|apply (gone_update (with_nextAddr s (nextAddr s + 1)))]]. now apply (ids_update (with_nextAddr s (nextAddr s + 1))).
Qed.
Lemma rel_put_fresh r d : rel (put_fresh r d) (put_fresh r d).
Proof.
  apply rel_cell. intros c M. apply rel_state; unfold put_cell; intros s x s'; [intros I|]; cbn [all with_nextAddr rooted with_stack]; destruct (lookup (all s) r); try discriminate; intros [= <- <-]; [|reflexivity].
  split; [|split; [reflexivity|apply (gone_update (with_nextAddr s (nextAddr s + 1)))]]. now apply (ids_update (with_nextAddr s (nextAddr s + 1))).
Qed.
Lemma rel_heap X (f f' : heap -> outcome X) : hrel f f' -> rel (heap_op f) (heap_op f').
Proof.
  intros (_ & K) s I L. unfold heap_op. change (all (rooted s)) with (all s). destruct (K (all s)) as [->|<-]; [exact Logic.I|]. destruct (no_stack (f (all s))); cbn [obind]; auto. split; [exact I|]. split; [apply N.le_refl|]. auto.
Qed.
Lemma rel_lift X (o o' : outcome X) : ole o o' -> rel (lift o) (lift o').
Proof. intros [->|<-] s I L; unfold lift; [exact Logic.I|]. destruct o; cbn; auto. split; [exact I|]. split; [apply N.le_refl|]. auto. Qed.
Lemma rel_read X (f : vm -> X) : (forall s, f (rooted s) = f s) -> rel (read f) (read f).
Proof. intros K. apply rel_state; unfold read; intros s x s'; [intros I [= <- <-]; auto|]. rewrite K. now intros [= <- <-]. Qed.
Lemma rel_set (f : vm -> vm) : (forall s, f (rooted s) = rooted (f s)) -> (forall s, all (f s) = all s /\ nextId (f s) = nextId s) -> rel (fun s => Ret (tt, f s)) (fun s => Ret (tt, f s)).
Proof.
  intros K1 K2. apply rel_state; intros s x s'; [intros I [= <- <-]|intros [= <- <-]; now rewrite K1]. destruct (K2 s) as (E1 & E2). unfold gone, ids_ok. rewrite E1, E2. auto.
Qed.
Lemma rel_copy n r : rel (copy n r) (copy n r).
Proof.
  apply (r_copy (@rel) (fun c => cmark c = false) (fun _ => True)); auto using closed_all, rel_assoc, rel_ret, rel_bind, rel_nofuel, rel_push, rel_pop, rel_cell, rel_put_cell, rel_alloc, rel_new_error, rel_annotate, rel_put_fresh, rel_heap, rel_lift.
  all: try (intros; apply rel_read; reflexivity).
  all: try (intros; apply rel_set; intros; cbn; auto).
  all: intros; intros s0 I0 L0; exact Logic.I.
Qed.
End Rooted.
