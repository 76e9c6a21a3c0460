(** Without a collection nothing is freed: for every operation of the machine. *)
From Coq Require Import NArith ZArith Bool Lia String List.
From Verif Require Import Base Input OString HMap Heap SpecHeap GcProofs VmProofs ValueOps Env Copy ToText Builtins Specials Eval Read Boot Relate SpecKept.
Import ListNotations.
Local Open Scope N_scope.

Definition kept (s s' : vm) : Prop :=
  nextId s <= nextId s' /\ numAlloc s' + nextId s <= nextId s' + numAlloc s /\
  (numAlloc s' + nextId s = nextId s' + numAlloc s -> (forall r, exists_in s r -> exists_in s' r) /\ (forall r, nextId s <= r < nextId s' -> exists_in s' r)).
Lemma kept_refl s : kept s s.
Proof. split; [lia|]. split; [lia|]. intros _. split; [auto|lia]. Qed.
Lemma kept_trans s s1 s2 : kept s s1 -> kept s1 s2 -> kept s s2.
Proof.
  intros (A1 & A2 & A3) (B1 & B2 & B3). split; [lia|]. split; [lia|]. intros U. destruct A3 as (A3 & A4); [lia|]. destruct B3 as (B3 & B4); [lia|]. split; [auto|].
  intros r H. destruct (N.lt_ge_cases r (nextId s1)); [apply B3, A4; lia|apply B4; lia].
Qed.
Definition on {X} (m _ : M X) : Prop := forall s x s', m s = Ret (x, s') -> kept s s'.
Lemma on_bind X Y (m m' : M X) (k k' : X -> M Y) : on m m' -> (forall x, on (k x) (k' x)) -> on (bind m k) (bind m' k').
Proof. intros A B s y s' E. unfold bind in E. destruct (m s) as [[x s1]| | | | |] eqn:E1; try discriminate. cbn [obind] in E. eapply kept_trans; [eapply A; exact E1|eapply B; exact E]. Qed.
Lemma on_assoc X Y Z (m m' : M X) (f f' : X -> M Y) (k k' : Y -> M Z) : on (bind m (fun x => bind (f x) k)) (bind m' (fun x => bind (f' x) k')) -> on (bind (bind m f) k) (bind (bind m' f') k').
Proof. intros K s x s' E. rewrite bind_assoc in E. exact (K s x s' E). Qed.
Lemma on_state X (m m' : M X) : (forall s x s', m s = Ret (x, s') -> s' = s) -> on m m'.
Proof. intros K s x s' E. rewrite (K _ _ _ E). apply kept_refl. Qed.
Lemma on_heap X (f f' : heap -> outcome X) : on (heap_op f) (heap_op f').
Proof. apply on_state. intros s x s' E. unfold heap_op in E. destruct (f (all s)); try discriminate E. now injection E as _ <-. Qed.
Lemma on_lift X (o o' : outcome X) : on (lift o) (lift o').
Proof. apply on_state. intros s x s' E. unfold lift in E. destruct o; try discriminate E. now injection E as _ <-. Qed.
Lemma on_get_cell r : on (get_cell r) (get_cell r).
Proof. apply on_state. intros s x s' E. unfold get_cell in E. destruct (lookup (all s) r); try discriminate E. now injection E as _ <-. Qed.
Lemma on_cell X r (k k' : cell -> M X) : (forall c, True -> on (k c) (k' c)) -> on (bind (get_cell r) k) (bind (get_cell r) k').
Proof. intros A. apply on_bind; [apply on_get_cell|auto]. Qed.
Lemma same_kept s s' : nextId s' = nextId s -> numAlloc s' = numAlloc s -> (forall r, exists_in s r -> exists_in s' r) -> kept s s'.
Proof. intros A B C. split; [lia|]. split; [lia|]. intros _. split; [exact C|lia]. Qed.
Lemma update_kept s t r c : nextId t = nextId s -> numAlloc t = numAlloc s -> all t = update (all s) r c -> kept s t.
Proof.
  intros A B E. apply same_kept; auto. intros x. unfold exists_in. rewrite E, lookup_update. destruct (N.eqb_spec r x) as [->|]; [|auto]. destruct (lookup (all s) x); intros H; [discriminate|auto].
Qed.
Lemma on_put_cell r c : on (put_cell r c) (put_cell r c).
Proof. intros s x s' E. unfold put_cell in E. destruct (lookup (all s) r); [|discriminate]. injection E as _ <-. eapply update_kept; reflexivity. Qed.
Lemma lookup_some h r : lookup h r <> None <-> In r (map fst h).
Proof.
  induction h as [|[x c] h IH]; cbn [lookup map fst In]; [tauto|]. destruct (N.eqb_spec x r) as [->|NE]; [split; [auto|discriminate]|]. rewrite IH. tauto.
Qed.
Lemma alloc_kept (d : vm -> data) s u s1 r s' : maybe_gc s = Ret (u, s1) -> fresh (d s1) s1 = Ret (r, s') -> kept s s'.
Proof.
  intros E F. unfold fresh in F. destruct (_ =? _); [discriminate|]. injection F as _ <-. unfold maybe_gc, do_gc in E. destruct (_ && _).
  - destruct (gc (all s) (stack s)) as [h| | | | |]; try discriminate. injection E as _ <-. cbn. split; cbn; [lia|]. split; lia.
  - injection E as _ <-. split; cbn; [lia|]. split; [lia|]. intros _. split.
    + intros x H. apply lookup_some. apply lookup_some in H. cbn. rewrite map_app, in_app_iff. auto.
    + intros x H. apply lookup_some. cbn. rewrite map_app, in_app_iff. right. cbn. lia.
Qed.
Lemma on_alloc d : on (alloc d) (alloc d).
Proof. intros s x s' E. unfold alloc, bind in E. destruct (maybe_gc s) as [[u s1]| | | | |] eqn:E1; try discriminate. cbn [obind fst snd] in E. eapply (alloc_kept (fun _ => d)); eauto. Qed.
Lemma on_new_error : on new_error new_error.
Proof. intros s x s' E. unfold new_error, bind in E. destruct (maybe_gc s) as [[u s1]| | | | |] eqn:E1; try discriminate. cbn [obind fst snd] in E. eapply (alloc_kept (fun s1 => DErr (msgs s1 (nextAddr s1)) 0)); [exact E1|exact E]. Qed.
Lemma on_annotate r : on (annotate r) (annotate r).
Proof.
  apply on_bind; [apply on_get_cell|]. intros c. destruct (cdata c); try (apply on_state; intros ? ? ? [= _ <-]; reflexivity).
  intros s0 x s0' E. unfold put_cell in E. cbn [all with_nextAddr] in E. destruct (lookup (all s0) r); [|discriminate]. injection E as _ <-. eapply update_kept; reflexivity.
Qed.
Lemma on_put_fresh r d : on (put_fresh r d) (put_fresh r d).
Proof.
  apply on_bind; [apply on_get_cell|]. intros c s x s' E. unfold put_cell in E. cbn [all with_nextAddr] in E. destruct (lookup (all s) r); [|discriminate]. injection E as _ <-. eapply update_kept; reflexivity.
Qed.
Lemma on_push r : on (push r) (push r).
Proof. intros s x s' [= _ <-]. apply same_kept; auto. Qed.
Lemma on_pop r : on (pop r) (pop r).
Proof. intros s x s' E. unfold pop in E. destruct (stack s); [discriminate|]. destruct (_ =? _); [|discriminate]. injection E as _ <-. apply same_kept; auto. Qed.
Lemma on_read X (f : vm -> X) : on (read f) (read f).
Proof. apply on_state. intros s x s' [= _ <-]. reflexivity. Qed.
Lemma on_set_fret o : on (set_fret o) (set_fret o).
Proof. intros s x s' E. unfold set_fret in E. injection E as _ <-. apply same_kept; auto. Qed.
Lemma on_set_readably o : on (set_readably o) (set_readably o).
Proof. intros s x s' [= _ <-]. apply same_kept; auto. Qed.
Lemma on_set_quit o : on (set_quit o) (set_quit o).
Proof. intros s x s' [= _ <-]. apply same_kept; auto. Qed.
Lemma on_write_out o : on (write_out o) (write_out o).
Proof. intros s x s' [= _ <-]. apply same_kept; auto. Qed.
Lemma on_nofuel X (m : M X) : on nofuel m. Proof. intros s x s' E. discriminate. Qed.
Lemma on_undef X : on (@undef X) undef. Proof. intros s x s' E. discriminate. Qed.
Lemma on_abort X : on (@abort X) abort. Proof. intros s x s' E. discriminate. Qed.
Lemma on_ret X (x : X) : on (ret x) (ret x). Proof. apply on_state. intros s y s' [= _ <-]. reflexivity. Qed.
Theorem eval_kept n v e s x s' : eval n v e s = Ret (x, s') -> kept s s'.
Proof.
  assert (K : on (eval n v e) (eval n v e)); [|apply K].
  apply (r_eval (@on) (fun _ => True) (fun _ => True)); try exact (le_n _); auto using closed_all, on_assoc, on_bind, on_cell, on_ret, on_nofuel, on_undef, on_abort, on_push, on_pop, on_put_cell, on_alloc, on_new_error, on_annotate, on_put_fresh, on_heap, on_lift, on_read, on_set_fret, on_set_quit, on_write_out, on_set_readably.
Qed.
Theorem read_eval_kept n i s x s' : read_eval n i s = Ret (x, s') -> kept s s'.
Proof.
  assert (K : on (read_eval n i) (read_eval n i)); [|apply K].
  apply (r_read_eval (@on) (fun _ => True) (fun _ => True)); try exact (le_n _); auto using closed_all, on_assoc, on_bind, on_cell, on_ret, on_nofuel, on_undef, on_abort, on_push, on_pop, on_put_cell, on_alloc, on_new_error, on_annotate, on_put_fresh, on_heap, on_lift, on_read, on_set_fret, on_set_quit, on_write_out, on_set_readably.
Qed.
