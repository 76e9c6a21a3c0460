(** Every operation leaves a machine that is later (SpecHistory.v). *)
From Coq Require Import NArith ZArith Bool Lia String List.
From Verif Require Import Base Input OString HMap Heap SpecHeap GcProofs VmProofs ValueOps Env Copy ToText Builtins Specials Eval Read Boot Relate SpecHistory.
Import ListNotations.
Local Open Scope N_scope.

Lemma later_refl s : later s s.
Proof. split; [exists []; now rewrite app_nil_r|]. repeat split; auto. lia. Qed.
Lemma later_trans s s1 s2 : later s s1 -> later s1 s2 -> later s s2.
Proof.
  intros ((o & A1) & A2 & A3 & A4 & A5 & A6) ((o' & B1) & B2 & B3 & B4 & B5 & B6). split; [exists (o ++ o'); now rewrite B1, A1, app_assoc|]. split; [lia|]. split; [|split; [congruence|split; [auto|]]].
  - intros r LT N. apply B3; [lia|auto].
  - intro Q. rewrite (B6 Q). apply A6. destruct (quit s1); [rewrite B5 in Q by reflexivity; discriminate Q|reflexivity].
Qed.
Definition on {X} (m _ : M X) : Prop := forall s x s', m s = Ret (x, s') -> later s s'.
Lemma on_bind X Y (m m' : M X) (k k' : X -> M Y) : on m m' -> (forall x, on (k x) (k' x)) -> on (bind m k) (bind m' k').
Proof. intros A B s y s' E. unfold bind in E. destruct (m s) as [[x s1]| | | | |] eqn:E1; try discriminate. cbn [obind] in E. eapply later_trans; [eapply A; exact E1|eapply B; exact E]. Qed.
Lemma on_assoc X Y Z (m m' : M X) (f f' : X -> M Y) (k k' : Y -> M Z) : on (bind m (fun x => bind (f x) k)) (bind m' (fun x => bind (f' x) k')) -> on (bind (bind m f) k) (bind (bind m' f') k').
Proof. intros K s x s' E. rewrite bind_assoc in E. exact (K s x s' E). Qed.
Lemma on_state X (m m' : M X) : (forall s x s', m s = Ret (x, s') -> s' = s) -> on m m'.
Proof. intros K s x s' E. rewrite (K _ _ _ E). apply later_refl. Qed.
Lemma on_heap X (f f' : heap -> outcome X) : on (heap_op f) (heap_op f').
Proof. apply on_state. intros s x s' E. unfold heap_op in E. destruct (f (all s)); try discriminate E. now injection E as _ <-. Qed.
Lemma on_lift X (o o' : outcome X) : on (lift o) (lift o').
Proof. apply on_state. intros s x s' E. unfold lift in E. destruct o; try discriminate E. now injection E as _ <-. Qed.
Lemma on_get_cell r : on (get_cell r) (get_cell r).
Proof. apply on_state. intros s x s' E. unfold get_cell in E. destruct (lookup (all s) r); try discriminate E. now injection E as _ <-. Qed.
Lemma on_cell X r (k k' : cell -> M X) : (forall c, True -> on (k c) (k' c)) -> on (bind (get_cell r) k) (bind (get_cell r) k').
Proof. intros A. apply on_bind; [apply on_get_cell|auto]. Qed.
(** Operations on the heap and counters only. *)
Lemma heap_later s s' : output s' = output s -> genv s' = genv s -> quit s' = quit s -> exitCode s' = exitCode s -> nextId s <= nextId s' ->
  (forall r, r < nextId s -> lookup (all s) r = None -> lookup (all s') r = None) -> later s s'.
Proof. intros A B C F D E. split; [exists []; now rewrite app_nil_r|]. repeat split; auto. congruence. Qed.
Lemma update_later s t r c : output t = output s -> genv t = genv s -> quit t = quit s -> exitCode t = exitCode s -> nextId t = nextId s -> all t = update (all s) r c -> later s t.
Proof.
  intros A B C F D E. apply heap_later; auto; [lia|]. intros x _ N. rewrite E, lookup_update. destruct (N.eqb_spec r x); [|exact N]. subst. now rewrite N.
Qed.
Lemma on_put_cell r c : on (put_cell r c) (put_cell r c).
Proof. intros s x s' E. unfold put_cell in E. destruct (lookup (all s) r); [|discriminate]. injection E as _ <-. eapply update_later; reflexivity. Qed.
Lemma lookup_none h r : lookup h r = None <-> ~ In r (map fst h).
Proof.
  induction h as [|[x c] h IH]; cbn [lookup map fst In]; [tauto|]. destruct (N.eqb_spec x r) as [->|NE]; [split; [discriminate|tauto]|]. rewrite IH. tauto.
Qed.
Lemma gc_gone h st h' r : gc h st = Ret h' -> lookup h r = None -> lookup h' r = None.
Proof.
  unfold gc. destruct (mark_each (mark (S (length h))) h (rev st)) as [h1| | | | |] eqn:E1; try discriminate. cbn [obind]. intros [= <-] N. apply lookup_none. apply lookup_none in N. intros J. apply N.
  destruct (mark_each_post _ (mark_spec _) _ _ _ E1) as ((U & _) & _). rewrite <- (unmark_ids h), <- U, unmark_ids.
  unfold sweep in J. rewrite map_map in J. cbn [fst] in J. apply in_map_iff in J as (y & <- & F). apply filter_In in F as (F & _). now apply in_map.
Qed.
Lemma maybe_gc_later s u s' : maybe_gc s = Ret (u, s') -> later s s'.
Proof.
  unfold maybe_gc, do_gc. destruct (_ && _); [|intros [= _ <-]; apply heap_later; auto; cbn; lia].
  destruct (gc (all s) (stack s)) as [h| | | | |] eqn:G; try discriminate. intros [= _ <-]. apply heap_later; auto; cbn; [lia|]. intros r _. eapply gc_gone. exact G.
Qed.
Lemma fresh_later d s r s' : fresh d s = Ret (r, s') -> later s s'.
Proof.
  unfold fresh. destruct (_ =? _); [discriminate|]. intros [= _ <-]. apply heap_later; auto; cbn [nextId all with_nextAddr with_nextId with_all]; [lia|]. intros x LT N. apply lookup_none. apply lookup_none in N.
  rewrite map_app, in_app_iff. cbn [map fst In]. intros [J|[J|[]]]; [auto|lia].
Qed.
Lemma on_alloc d : on (alloc d) (alloc d).
Proof. apply on_bind; [intros s u s'; apply maybe_gc_later|]. intros _ s r s'. apply fresh_later. Qed.
Lemma on_new_error : on new_error new_error.
Proof. apply on_bind; [intros s u s'; apply maybe_gc_later|]. intros _ s r s'. apply fresh_later. Qed.
Lemma on_annotate r : on (annotate r) (annotate r).
Proof.
  apply on_bind; [apply on_get_cell|]. intros c. destruct (cdata c); try (apply on_state; intros ? ? ? [= _ <-]; reflexivity).
  intros s0 x s0' E. unfold put_cell in E. cbn [all with_nextAddr] in E. destruct (lookup (all s0) r); [|discriminate]. injection E as _ <-. eapply update_later; reflexivity.
Qed.
Lemma on_put_fresh r d : on (put_fresh r d) (put_fresh r d).
Proof.
  apply on_bind; [apply on_get_cell|]. intros c s x s' E. unfold put_cell in E. cbn [all with_nextAddr] in E. destruct (lookup (all s) r); [|discriminate]. injection E as _ <-. eapply update_later; reflexivity.
Qed.
Lemma on_push r : on (push r) (push r).
Proof. intros s x s' [= _ <-]. apply heap_later; auto; cbn; lia. Qed.
Lemma on_pop r : on (pop r) (pop r).
Proof. intros s x s' E. unfold pop in E. destruct (stack s); [discriminate|]. destruct (_ =? _); [|discriminate]. injection E as _ <-. apply heap_later; auto; cbn; lia. Qed.
Lemma on_read X (f : vm -> X) : on (read f) (read f).
Proof. apply on_state. intros s x s' [= _ <-]. reflexivity. Qed.
Lemma on_set_fret o : on (set_fret o) (set_fret o).
Proof. intros s x s' E. unfold set_fret in E. injection E as _ <-. apply heap_later; auto; cbn; lia. Qed.
Lemma on_set_readably o : on (set_readably o) (set_readably o).
Proof. intros s x s' [= _ <-]. apply heap_later; auto; cbn; lia. Qed.
Lemma on_set_quit o : on (set_quit o) (set_quit o).
Proof. intros s x s' [= _ <-]. split; [exists []; now rewrite app_nil_r|]. repeat split; auto. 1: cbn; lia. cbn. discriminate. Qed.
Lemma on_write_out o : on (write_out o) (write_out o).
Proof. intros s x s' [= _ <-]. split; [now exists o|]. repeat split; auto. cbn. lia. Qed.
Lemma on_nofuel X (m : M X) : on nofuel m. Proof. intros s x s' E. discriminate. Qed.
Lemma on_undef X : on (@undef X) undef. Proof. intros s x s' E. discriminate. Qed.
Lemma on_abort X : on (@abort X) abort. Proof. intros s x s' E. discriminate. Qed.
Lemma on_ret X (x : X) : on (ret x) (ret x). Proof. apply on_state. intros s y s' [= _ <-]. reflexivity. Qed.
Theorem eval_later n v e s x s' : eval n v e s = Ret (x, s') -> later s s'.
Proof.
  assert (K : on (eval n v e) (eval n v e)); [|apply K].
  apply (r_eval (@on) (fun _ => True) (fun _ => True)); try exact (le_n _); auto using closed_all, on_assoc, on_bind, on_cell, on_ret, on_nofuel, on_undef, on_abort, on_push, on_pop, on_put_cell, on_alloc, on_new_error, on_annotate, on_put_fresh, on_heap, on_lift, on_read, on_set_fret, on_set_quit, on_write_out, on_set_readably.
Qed.
Theorem read_eval_later n i s x s' : read_eval n i s = Ret (x, s') -> later s s'.
Proof.
  assert (K : on (read_eval n i) (read_eval n i)); [|apply K].
  apply (r_read_eval (@on) (fun _ => True) (fun _ => True)); try exact (le_n _); auto using closed_all, on_assoc, on_bind, on_cell, on_ret, on_nofuel, on_undef, on_abort, on_push, on_pop, on_put_cell, on_alloc, on_new_error, on_annotate, on_put_fresh, on_heap, on_lift, on_read, on_set_fret, on_set_quit, on_write_out, on_set_readably.
Qed.
