(** The two uses of Relate.v: more fuel, and other times of collection. *)
From Coq Require Import NArith ZArith Bool Lia String List.
From Verif Require Import Base Input OString HMap Heap SpecHeap GcProofs ValueOps Env Copy ToText Builtins Specials Eval Read Boot Relate.
Import ListNotations.
Local Open Scope N_scope.

(** ** More fuel *)
Definition more {X} (m m' : M X) : Prop := forall s, ole (m s) (m' s).
Lemma more_refl {X} (m : M X) : more m m.
Proof. intros s. apply ole_refl. Qed.
Lemma more_bind {X Y} (m m' : M X) (k k' : X -> M Y) : more m m' -> (forall x, more (k x) (k' x)) -> more (bind m k) (bind m' k').
Proof. intros A B s. unfold bind. apply ole_bind; [apply A|]. intros [x t]. apply B. Qed.
Lemma more_assoc X Y Z (m m' : M X) (f f' : X -> M Y) (k k' : Y -> M Z) : more (bind m (fun x => bind (f x) k)) (bind m' (fun x => bind (f' x) k')) -> more (bind (bind m f) k) (bind (bind m' f') k').
Proof. intros K s. rewrite !bind_assoc. exact (K s). Qed.
Lemma more_cell X r (k k' : cell -> M X) : (forall c, True -> more (k c) (k' c)) -> more (bind (get_cell r) k) (bind (get_cell r) k').
Proof. intros A. apply more_bind; [apply more_refl|auto]. Qed.
Lemma more_heap X (f f' : heap -> outcome X) : hrel f f' -> more (heap_op f) (heap_op f').
Proof. intros [_ A] s. unfold heap_op. apply ole_bind; [|intros; apply ole_refl]. destruct (A (all s)) as [->| ->]; [now left|apply ole_refl]. Qed.
Lemma more_lift X (o o' : outcome X) : ole o o' -> more (lift o) (lift o').
Proof. intros A s. unfold lift. apply ole_bind; [|intros; apply ole_refl]. destruct A as [->| ->]; [now left|apply ole_refl]. Qed.
Theorem eval_more n m v e : (n <= m)%nat -> more (eval n v e) (eval m v e).
Proof.
  apply (r_eval (@more) (fun _ => True) (fun _ => True)); intros; try apply more_refl; auto using closed_all, more_assoc, more_bind, more_cell, more_heap, more_lift. intros s. now left.
Qed.
Theorem read_eval_more n m i : (n <= m)%nat -> more (read_eval n i) (read_eval m i).
Proof.
  apply (r_read_eval (@more) (fun _ => True) (fun _ => True)); intros; try apply more_refl; auto using closed_all, more_assoc, more_bind, more_cell, more_heap, more_lift. intros s. now left.
Qed.

(** ** Other times of collection *)
(** [s'] is like [s] and has collected nothing. *)
Record like (s s' : vm) : Prop := mkLike {
  k_sub : sub (all s) (all s'); k_tidy : tidy (all s); k_below : forall r c, lookup (all s') r = Some c -> r < nextId s';
  k_id : nextId s = nextId s'; k_addr : nextAddr s = nextAddr s'; k_stack : stack s = stack s'; k_genv : genv s = genv s';
  k_fret : fret s = fret s'; k_quit : quit s = quit s'; k_exit : exitCode s = exitCode s'; k_readably : readably s = readably s'; k_output : output s = output s'; k_addrs : addrs s = addrs s'; k_msgs : msgs s = msgs s'; k_outside : outside s = outside s';
  k_never : preventGc s' = true }.
Definition follows {X} (o : outcome (X * vm)) (o' : outcome (X * vm)) : Prop :=
  match o with
  | Ret (x, t) => exists t', o' = Ret (x, t') /\ like t t'
  | Undef => o' = Undef
  | Unbalanced => o' = Unbalanced
  | _ => True
  end.
Definition sim {X} (m m' : M X) : Prop := forall s s', like s s' -> follows (m s) (m' s').
Lemma sim_ret X (x : X) : sim (ret x) (ret x).
Proof. intros s s' K. exists s'. auto. Qed.
Lemma sim_bind X Y (m m' : M X) (k k' : X -> M Y) : sim m m' -> (forall x, sim (k x) (k' x)) -> sim (bind m k) (bind m' k').
Proof.
  intros A B s s' K. specialize (A s s' K). unfold bind. destruct (m s) as [[x t]| | | | |]; cbn in *; auto; try (now rewrite A).
  destruct A as (t' & -> & K'). cbn. now apply B.
Qed.
Lemma sim_assoc X Y Z (m m' : M X) (f f' : X -> M Y) (k k' : Y -> M Z) : sim (bind m (fun x => bind (f x) k)) (bind m' (fun x => bind (f' x) k')) -> sim (bind (bind m f) k) (bind (bind m' f') k').
Proof. intros K s s' L. rewrite !bind_assoc. exact (K s s' L). Qed.
Lemma sim_push r : sim (push r) (push r).
Proof. intros s s' K. unfold push. cbn. eexists. split; [reflexivity|]. destruct K. constructor; cbn; auto. now f_equal. Qed.
Lemma sim_pop r : sim (pop r) (pop r).
Proof.
  intros s s' K. unfold pop. rewrite (k_stack _ _ K). destruct (stack s') as [|x l] eqn:E; [reflexivity|]. destruct (x =? r); [|reflexivity].
  cbn. eexists. split; [reflexivity|]. destruct K. constructor; cbn; auto.
Qed.
Lemma sim_cell X r (k k' : cell -> M X) : (forall c, cmark c = false -> sim (k c) (k' c)) -> sim (bind (get_cell r) k) (bind (get_cell r) k').
Proof.
  intros A s s' K. unfold bind, get_cell. destruct (lookup (all s) r) as [c|] eqn:E; [|exact I]. rewrite (proj2 (k_sub _ _ K) _ _ E). cbn. apply A; [|exact K].
  exact (tidy_lookup (all s) r c (k_tidy _ _ K) E).
Qed.
Lemma update_length h r c : List.length (update h r c) = List.length h.
Proof. induction h as [|[i c0] h IH]; cbn; [reflexivity|]. destruct (i =? r); cbn; auto. Qed.
Lemma update_ids h r c : map fst (update h r c) = map fst h.
Proof. induction h as [|[i c0] h IH]; cbn; [reflexivity|]. destruct (i =? r); cbn; congruence. Qed.
Lemma update_tidy h r c : tidy h -> cmark c = false -> tidy (update h r c).
Proof.
  intros [A B] E. split; [now rewrite update_ids|]. intros x d J. apply lookup_in in J; [|now rewrite update_ids]. rewrite lookup_update in J.
  destruct (r =? x); [destruct (lookup h x); [|discriminate]; cbn in J; congruence|]. apply lookup_in in J; [|exact A]. eauto.
Qed.
Lemma update_sub h h' r c : sub h h' -> sub (update h r c) (update h' r c).
Proof.
  intros [L S]. split; [now rewrite !update_length|]. intros x d. rewrite !lookup_update. destruct (r =? x); [|apply S].
  destruct (lookup h x) eqn:E; [|discriminate]. cbn. rewrite (S _ _ E). auto.
Qed.
Lemma like_put s s' r c : like s s' -> cmark c = false -> like (with_all s (update (all s) r c)) (with_all s' (update (all s') r c)).
Proof.
  intros K E. destruct K. constructor; cbn; auto using update_sub, update_tidy. intros x d. rewrite lookup_update. destruct (r =? x) eqn:F; [|eauto].
  destruct (lookup (all s') x) eqn:G; [eauto|discriminate].
Qed.
Lemma like_addr s s' a : like s s' -> like (with_nextAddr s a) (with_nextAddr s' a).
Proof. intros K. destruct K. constructor; cbn; auto. Qed.
Lemma sim_put_cell r c : cmark c = false -> sim (put_cell r c) (put_cell r c).
Proof.
  intros E s s' K. unfold put_cell. destruct (lookup (all s) r) as [d|] eqn:F; [|exact I]. rewrite (proj2 (k_sub _ _ K) _ _ F). cbn. eexists. split; [reflexivity|]. now apply like_put.
Qed.
Lemma gc_length h st h' : tidy h -> gc h st = Ret h' -> (List.length h' <= List.length h)%nat.
Proof.
  intros T E. destruct (gc_ids h st h' E T) as (p & F). rewrite <- (map_length fst h'), F, map_length. clear. induction h as [|x h IH]; cbn; [lia|]. destruct (p x); cbn; lia.
Qed.
Lemma sub_trans a b c : sub a b -> sub b c -> sub a c.
Proof. intros [L S] [L' S']. split; [lia|auto]. Qed.
Definition plain_fail {X} (o : outcome X) : Prop := o <> Undef /\ o <> Unbalanced.
Lemma plain_bind {X Y} (o : outcome X) (f : X -> outcome Y) : plain_fail o -> (forall x, plain_fail (f x)) -> plain_fail (obind o f).
Proof. intros [A B] K. destruct o; cbn; auto; split; congruence. Qed.
Lemma plain_ret {X} (x : X) : plain_fail (Ret x).
Proof. split; discriminate. Qed.
Lemma children_fails c : plain_fail (children c).
Proof.
  unfold children. apply plain_bind; [|intros; apply plain_ret]. destruct (cdata c); try apply plain_ret. generalize (concat (buckets m)). induction l as [|e l IH]; [apply plain_ret|].
  cbn [map_children]. apply plain_bind; [unfold single; destruct (evals e) as [|v [|]]; split; discriminate|]. intros v. apply plain_bind; [exact IH|]. intros; apply plain_ret.
Qed.
Lemma each_fails (m : heap -> ref -> outcome heap) : (forall h r, plain_fail (m h r)) -> forall l h, plain_fail (mark_each m h l).
Proof. intros K. induction l as [|x l IH]; intros h; cbn [mark_each]; [apply plain_ret|]. apply plain_bind; auto. Qed.
Lemma mark_fails : forall n h r, plain_fail (mark n h r).
Proof.
  induction n as [|n IH]; intros h r; cbn [mark]; [split; discriminate|]. destruct (lookup h r) as [c|]; [|split; discriminate]. destruct (cmark c); [apply plain_ret|].
  apply plain_bind; [apply children_fails|]. intros l. now apply each_fails.
Qed.
Lemma gc_fails h st : plain_fail (gc h st).
Proof. unfold gc. apply plain_bind; [apply each_fails, mark_fails|]. intros; apply plain_ret. Qed.
Lemma sim_maybe_gc : sim maybe_gc maybe_gc.
Proof.
  intros s s' K. unfold maybe_gc. rewrite (k_never _ _ K). cbn [negb]. rewrite (andb_false_r (gcLimit s' <=? numAlloc s')).
  destruct ((gcLimit s <=? numAlloc s) && negb (preventGc s)).
  - unfold do_gc. destruct (gc (all s) (stack s)) as [h| | | | |] eqn:E; cbn; auto.
    + eexists. split; [reflexivity|]. pose proof (gc_length _ _ _ (k_tidy _ _ K) E) as GL. destruct (gc_spec _ _ _ (k_tidy _ _ K) E) as (T & _ & _ & S). destruct K. constructor; cbn; auto.
      apply (sub_trans _ (all s)); [|auto]. split; [exact GL|]. intros r c L. now apply S in L.
    + now destruct (gc_fails (all s) (stack s)).
    + now destruct (gc_fails (all s) (stack s)).
  - cbn. eexists. split; [reflexivity|]. destruct K. constructor; cbn; auto.
Qed.
Lemma lookup_snoc h r c x : lookup (h ++ [(r, c)]) x = match lookup h x with Some d => Some d | None => if r =? x then Some c else None end.
Proof. induction h as [|[i d] h IH]; cbn; [reflexivity|]. destruct (i =? x); auto. Qed.
Lemma sim_fresh d : sim (fresh d) (fresh d).
Proof.
  intros s s' K. unfold fresh. rewrite (k_id _ _ K), (k_addrs _ _ K), (k_addr _ _ K). destruct (nextId s' =? two64 - 1); [exact I|]. cbn. eexists. split; [reflexivity|].
  assert (NF : lookup (all s') (nextId s') = None) by (destruct (lookup (all s') (nextId s')) eqn:E; [|reflexivity]; apply (k_below _ _ K) in E; lia).
  assert (NF2 : lookup (all s) (nextId s') = None) by (destruct (lookup (all s) (nextId s')) eqn:E; [|reflexivity]; apply (proj2 (k_sub _ _ K)) in E; congruence).
  destruct K as [[KL KS] [KT1 KT2] KB]. constructor; cbn; auto.
  - split; [rewrite !app_length; cbn; lia|]. intros r c. rewrite !lookup_snoc. destruct (lookup (all s) r) as [e|] eqn:E; [rewrite (KS _ _ E); auto|].
    destruct (nextId s' =? r) eqn:F; [|discriminate]. apply N.eqb_eq in F as <-. rewrite NF. auto.
  - split.
    + rewrite map_app. cbn. apply NoDup_rev in KT1. rewrite <- rev_involutive. apply NoDup_rev. rewrite rev_app_distr. cbn. constructor; [|exact KT1].
      rewrite <- in_rev. intros J. apply in_map_iff in J as ([i c] & EE & J). cbn in EE. subst i. apply lookup_in in J; [congruence|]. apply NoDup_rev in KT1. now rewrite rev_involutive in KT1.
    + intros r c J. apply in_app_iff in J as [J|[[= <- <-]|[]]]; [eauto|reflexivity].
  - intros r c. rewrite lookup_snoc. destruct (lookup (all s') r) eqn:E; [intros _; apply KB in E; lia|]. destruct (nextId s' =? r) eqn:F; [|discriminate]. apply N.eqb_eq in F. lia.
Qed.
Lemma sim_alloc d : sim (alloc d) (alloc d).
Proof. apply sim_bind; [apply sim_maybe_gc|]. intros _. apply sim_fresh. Qed.
Lemma sim_new_error : sim new_error new_error.
Proof.
  apply sim_bind; [apply sim_maybe_gc|]. intros _ s s' K. rewrite (k_msgs _ _ K), (k_addr _ _ K). now apply sim_fresh.
Qed.
Lemma sim_annotate r : sim (annotate r) (annotate r).
Proof.
  apply sim_cell. intros c E. destruct (cdata c); try apply sim_ret. intros s s' K. rewrite (k_msgs _ _ K), (k_addr _ _ K). apply sim_put_cell; [exact E|]. now apply like_addr.
Qed.
Lemma sim_put_fresh r d : sim (put_fresh r d) (put_fresh r d).
Proof.
  apply sim_cell. intros c E s s' K. rewrite (k_addrs _ _ K), (k_addr _ _ K). apply sim_put_cell; [exact E|]. now apply like_addr.
Qed.
Lemma sim_heap X (f f' : heap -> outcome X) : hrel f f' -> sim (heap_op f) (heap_op f').
Proof.
  intros [A _] s s' K. unfold heap_op. destruct (A _ _ (k_sub _ _ K)) as [->|[->| ->]]; try exact I. destruct (f' (all s')); cbn; auto. eauto.
Qed.
Lemma sim_lift X (o o' : outcome X) : ole o o' -> sim (lift o) (lift o').
Proof. intros [->| ->] s s' K; [exact I|]. unfold lift. destruct o'; cbn; auto. eauto. Qed.
Lemma sim_read X (f : vm -> X) : (forall s s', like s s' -> f s = f s') -> sim (read f) (read f).
Proof. intros E s s' K. cbn. rewrite (E _ _ K). exists s'. auto. Qed.
Lemma sim_set_fret o : sim (set_fret o) (set_fret o).
Proof. intros s s' K. cbn. eexists. split; [reflexivity|]. destruct K. constructor; cbn; auto. Qed.
Lemma sim_set_quit c : sim (set_quit c) (set_quit c).
Proof. intros s s' K. cbn. eexists. split; [reflexivity|]. destruct K. constructor; cbn; auto. Qed.
Lemma sim_write_out o : sim (write_out o) (write_out o).
Proof. intros s s' K. cbn. eexists. split; [reflexivity|]. destruct K. constructor; cbn; auto. congruence. Qed.
Lemma sim_set_readably b : sim (set_readably b) (set_readably b).
Proof. intros s s' K. cbn. eexists. split; [reflexivity|]. destruct K. constructor; cbn; auto. Qed.
Lemma sim_as_global g : sim (as_global g) (as_global g).
Proof. intros s s' K. cbn. eexists. split; [reflexivity|]. destruct K. constructor; cbn; auto. Qed.
Lemma like_outside s s' o : like s s' -> like (with_outside s o) (with_outside s' o).
Proof. intros []. constructor; auto. Qed.
Lemma mark_kept c (d : data) (doc dv : option ref) (a : N) : cmark c = false -> cmark (mkCell d doc dv (cmark c) a) = false.
Proof. auto. Qed.
Theorem eval_sim n m v e : (n <= m)%nat -> sim (eval n v e) (eval m v e).
Proof.
  apply (r_eval (@sim) (fun c => cmark c = false) (fun _ => True)); try exact sim_bind; try exact sim_assoc; try exact closed_all; try exact sim_cell;
    auto using sim_ret, sim_push, sim_pop, sim_put_cell, sim_alloc, sim_new_error, sim_annotate, sim_put_fresh, sim_heap, sim_lift, sim_set_fret, sim_set_quit, sim_write_out, sim_set_readably;
    try (intros; apply sim_read; intros s s' []; (now auto) || congruence); intros; intros s s' K; exact I || reflexivity.
Qed.
Theorem read_eval_sim n m i : (n <= m)%nat -> sim (read_eval n i) (read_eval m i).
Proof.
  apply (r_read_eval (@sim) (fun c => cmark c = false) (fun _ => True)); try exact sim_bind; try exact sim_assoc; try exact closed_all; try exact sim_cell;
    auto using sim_ret, sim_push, sim_pop, sim_put_cell, sim_alloc, sim_new_error, sim_annotate, sim_put_fresh, sim_heap, sim_lift, sim_set_fret, sim_set_quit, sim_write_out, sim_set_readably;
    try (intros; apply sim_read; intros s s' []; (now auto) || congruence); intros; intros s s' K; exact I || reflexivity.
Qed.
Theorem boot_sim lib : sim (boot lib) (boot lib).
Proof.
  apply (r_boot (@sim) (fun c => cmark c = false) (fun _ => True)); try exact sim_bind; try exact sim_assoc; try exact closed_all; try exact sim_cell;
    auto using sim_ret, sim_push, sim_pop, sim_put_cell, sim_alloc, sim_new_error, sim_annotate, sim_put_fresh, sim_heap, sim_lift, sim_set_fret, sim_set_quit, sim_write_out, sim_set_readably, sim_as_global;
    try (intros; apply sim_read; intros s s' []; (now auto) || congruence); intros; intros s s' K; exact I || reflexivity.
Qed.
