(** Other times of collection, for hosts. *)
From Coq Require Import NArith ZArith Bool Lia String List.
From Verif Require Import Base Input OString HMap Heap SpecHeap GcProofs VmProofs ValueOps Env Copy ToText Builtins Specials Eval Read Boot Relate SchedProofs SpecSched Repl Embed SpecEmbed SpecHost.
Import ListNotations.
Local Open Scope N_scope.

Ltac sins := try exact sim_bind; try exact sim_assoc; try exact closed_all; try exact sim_cell;
    auto using sim_ret, sim_push, sim_pop, sim_put_cell, sim_alloc, sim_new_error, sim_annotate, sim_put_fresh, sim_heap, sim_lift, sim_set_fret, sim_set_quit, sim_write_out, sim_set_readably, eval_sim;
    try (intros; apply sim_read; intros ? ? []; (now auto) || congruence); try (intros; intros ? ? ?; exact I || reflexivity).
Ltac sinst L := first [apply (L (@sim) (fun c => cmark c = false) (fun _ => True))|apply (L (@sim) (fun c => cmark c = false))|apply (L (@sim))].
Section Fuel.
Context (n m : nat) (LE : (n <= m)%nat).
Lemma sim_get r : sim (get r) (get r). Proof. sinst r_get; sins. Qed.
Lemma sim_func_at f a : sim (func_at f a) (func_at f a). Proof. sinst r_func_at; sins. Qed.
Lemma sim_env_extend e f a : sim (env_extend e f a) (env_extend e f a). Proof. sinst r_env_extend; sins. Qed.
Lemma sim_env_set e f a : sim (env_set e f a) (env_set e f a). Proof. sinst r_env_set; sins. Qed.
Lemma sim_run_body f a e i l : sim (run_body n (eval n) f a e i l) (run_body m (eval m) f a e i l). Proof. sinst r_run_body; sins. Qed.
Lemma sim_copy x : sim (copy n x) (copy m x). Proof. sinst r_copy; sins. Qed.
Lemma sim_seq_push_atom l x : sim (seq_push_atom n l x) (seq_push_atom m l x). Proof. sinst r_seq_push_atom; sins. Qed.
Lemma sim_push_all v l : sim (push_all v l) (push_all v l). Proof. sinst r_push_all; sins. Qed.
Lemma sim_vec_push v l : sim (vec_push v l) (vec_push v l). Proof. sinst r_vec_push; sins. Qed.

Lemma sim_abort X : sim (@abort X) abort. Proof. intros s s' K. exact I. Qed.
Lemma sim_set_exit_code b z : sim (set_exit_code b z) (set_exit_code b z).
Proof. intros s s' K. cbn. eexists. split; [reflexivity|]. destruct K. constructor; cbn; auto. Qed.
Lemma sim_stack : sim (read stack) (read stack). Proof. apply sim_read. now intros ? ? []. Qed.
Lemma sim_genv : sim (read genv) (read genv). Proof. apply sim_read. now intros ? ? []. Qed.
Lemma sim_quit : sim (read quit) (read quit). Proof. apply sim_read. now intros ? ? []. Qed.
Lemma sim_exit : sim (read exitCode) (read exitCode). Proof. apply sim_read. now intros ? ? []. Qed.
Lemma sim_eval v e : sim (eval n v e) (eval m v e). Proof. now apply eval_sim. Qed.
Lemma sim_read_eval i : sim (read_eval n i) (read_eval m i). Proof. now apply read_eval_sim. Qed.
Lemma sim_octets b : sim (lift (octets_text b)) (lift (octets_text b)). Proof. apply sim_lift, ole_refl. Qed.
#[local] Hint Resolve sim_ret sim_abort sim_push sim_pop sim_alloc sim_new_error sim_set_readably sim_set_exit_code sim_stack sim_genv sim_quit sim_exit sim_eval sim_read_eval sim_octets
  sim_get sim_func_at sim_env_extend sim_env_set sim_run_body sim_copy sim_seq_push_atom sim_push_all sim_vec_push : simdb.
Lemma sim_get_cell r : sim (get_cell r) (get_cell r).
Proof.
  intros s s' K. unfold get_cell. destruct (lookup (all s) r) as [c|] eqn:E; [|exact I]. rewrite (proj2 (k_sub _ _ K) _ _ E). exists s'. auto.
Qed.
#[local] Hint Resolve sim_get_cell : simdb.
Ltac sgo := repeat match goal with
  | |- sim (bind _ _) (bind _ _) => apply sim_bind; [|intros ?]
  | |- sim (match ?x with _ => _ end) _ => destruct x
  | |- sim (let x := _ in _) _ => cbv zeta
  | |- sim _ _ => solve [eauto 2 with simdb]
  end.
Lemma sim_evaluate_buffer b : sim (evaluate_buffer n b) (evaluate_buffer m b). Proof. unfold evaluate_buffer. sgo. Qed.
Lemma sim_call_lambda f a : sim (call_lambda n f a) (call_lambda m f a). Proof. unfold call_lambda. sgo. Qed.
#[local] Hint Resolve sim_evaluate_buffer sim_call_lambda : simdb.
Lemma sim_perform files q : about_collection q = false -> sim (perform n files q) (perform m files q).
Proof.
  intros A. destruct q; try discriminate A; cbn [perform]; unfold value, values, done; sgo.
Qed.
End Fuel.
(** A request about the collector, made to one of the machines only. *)
Lemma about_like n files q s s' : about_collection q = true -> like s s' ->
  match perform n files q s with Ret (_, t) => like t s' | o => plain_fail o end.
Proof.
  intros A K. destruct q; try discriminate A; cbn [perform].
  - unfold done, do_gc, bind. pose proof (gc_fails (all s) (stack s)) as GF. destruct (gc (all s) (stack s)) as [h| | | | |] eqn:E; cbn [obind ret]; try (split; discriminate); try (destruct GF; congruence).
    pose proof (gc_length _ _ _ (k_tidy _ _ K) E) as GL. destruct (gc_spec _ _ _ (k_tidy _ _ K) E) as (T & _ & _ & S). destruct K. constructor; cbn; auto.
    apply (sub_trans _ (all s)); [|auto]. split; [exact GL|]. intros r c L. now apply S in L.
  - destruct K. constructor; cbn; auto.
  - destruct K. constructor; cbn; auto.
Qed.
Lemma ask_follows n m : (n <= m)%nat -> forall l s s', like s s' -> follows (ask n l s) (ask m (essential l) s').
Proof.
  intros LE. induction l as [|(files & q) l IH]; intros s s' K; cbn [ask essential filter snd]; [exists s'; auto|]. fold (essential l).
  destruct (about_collection q) eqn:A; cbn [negb].
  - pose proof (about_like n files q s s' A K) as P. destruct (perform n files q s) as [[a s1]| | | | |]; cbn [obind fst snd follows]; try exact I; try (destruct P; congruence).
    specialize (IH s1 s' P). destruct (ask n l s1) as [[r s2]| | | | |]; cbn [obind fst snd follows] in *; auto.
  - cbn [ask]. pose proof (sim_perform n m LE files q A s s' K) as F. destruct (perform n files q s) as [[a s1]| | | | |]; cbn [obind fst snd follows] in F |- *; try exact I; try (now rewrite F).
    destruct F as (s1' & -> & K1). cbn [obind fst snd]. rewrite A. specialize (IH s1 s1' K1). destruct (ask n l s1) as [[r s2]| | | | |]; cbn [obind fst snd follows] in IH |- *; try exact I; try (now rewrite IH).
    destruct IH as (s2' & -> & K2). cbn [obind fst snd]. eauto.
Qed.
