(** While collection is prevented nothing is freed; no operation of a program
    allows collection again. *)
From Coq Require Import NArith ZArith Bool Lia String List.
From Verif Require Import Base Input OString HMap Heap SpecHeap GcProofs VmProofs ValueOps Env Copy ToText Builtins Specials Eval Read Boot Relate SpecKept Repl Embed SpecEmbed.
Import ListNotations.
Local Open Scope N_scope.

Definition spared (s s' : vm) : Prop :=
  preventGc s' = preventGc s /\ gcLimit s' = gcLimit s /\ (preventGc s = true -> forall r, exists_in s r -> exists_in s' r).
Lemma spared_refl s : spared s s.
Proof. repeat split; auto. Qed.
Lemma spared_trans s s1 s2 : spared s s1 -> spared s1 s2 -> spared s s2.
Proof. intros (A1 & A2 & A3) (B1 & B2 & B3). split; [congruence|]. split; [congruence|]. intros U r H. apply B3; [congruence|auto]. Qed.
Definition on {X} (m _ : M X) : Prop := forall s x s', m s = Ret (x, s') -> spared s s'.
Lemma on_bind X Y (m m' : M X) (k k' : X -> M Y) : on m m' -> (forall x, on (k x) (k' x)) -> on (bind m k) (bind m' k').
Proof. intros A B s y s' E. unfold bind in E. destruct (m s) as [[x s1]| | | | |] eqn:E1; try discriminate. cbn [obind] in E. eapply spared_trans; [eapply A; exact E1|eapply B; exact E]. Qed.
Lemma on_assoc X Y Z (m m' : M X) (f f' : X -> M Y) (k k' : Y -> M Z) : on (bind m (fun x => bind (f x) k)) (bind m' (fun x => bind (f' x) k')) -> on (bind (bind m f) k) (bind (bind m' f') k').
Proof. intros K s x s' E. rewrite bind_assoc in E. exact (K s x s' E). Qed.
Lemma on_state X (m m' : M X) : (forall s x s', m s = Ret (x, s') -> s' = s) -> on m m'.
Proof. intros K s x s' E. rewrite (K _ _ _ E). apply spared_refl. Qed.
Lemma on_heap X (f f' : heap -> outcome X) : on (heap_op f) (heap_op f').
Proof. apply on_state. intros s x s' E. unfold heap_op in E. destruct (f (all s)); try discriminate E. now injection E as _ <-. Qed.
Lemma on_lift X (o o' : outcome X) : on (lift o) (lift o').
Proof. apply on_state. intros s x s' E. unfold lift in E. destruct o; try discriminate E. now injection E as _ <-. Qed.
Lemma on_get_cell r : on (get_cell r) (get_cell r).
Proof. apply on_state. intros s x s' E. unfold get_cell in E. destruct (lookup (all s) r); try discriminate E. now injection E as _ <-. Qed.
Lemma on_cell X r (k k' : cell -> M X) : (forall c, True -> on (k c) (k' c)) -> on (bind (get_cell r) k) (bind (get_cell r) k').
Proof. intros A. apply on_bind; [apply on_get_cell|auto]. Qed.
Lemma same_spared s s' : preventGc s' = preventGc s -> gcLimit s' = gcLimit s -> (forall r, exists_in s r -> exists_in s' r) -> spared s s'.
Proof. intros A B C. split; auto. Qed.
Lemma update_spared s t r c : preventGc t = preventGc s -> gcLimit t = gcLimit s -> all t = update (all s) r c -> spared s t.
Proof.
  intros A B E. apply same_spared; auto. intros x. unfold exists_in. rewrite E, lookup_update. destruct (N.eqb_spec r x) as [->|]; [|auto]. destruct (lookup (all s) x); intros H; [discriminate|auto].
Qed.
Lemma on_put_cell r c : on (put_cell r c) (put_cell r c).
Proof. intros s x s' E. unfold put_cell in E. destruct (lookup (all s) r); [|discriminate]. injection E as _ <-. eapply update_spared; reflexivity. Qed.
Lemma lookup_some h r : lookup h r <> None <-> In r (map fst h).
Proof.
  induction h as [|[x c] h IH]; cbn [lookup map fst In]; [tauto|]. destruct (N.eqb_spec x r) as [->|NE]; [split; [auto|discriminate]|]. rewrite IH. tauto.
Qed.
Lemma alloc_spared (d : vm -> data) s u s1 r s' : maybe_gc s = Ret (u, s1) -> fresh (d s1) s1 = Ret (r, s') -> spared s s'.
Proof.
  intros E F. unfold fresh in F. destruct (_ =? _); [discriminate|]. injection F as _ <-. unfold maybe_gc, do_gc in E. destruct (_ && _) eqn:G.
  - destruct (gc (all s) (stack s)) as [h| | | | |]; try discriminate. injection E as _ <-. split; [reflexivity|]. split; [reflexivity|]. intros P. rewrite P in G. now rewrite andb_false_r in G.
  - injection E as _ <-. split; [reflexivity|]. split; [reflexivity|]. intros _ x H. apply lookup_some. apply lookup_some in H. cbn. rewrite map_app, in_app_iff. auto.
Qed.
Lemma on_alloc d : on (alloc d) (alloc d).
Proof. intros s x s' E. unfold alloc, bind in E. destruct (maybe_gc s) as [[u s1]| | | | |] eqn:E1; try discriminate. cbn [obind fst snd] in E. eapply (alloc_spared (fun _ => d)); eauto. Qed.
Lemma on_new_error : on new_error new_error.
Proof. intros s x s' E. unfold new_error, bind in E. destruct (maybe_gc s) as [[u s1]| | | | |] eqn:E1; try discriminate. cbn [obind fst snd] in E. eapply (alloc_spared (fun s1 => DErr (msgs s1 (nextAddr s1)) 0)); [exact E1|exact E]. Qed.
Lemma on_annotate r : on (annotate r) (annotate r).
Proof.
  apply on_bind; [apply on_get_cell|]. intros c. destruct (cdata c); try (apply on_state; intros ? ? ? [= _ <-]; reflexivity).
  intros s0 x s0' E. unfold put_cell in E. cbn [all with_nextAddr] in E. destruct (lookup (all s0) r); [|discriminate]. injection E as _ <-. eapply update_spared; reflexivity.
Qed.
Lemma on_put_fresh r d : on (put_fresh r d) (put_fresh r d).
Proof.
  apply on_bind; [apply on_get_cell|]. intros c s x s' E. unfold put_cell in E. cbn [all with_nextAddr] in E. destruct (lookup (all s) r); [|discriminate]. injection E as _ <-. eapply update_spared; reflexivity.
Qed.
Lemma on_push r : on (push r) (push r).
Proof. intros s x s' [= _ <-]. apply same_spared; auto. Qed.
Lemma on_pop r : on (pop r) (pop r).
Proof. intros s x s' E. unfold pop in E. destruct (stack s); [discriminate|]. destruct (_ =? _); [|discriminate]. injection E as _ <-. apply same_spared; auto. Qed.
Lemma on_read X (f : vm -> X) : on (read f) (read f).
Proof. apply on_state. intros s x s' [= _ <-]. reflexivity. Qed.
Lemma on_set_fret o : on (set_fret o) (set_fret o).
Proof. intros s x s' E. unfold set_fret in E. injection E as _ <-. apply same_spared; auto. Qed.
Lemma on_set_readably o : on (set_readably o) (set_readably o).
Proof. intros s x s' [= _ <-]. apply same_spared; auto. Qed.
Lemma on_set_quit o : on (set_quit o) (set_quit o).
Proof. intros s x s' [= _ <-]. apply same_spared; auto. Qed.
Lemma on_write_out o : on (write_out o) (write_out o).
Proof. intros s x s' [= _ <-]. apply same_spared; auto. Qed.
Lemma on_nofuel X (m : M X) : on nofuel m. Proof. intros s x s' E. discriminate. Qed.
Lemma on_undef X : on (@undef X) undef. Proof. intros s x s' E. discriminate. Qed.
Lemma on_abort X : on (@abort X) abort. Proof. intros s x s' E. discriminate. Qed.
Lemma on_ret X (x : X) : on (ret x) (ret x). Proof. apply on_state. intros s y s' [= _ <-]. reflexivity. Qed.


Ltac inst L := first [apply (L (@on) (fun _ => True) (fun _ => True))|apply (L (@on) (fun _ => True))]; auto using closed_all, on_assoc, on_bind, on_cell, on_ret, on_nofuel, on_undef, on_abort, on_push, on_pop, on_put_cell, on_alloc, on_new_error, on_annotate, on_put_fresh, on_heap, on_lift, on_read, on_set_fret, on_set_quit, on_write_out, on_set_readably.
Lemma on_eval n v e : on (eval n v e) (eval n v e). Proof. inst r_eval. Qed.
Lemma on_read_eval n i : on (read_eval n i) (read_eval n i). Proof. inst r_read_eval. Qed.
Lemma on_get r : on (get r) (get r). Proof. inst r_get. Qed.
Lemma on_func_at f a : on (func_at f a) (func_at f a). Proof. inst r_func_at. Qed.
Lemma on_env_extend e f a : on (env_extend e f a) (env_extend e f a). Proof. inst r_env_extend. Qed.
Lemma on_env_set e f a : on (env_set e f a) (env_set e f a). Proof. inst r_env_set. Qed.
Lemma on_run_body n f a e i l : on (run_body n (eval n) f a e i l) (run_body n (eval n) f a e i l). Proof. inst r_run_body. intros; apply on_eval. Qed.
Lemma on_copy n x : on (copy n x) (copy n x). Proof. inst r_copy. Qed.
Lemma on_seq_push_atom n l x : on (seq_push_atom n l x) (seq_push_atom n l x). Proof. inst r_seq_push_atom. Qed.
Lemma on_push_all v l : on (push_all v l) (push_all v l). Proof. inst r_push_all. Qed.
Lemma on_vec_push v l : on (vec_push v l) (vec_push v l). Proof. inst r_vec_push. Qed.
Lemma on_match X (m : M X) : on m m -> on m m. Proof. auto. Qed.
#[local] Hint Resolve on_ret on_nofuel on_undef on_abort on_push on_pop on_put_cell on_alloc on_new_error on_heap on_lift on_read on_get on_get_cell
  on_eval on_read_eval on_func_at on_env_extend on_env_set on_run_body on_copy on_seq_push_atom on_push_all on_vec_push : odb.
Ltac ogo := repeat match goal with
  | |- on (bind _ _) (bind _ _) => apply on_bind; [|intros ?]
  | |- on (match ?x with _ => _ end) _ => destruct x
  | |- on (let x := _ in _) _ => cbv zeta
  | |- on _ _ => solve [eauto 2 with odb]
  end.
Lemma on_evaluate_buffer n b : on (evaluate_buffer n b) (evaluate_buffer n b). Proof. unfold evaluate_buffer. ogo. Qed.
Lemma on_call_lambda n f a : on (call_lambda n f a) (call_lambda n f a). Proof. unfold call_lambda. ogo. Qed.
#[local] Hint Resolve on_evaluate_buffer on_call_lambda : odb.
Lemma on_set_exit_code b z : on (set_exit_code b z) (set_exit_code b z).
Proof. intros s x s' [= _ <-]. apply same_spared; auto. Qed.
#[local] Hint Resolve on_set_exit_code on_set_readably : odb.
(** The requests of a host that leave the collector's settings alone. *)
Lemma on_perform n files q : q <> Collect -> (forall b, q <> PreventCollection b) -> (forall k, q <> CollectEvery k) -> on (perform n files q) (perform n files q).
Proof.
  intros A B C. destruct q; try (destruct (A eq_refl)); try (destruct (B _ eq_refl)); try (destruct (C _ eq_refl)); cbn [perform]; unfold value, values, done; ogo; cbn [fst snd]; ogo.
Qed.
