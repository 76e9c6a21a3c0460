(** Every operation of the machine leaves the stack as it found it. *)
From Coq Require Import NArith ZArith Bool Lia String List.
From Verif Require Import Base Input Lexer OString HMap Heap ValueOps Env Copy Builtins Specials Eval Read.
Import ListNotations.
Local Open Scope N_scope.

(** Started with the stack [st], [m] never pops another value than the top one,
    and ends, if it ends, in a result and stack satisfying [Q]. *)
Definition mv {X} (m : M X) (st : list ref) (Q : X -> list ref -> Prop) : Prop :=
  forall s, stack s = st ->
    match m s with Ret (x, s') => Q x (stack s') | Unbalanced => False | _ => True end.
Definition balanced {X} (m : M X) : Prop := forall st, mv m st (fun _ st' => st' = st).

Lemma mv_bind {X Y} (m : M X) (k : X -> M Y) st Q :
  mv m st (fun x st' => mv (k x) st' Q) -> mv (bind m k) st Q.
Proof.
  intros H s E. specialize (H s E). unfold bind. destruct (m s) as [[x s1]| | | | |]; cbn; auto. exact (H s1 eq_refl).
Qed.
Lemma mv_ret {X} (x : X) st (Q : X -> list ref -> Prop) : Q x st -> mv (ret x) st Q.
Proof. intros H s <-. exact H. Qed.
Lemma mv_push r st (Q : unit -> list ref -> Prop) : Q tt (r :: st) -> mv (push r) st Q.
Proof. intros H s <-. exact H. Qed.
Lemma mv_pop r st (Q : unit -> list ref -> Prop) : Q tt st -> mv (pop r) (r :: st) Q.
Proof. intros H s E. unfold pop. rewrite E, N.eqb_refl. exact H. Qed.
Lemma mv_bal {X} (m : M X) st (Q : X -> list ref -> Prop) : balanced m -> (forall x, Q x st) -> mv m st Q.
Proof. intros B H s E. specialize (B st s E). destruct (m s) as [[x s1]| | | | |]; auto. now rewrite B. Qed.
Lemma mv_stuck {X} (m : M X) st (Q : X -> list ref -> Prop) :
  (forall s, match m s with Ret _ | Unbalanced => False | _ => True end) -> mv m st Q.
Proof. intros H s _. specialize (H s). destruct (m s); auto; contradiction. Qed.
Lemma mv_mono {X} (m : M X) st (Q R : X -> list ref -> Prop) : mv m st Q -> (forall x t, Q x t -> R x t) -> mv m st R.
Proof. intros H K s E. specialize (H s E). destruct (m s) as [[x s1]| | | | |]; auto. Qed.

Lemma bal_frame {X} (m : M X) :
  (forall s, match m s with Ret (_, s') => stack s' = stack s | Unbalanced => False | _ => True end) -> balanced m.
Proof. intros H st s <-. exact (H s). Qed.
Create HintDb bal discriminated.
Ltac frame := apply bal_frame; intros ?; cbv [set_fret set_quit write_out set_readably ret abort undef nofuel unmodelled dangling lift heap_op read need get_cell put_cell obind no_stack];
  repeat match goal with |- context [match ?m with _ => _ end] => lazymatch m with context [match _ with _ => _ end] => fail | _ => destruct m end end; try reflexivity; try exact I.
Lemma bal_lift {X} (o : outcome X) : balanced (lift o). Proof. frame. Qed.
Lemma bal_heap {X} (f : heap -> outcome X) : balanced (heap_op f). Proof. frame. Qed.
Lemma bal_read {X} (f : vm -> X) : balanced (read f). Proof. frame. Qed.
Lemma bal_need o : balanced (need o). Proof. destruct o; frame. Qed.
Lemma bal_get_cell r : balanced (get_cell r). Proof. frame. Qed.
Lemma bal_put_cell r c : balanced (put_cell r c). Proof. frame. Qed.
Lemma bal_set_fret o : balanced (set_fret o). Proof. frame. Qed.
Lemma bal_set_quit o : balanced (set_quit o). Proof. frame. Qed.
Lemma bal_write_out o : balanced (write_out o). Proof. frame. Qed.
Lemma bal_set_readably o : balanced (set_readably o). Proof. frame. Qed.
Lemma map_children_unb es : map_children es <> Unbalanced.
Proof. induction es as [|e es IH]; cbn; [discriminate|]. unfold single. destruct (evals e) as [|v [|]]; cbn; try discriminate. destruct (map_children es); cbn; congruence. Qed.
Lemma children_unb c : children c <> Unbalanced.
Proof.
  unfold children. destruct (cdata c); cbn; try discriminate. pose proof (map_children_unb (List.concat (buckets m))).
  destruct (map_children _); cbn; congruence.
Qed.
Lemma mark_unb fuel : forall h r, mark fuel h r <> Unbalanced.
Proof.
  induction fuel as [|f IH]; intros h r; cbn [mark]; [discriminate|]. destruct (lookup h r) as [c|]; [|discriminate].
  destruct (cmark c); [discriminate|]. pose proof (children_unb c). destruct (children c) as [l| | | | |]; cbn; try congruence. clear H.
  generalize (update h r (set_mark c true)). induction l as [|x l IHl]; intros h'; cbn [mark_each]; [discriminate|].
  specialize (IH h' x). destruct (mark f h' x); cbn [obind]; try congruence; apply IHl.
Qed.
Lemma gc_unb h st : gc h st <> Unbalanced.
Proof.
  unfold gc. assert (G : forall l h', mark_each (mark (S (List.length h))) h' l <> Unbalanced).
  { induction l as [|x l IHl]; intros h'; cbn [mark_each]; [discriminate|].
    pose proof (mark_unb (S (List.length h)) h' x). destruct (mark _ h' x); cbn [obind]; try congruence; try apply IHl. }
  specialize (G (rev st) h). destruct (mark_each _ h (rev st)); cbn; congruence.
Qed.
Lemma bal_maybe_gc : balanced maybe_gc.
Proof.
  apply bal_frame. intros s. unfold maybe_gc, do_gc. destruct (_ && _); [|reflexivity].
  pose proof (gc_unb (all s) (stack s)). destruct (gc (all s) (stack s)); cbn; auto.
Qed.
Lemma bal_fresh d : balanced (fresh d).
Proof. apply bal_frame. intros s. unfold fresh. destruct (_ =? _); [exact I|reflexivity]. Qed.
Lemma bal_ret {X} (x : X) : balanced (ret x). Proof. frame. Qed.
Lemma bal_abort {X} : balanced (@abort X). Proof. frame. Qed.
Lemma bal_undef {X} : balanced (@undef X). Proof. frame. Qed.
Lemma bal_nofuel {X} : balanced (@nofuel X). Proof. frame. Qed.
Lemma bal_unmodelled {X} : balanced (@unmodelled X). Proof. frame. Qed.
Lemma bal_bind {X Y} (m : M X) (k : X -> M Y) : balanced m -> (forall x, balanced (k x)) -> balanced (bind m k).
Proof. intros A B st. apply mv_bind, mv_bal; [exact A|]. intros x. apply B. Qed.
#[export] Hint Resolve bal_lift bal_heap bal_read bal_need bal_get_cell bal_put_cell bal_set_fret bal_set_quit bal_write_out bal_set_readably
  bal_maybe_gc bal_fresh bal_ret bal_abort bal_undef bal_nofuel bal_unmodelled : bal.

Ltac bal1 :=
  match goal with
  | |- balanced _ => intros ?st
  | |- mv (bind _ _) _ _ => apply mv_bind
  | |- mv (ret _) _ _ => apply mv_ret
  | |- mv (push _) _ _ => apply mv_push
  | |- mv (pop _) _ _ => apply mv_pop
  | |- mv (pops _) _ _ => unfold pops; cbn [iterM]
  | |- mv abort _ _ => apply mv_stuck; intros; exact I
  | |- mv undef _ _ => apply mv_stuck; intros; exact I
  | |- mv nofuel _ _ => apply mv_stuck; intros; exact I
  | |- mv unmodelled _ _ => apply mv_stuck; intros; exact I
  | |- mv (match ?x with _ => _ end) _ _ => destruct x
  | |- mv (let (_, _) := ?x in _) _ _ => destruct x
  | |- mv _ _ _ => apply mv_bal; [solve [auto with bal]|intros]
  | |- _ => try reflexivity
  end.
Ltac bal := repeat bal1.

Lemma bal_iterM {X} (f : X -> M unit) l : (forall x, balanced (f x)) -> balanced (iterM f l).
Proof. intros H. induction l as [|x t IH]; cbn [iterM]; [apply bal_ret|]. apply bal_bind; auto. Qed.
Lemma bal_mapM {X Y} (f : X -> M Y) l : (forall x, balanced (f x)) -> balanced (mapM f l).
Proof. intros H. induction l as [|x t IH]; cbn [mapM]; [apply bal_ret|]. apply bal_bind; auto. intros y. apply bal_bind; auto. intros; apply bal_ret. Qed.
#[export] Hint Resolve bal_iterM bal_mapM : bal.

Lemma bal_get r : balanced (get r). Proof. unfold get. bal. Qed.
#[export] Hint Resolve bal_get : bal.
Lemma bal_put r d : balanced (put r d). Proof. unfold put. bal. Qed.
Lemma bal_set_docs r d e : balanced (set_docs r d e). Proof. unfold set_docs. bal. Qed.
Lemma bal_alloc d : balanced (alloc d). Proof. unfold alloc. bal. Qed.
Lemma bal_new_error : balanced new_error.
Proof.
  unfold new_error. intros st. apply mv_bind, mv_bal; [apply bal_maybe_gc|]. intros _ s E. exact (bal_fresh _ _ s E).
Qed.
Lemma bal_annotate r : balanced (annotate r).
Proof.
  unfold annotate. intros st. apply mv_bind, mv_bal; [apply bal_get_cell|]. intros c.
  destruct (cdata c); try (apply mv_ret; reflexivity). intros s <-. unfold put_cell. cbn.
  destruct (lookup (all s) r); [reflexivity|exact I].
Qed.
Lemma bal_put_fresh r d : balanced (put_fresh r d).
Proof.
  unfold put_fresh. intros st. apply mv_bind, mv_bal; [apply bal_get_cell|]. intros c.
  intros s <-. unfold put_cell. cbn. destruct (lookup (all s) r); [reflexivity|exact I].
Qed.
#[export] Hint Resolve bal_put bal_set_docs bal_alloc bal_new_error bal_annotate bal_put_fresh : bal.
Lemma bal_is_error r : balanced (is_error r). Proof. unfold is_error. bal. Qed.
Lemma bal_get_at r a : balanced (get_at r a). Proof. unfold get_at. bal. Qed.
Lemma bal_vec_of r : balanced (vec_of r). Proof. unfold vec_of. bal. Qed.
#[export] Hint Resolve bal_is_error bal_get_at bal_vec_of : bal.
Lemma bal_arg a i : balanced (arg a i). Proof. unfold arg. bal. Qed.
Lemma bal_nargs a : balanced (nargs a). Proof. unfold nargs. bal. Qed.
Lemma bal_vec_push v x : balanced (vec_push v x). Proof. unfold vec_push. bal. Qed.
Lemma bal_sym_of r : balanced (sym_of r). Proof. unfold sym_of. bal. Qed.
Lemma bal_env_get e k : balanced (env_get e k). Proof. unfold env_get. bal. Qed.
Lemma bal_env_set e k v : balanced (env_set e k v). Proof. unfold env_set. bal. Qed.
Lemma bal_formal_name r : balanced (formal_name r). Proof. unfold formal_name. bal. Qed.
#[export] Hint Resolve bal_arg bal_nargs bal_vec_push bal_sym_of bal_env_get bal_env_set bal_formal_name : bal.
Lemma bal_bind_each e fs xs : balanced (bind_each e fs xs).
Proof. revert xs. induction fs as [|f fs IH]; intros [|x xs]; cbn [bind_each]; bal. Qed.
#[export] Hint Resolve bal_bind_each : bal.
Lemma bal_env_extend e f a : balanced (env_extend e f a). Proof. unfold env_extend. cbv zeta. bal. Qed.
#[export] Hint Resolve bal_env_extend : bal.

Lemma bal_hash_of r : balanced (hash_of r). Proof. unfold hash_of. bal. Qed.
Lemma bal_vmap_find f m h k : balanced (vmap_find f m h k). Proof. unfold vmap_find. bal. Qed.
#[export] Hint Resolve bal_hash_of bal_vmap_find : bal.
Lemma bal_vmap_put f m h k v : balanced (vmap_put f m h k v). Proof. unfold vmap_put. bal. Qed.
Lemma bal_vmap_remove f m h k : balanced (vmap_remove f m h k). Proof. unfold vmap_remove. bal. Qed.
Lemma bal_seq_push r x : balanced (seq_push r x). Proof. unfold seq_push. bal. Qed.
Lemma bal_map_of r : balanced (map_of r). Proof. unfold map_of. bal. Qed.
#[export] Hint Resolve bal_vmap_put bal_vmap_remove bal_seq_push bal_map_of : bal.
Lemma bal_copy f : forall r, balanced (copy f r).
Proof.
  induction f as [|f IH]; intros r; cbn [copy]; [apply bal_nofuel|].
  assert (A : forall x l, balanced (iterM (fun y => y' <- copy f y ;; seq_push x y') l)).
  { intros. apply bal_iterM. intros. apply bal_bind; auto with bal. }
  assert (B : forall x l, balanced (iterM (fun e : element ref ref =>
                       v <- lift (single e) ;;
                       k' <- copy f (ekey e) ;; push k' ;;;
                       v' <- copy f v ;; push v' ;;;
                       hk <- hash_of k' ;; m' <- map_of x ;; m2 <- vmap_put f m' hk k' v' ;;
                       put x (DMap m2) ;;; pop v' ;;; pop k') l)).
  { intros. apply bal_iterM. intros. bal. }
  bal.
Qed.
#[export] Hint Resolve bal_copy : bal.
Lemma bal_copy_atom f r : balanced (copy_atom f r). Proof. unfold copy_atom. bal. Qed.
Lemma bal_new_const d t : balanced (new_const d t). Proof. unfold new_const. bal. Qed.
#[export] Hint Resolve bal_copy_atom bal_new_const : bal.
Lemma bal_value_nil : balanced value_nil. Proof. unfold value_nil. bal. Qed.
Lemma bal_value_true : balanced value_true. Proof. unfold value_true. bal. Qed.
Lemma bal_value_false : balanced value_false. Proof. unfold value_false. bal. Qed.
#[export] Hint Resolve bal_value_nil bal_value_true bal_value_false : bal.
Lemma bal_set_seq f x l : balanced (set_seq f x l). Proof. unfold set_seq. apply bal_iterM. intros. bal. Qed.
Lemma bal_set_map f x y l : balanced (set_map f x y l). Proof. unfold set_map. apply bal_iterM. intros. bal. Qed.
#[export] Hint Resolve bal_set_seq bal_set_map : bal.
Lemma bal_value_set f x y : balanced (value_set f x y).
Proof. unfold value_set. bal. Qed.
Lemma bal_pad_nils n r : balanced (pad_nils n r). Proof. induction n; cbn [pad_nils]; bal. Qed.
#[export] Hint Resolve bal_value_set bal_pad_nils : bal.
Lemma bal_set_collection f x k v : balanced (set_collection f x k v). Proof. unfold set_collection. bal. Qed.
#[export] Hint Resolve bal_set_collection : bal.

(** ** Builtins *)
Definition balanced_ev (ev : evaluator) : Prop := forall v env, balanced (ev v env).
Lemma bal_ev ev v env : balanced_ev ev -> balanced (ev v env). Proof. auto. Qed.
#[export] Hint Resolve bal_ev : bal.
Lemma bal_doc_of x : balanced (doc_of x). Proof. unfold doc_of. bal. Qed.
Lemma bal_value_length x : balanced (value_length x). Proof. unfold value_length. bal. Qed.
#[export] Hint Resolve bal_doc_of bal_value_length : bal.
Lemma bal_integer_add f : forall x y, balanced (integer_add f x y).
Proof. induction f; intros; cbn [integer_add]; bal. Qed.
Lemma bal_real_add f : forall x y, balanced (real_add f x y).
Proof. induction f; intros; cbn [real_add]; bal. Qed.
Lemma bal_string_push f : forall x y, balanced (string_push f x y).
Proof. induction f; intros; cbn [string_push]; bal. Qed.
Lemma bal_hash_map_put f x k v : balanced (hash_map_put f x k v). Proof. unfold hash_map_put. bal. Qed.
#[export] Hint Resolve bal_integer_add bal_real_add bal_string_push bal_hash_map_put : bal.
Lemma bal_put_pairs f x : forall n l, (List.length l <= n)%nat -> balanced (put_pairs f x l).
Proof.
  induction n as [|n IH]; intros [|k [|v t]] L; cbn in L; try lia; cbn [put_pairs]; try apply bal_ret.
  apply bal_bind; [auto with bal|]. intros _. apply IH. lia.
Qed.
Lemma bal_put_pairs' f x l : balanced (put_pairs f x l). Proof. exact (bal_put_pairs f x _ l (le_n _)). Qed.
Lemma bal_put_elements f x l : balanced (put_elements f x l).
Proof. unfold put_elements. apply bal_iterM. intros. apply bal_iterM. intros. bal. Qed.
#[export] Hint Resolve bal_put_pairs' bal_put_elements : bal.
Lemma bal_hash_map_add f x y z : balanced (hash_map_add f x y z). Proof. unfold hash_map_add. bal. Qed.
Lemma bal_seq_push_atom f x y : balanced (seq_push_atom f x y). Proof. unfold seq_push_atom. bal. Qed.
#[export] Hint Resolve bal_hash_map_add bal_seq_push_atom : bal.
Lemma bal_incr_each l : forall x, balanced (incr_each l x). Proof. induction l; intros; cbn [incr_each]; bal. Qed.
Lemma bal_decr_each l : forall x, balanced (decr_each l x). Proof. induction l; intros; cbn [decr_each]; bal. Qed.
Lemma bal_div_each l : forall x, balanced (div_each l x). Proof. induction l; intros; cbn [div_each]; bal. Qed.
Lemma bal_arith_each o l : forall b z f, balanced (arith_each o l b z f). Proof. induction l; intros; cbn [arith_each]; bal. Qed.
Lemma bal_integer_sub f : forall x y, balanced (integer_sub f x y).
Proof. induction f; intros; cbn [integer_sub]; bal. Qed.
Lemma bal_real_sub f : forall x y, balanced (real_sub f x y).
Proof. induction f; intros; cbn [real_sub]; bal. Qed.
Lemma bal_best_each b : forall l x, balanced (best_each b x l). Proof. induction l; intros; cbn [best_each]; bal. Qed.
Lemma bal_cp_chars r l : balanced (cp_chars r l). Proof. induction l; cbn [cp_chars]; bal. Qed.
Lemma bal_cp_elements f x r : forall n i, balanced (cp_elements f x r n i). Proof. induction n; intros; cbn [cp_elements]; bal. Qed.
Lemma bal_map_at f m i w : balanced (map_at f m i w). Proof. unfold map_at. bal. Qed.
Lemma bal_new_ints l : balanced (new_ints l).
Proof.
  assert (A : forall r, balanced (iterM (fun i => k <- alloc (DInt (wrap32 (Z.of_nat i))) ;; vec_push r k) l)) by (intros; apply bal_iterM; intros; bal).
  unfold new_ints. bal.
Qed.
Lemma bal_find_elements f r k : forall l i, balanced (find_elements f r k i l). Proof. induction l; intros; cbn [find_elements]; bal. Qed.
#[export] Hint Resolve bal_integer_sub bal_real_sub bal_best_each bal_cp_chars bal_cp_elements bal_map_at bal_new_ints bal_find_elements : bal.
Lemma bal_find_from f x k : balanced (find_from f x k). Proof. unfold find_from, ints_or. bal. Qed.
Lemma bal_remove_where b x : forall n j, balanced (remove_where b x n j). Proof. induction n; intros; cbn [remove_where]; bal. Qed.
Lemma bal_remove_each_text f x l : balanced (remove_each_text f x l). Proof. induction l; cbn [remove_each_text]; bal. Qed.
Lemma bal_remove_keys f x l : balanced (remove_keys f x l). Proof. induction l; cbn [remove_keys]; bal. Qed.
#[export] Hint Resolve bal_find_from bal_remove_where bal_remove_each_text bal_remove_keys : bal.
Lemma bal_append_texts r l : balanced (append_texts r l). Proof. induction l; cbn [append_texts]; bal. Qed.
Lemma bal_remove_texts f x l : balanced (remove_texts f x l). Proof. induction l; cbn [remove_texts]; bal. Qed.
#[export] Hint Resolve bal_incr_each bal_decr_each bal_div_each bal_arith_each bal_append_texts bal_remove_texts : bal.
Lemma bal_plus_numerical a : balanced (plus_numerical a). Proof. unfold plus_numerical. bal. Qed.
Lemma bal_minus_numerical a : balanced (minus_numerical a). Proof. unfold minus_numerical. bal. Qed.
Lemma bal_code_shift t f : balanced (code_shift t f). Proof. unfold code_shift. bal. Qed.
#[export] Hint Resolve bal_code_shift : bal.
Lemma bal_character_add x y : balanced (character_add x y). Proof. unfold character_add. bal. Qed.
Lemma bal_character_sub x y : balanced (character_sub x y). Proof. unfold character_sub. bal. Qed.
Lemma bal_version_change b x y : balanced (version_change b x y). Proof. unfold version_change. bal. Qed.
#[export] Hint Resolve bal_character_add bal_character_sub bal_version_change : bal.
Lemma bal_version_changes b x l : balanced (iterM (fun y => version_change b x y ;;; ret tt) l).
Proof. apply bal_iterM. intros. bal. Qed.
Lemma bal_subtract_versions x l : balanced (subtract_versions x l). Proof. induction l; cbn [subtract_versions]; bal. Qed.
Lemma bal_change_versions b x l : balanced (change_versions b x l). Proof. induction l; cbn [change_versions]; bal. Qed.
Lemma bal_version_at v z : balanced (version_at v z). Proof. unfold version_at. bal. Qed.
Lemma bal_add_copies f x : forall n l, (List.length l <= n)%nat -> balanced (add_copies f x l).
Proof.
  induction n as [|n IH]; intros [|k [|v t]] L; cbn in L; try lia; cbn [add_copies]; try apply bal_ret.
  assert (IH' : balanced (add_copies f x t)) by (apply IH; lia). bal.
Qed.
Lemma bal_add_copies' f x l : balanced (add_copies f x l). Proof. exact (bal_add_copies f x _ l (le_n _)). Qed.
#[export] Hint Resolve bal_version_changes bal_subtract_versions bal_change_versions bal_version_at bal_add_copies' : bal.
Lemma bal_plus_text a : balanced (plus_text a). Proof. unfold plus_text. bal. Qed.
Lemma bal_version_arith b a : balanced (version_arith b a). Proof. unfold version_arith. bal. Qed.
Lemma bal_plus_map f a : balanced (plus_map f a). Proof. unfold plus_map. bal. Qed.
Lemma bal_plus_vector f a : balanced (plus_vector f a).
Proof.
  unfold plus_vector.
  assert (forall r l, balanced (iterM (fun y => y' <- copy f y ;; vec_push r y') l)) by (intros; apply bal_iterM; intros; bal).
  bal.
Qed.
Lemma bal_new_seq f d l : balanced (new_seq f d l). Proof. unfold new_seq. bal. Qed.
Lemma bal_copy_filtered fuel ev env src res p : balanced_ev ev -> forall f i, balanced (copy_filtered fuel f ev env src res p i).
Proof. intros H. induction f as [|f IH]; intros i; cbn [copy_filtered]; bal. Qed.
Lemma bal_copy_filtered_str ev env src p : balanced_ev ev -> forall f i acc, balanced (copy_filtered_str f ev env src p i acc).
Proof. intros H. induction f as [|f IH]; intros i acc; cbn [copy_filtered_str]; bal. Qed.
#[export] Hint Resolve bal_plus_numerical bal_minus_numerical bal_plus_text bal_version_arith bal_plus_map bal_plus_vector bal_new_seq bal_copy_filtered bal_copy_filtered_str : bal.

(** ** The reader *)
Definition popping (a : ref) {X} (m : M X) : Prop := forall st, mv m (a :: st) (fun _ st' => st' = st).
Lemma bal_read_text mk s l : balanced (read_text mk s l). Proof. unfold read_text. bal. Qed.
Lemma bal_read_error l : balanced (read_error l). Proof. unfold read_error. bal. Qed.
#[export] Hint Resolve bal_read_text bal_read_error : bal.
Lemma bal_read_token fuel : (forall t l, balanced (read_token fuel t l)) /\ (forall v l, popping v (read_list fuel v l)).
Proof.
  induction fuel as [|f (IHt & IHl)]; split; intros; [apply bal_nofuel|intros st; apply mv_stuck; intros; exact I| |].
  - cbn [read_token]. bal; apply IHl.
  - intros st. cbn [read_list]. bal; apply IHl.
Qed.
Lemma bal_read_value l : balanced (read_value l).
Proof. unfold read_value. apply bal_bind; [auto with bal|]. intros. apply bal_read_token. Qed.
Lemma bal_eval_read_by ev o : balanced_ev ev -> balanced (eval_read_by ev o).
Proof. intros EV. unfold eval_read_by. destruct o; bal. Qed.
Lemma bal_set_line r n : balanced (set_line r n). Proof. unfold set_line. bal. Qed.
#[export] Hint Resolve bal_read_value bal_eval_read_by bal_set_line : bal.
Definition with_last (last : option ref) (st : list ref) := match last with Some g => g :: st | None => st end.
Lemma mv_leave last r st : mv (leave last r) (with_last last st) (fun _ st' => st' = st).
Proof. unfold leave, with_last. bal. Qed.
Lemma bal_read_eval_loop_by ev : balanced_ev ev -> forall k i last r st, mv (read_eval_loop_by k ev i last r) (with_last last st) (fun _ st' => st' = st).
Proof.
  intros EV. induction k as [|k IH]; intros i last r st; cbn [read_eval_loop_by]; (destruct (input_good i); [|apply mv_leave]); [bal|].
  apply mv_bind, mv_bal; [auto with bal|]. intros q. cbv zeta. apply mv_bind, mv_bal; [auto with bal|]. intros [x|]; [|apply mv_leave].
  apply mv_bind. apply (mv_mono _ _ (fun _ st' => st' = st)); [destruct last; cbn; bal|]. intros _ t ->.
  bal; [apply (mv_leave (Some x))|apply (IH _ (Some x))].
Qed.
Lemma bal_read_eval_by ev i : balanced_ev ev -> balanced (read_eval_by ev i).
Proof. intros EV. unfold read_eval_by. destruct (input_good i); [|bal]. intros st. apply (bal_read_eval_loop_by ev EV _ _ None). Qed.
#[export] Hint Resolve bal_read_eval_by : bal.

Lemma bal_host_strings what a : balanced (b_host_strings what a).
Proof.
  unfold b_host_strings.
  assert (IT : forall v l, balanced (iterM (fun t => t <- lift (c_string_copy t) ;; y <- alloc (DStr t) ;; vec_push v y) l)) by (intros; apply bal_iterM; intros; bal).
  bal.
Qed.
Lemma bal_builtin_call fuel ev p a env : balanced_ev ev -> balanced (builtin_call fuel ev p a env).
Proof.
  intros EV.
  assert (A : forall r l, balanced (iterM (fun y => y' <- copy fuel y ;; vec_push r y') l)) by (intros; apply bal_iterM; intros; bal).
  assert (A2 : forall r l, balanced (iterM (fun y => y <- copy_atom fuel y ;; vec_push r y) l)) by (intros; apply bal_iterM; intros; bal).
  assert (A3 : forall r l, balanced (iterM (fun x => d <- doc_of x ;; vec_push r d) l)) by (intros; apply bal_iterM; intros; bal).
  assert (A4 : forall r l, balanced (iterM (fun x => n <- value_length x ;; v <- alloc (DInt (wrap32 n)) ;; vec_push r v) l)) by (intros; apply bal_iterM; intros; bal).
  assert (A5 : forall r x l, balanced (iterM (fun k => v <- find_from fuel x k ;; vec_push r v) l)) by (intros; apply bal_iterM; intros; bal).
  assert (A6 : forall r l, balanced (iterM (fun t => k <- alloc (DStr t) ;; vec_push r k) l)) by (intros; apply bal_iterM; intros; bal).
  assert (A7 : forall x l, balanced (iterM (fun y => q <- vec_of x ;; remove_where (fun h v => vequal fuel h y v) x (List.length q) 0) l)) by (intros; apply bal_iterM; intros; bal).
  assert (A8 : forall x l, balanced (iterM (fun y => q <- vec_of x ;; remove_where (fun _ v => Ret (y =? v)) x (List.length q) 0) l)) by (intros; apply bal_iterM; intros; bal).
  destruct p; cbn [builtin_call].
  - unfold b_set. bal.
  - unfold b_return. bal.
  - unfold b_not. bal.
  - unfold b_vector. bal.
  - unfold b_exit. bal.
  - unfold b_doc. bal.
  - unfold b_len. bal.
  - unfold b_uid. bal.
  - unfold b_plus_eq. bal.
  - unfold b_incr. bal.
  - unfold b_decr. bal.
  - unfold b_mod. bal.
  - unfold b_div. bal.
  - unfold b_times. bal.
  - unfold b_plus. bal.
  - unfold b_minus. bal.
  - unfold b_hash_map. bal.
  - unfold b_queue. bal.
  - unfold b_queue_max. bal.
  - unfold b_list. bal.
  - unfold b_copy. bal.
  - unfold b_env_new. bal.
  - unfold b_env_current. bal.
  - unfold b_env_global. bal.
  - unfold b_ln_at. bal.
  - unfold b_pop_back. bal.
  - unfold b_pop_front. bal.
  - unfold b_is. bal.
  - unfold b_max. bal.
  - unfold b_min. bal.
  - unfold b_starts_with. bal.
  - unfold b_to_real. bal.
  - unfold b_to_integer. bal.
  - unfold b_to_string. bal.
  - unfold b_distance. bal.
  - unfold b_character. bal.
  - unfold b_find. bal.
  - unfold b_split. bal.
  - unfold b_cp_at. bal.
  - unfold b_sqrt. bal.
  - unfold b_abort. bal.
  - unfold b_minus_eq. bal.
  - unfold b_minus_eq_eq. bal.
  - unfold b_string_format. bal.
  - unfold b_print. bal.
  - unfold b_println, b_print. bal.
  - unfold b_print_readably. bal.
  - unfold b_read_eval_string. bal.
  - unfold b_read_eval_path, read_file. bal.
  - apply bal_host_strings.
  - apply bal_host_strings.
  - bal.
Qed.
#[export] Hint Resolve bal_builtin_call : bal.

(** ** Special forms *)
Lemma bal_sym_is r t : balanced (sym_is r t). Proof. unfold sym_is. bal. Qed.
#[export] Hint Resolve bal_sym_is : bal.
Lemma bal_mentioned nm : forall n l, (List.length l <= n)%nat -> balanced (mentioned nm l).
Proof.
  induction n as [|n IH]; intros [|x l] L; cbn in L; try lia; cbn [mentioned]; try apply bal_ret.
  apply bal_bind; [auto with bal|]. intros d. destruct d; try apply bal_abort.
  destruct (text_eqb s nm).
  - bal.
  - destruct l as [|y l]; [apply bal_ret|]. apply IH. cbn in L. lia.
Qed.
Lemma bal_mentioned' nm l : balanced (mentioned nm l). Proof. exact (bal_mentioned nm _ l (le_n _)). Qed.
#[export] Hint Resolve bal_mentioned' : bal.
Lemma bal_all_mentioned x y : balanced (all_mentioned x y).
Proof.
  unfold all_mentioned.
  assert (forall dv fs, balanced (mapM (fun f => t <- formal_name f ;; mentioned t dv) fs)) by (intros; apply bal_mapM; intros; bal). bal.
Qed.
Lemma bal_append_docs doc : forall n l, (List.length l <= n)%nat -> balanced (append_docs doc l).
Proof.
  induction n as [|n IH]; intros [|x l] L; cbn in L; try lia; cbn [append_docs]; try apply bal_ret.
  assert (forall t, (List.length t <= n)%nat -> balanced (append_docs doc t)) by auto. clear IH.
  apply bal_bind; [auto with bal|]. intros d. destruct d; try apply bal_abort. destruct l as [|y l]; [apply bal_abort|].
  assert (balanced (append_docs doc l)) by (apply H; cbn in L; lia). bal.
Qed.
Lemma bal_append_docs' doc l : balanced (append_docs doc l). Proof. exact (bal_append_docs doc _ l (le_n _)). Qed.
#[export] Hint Resolve bal_all_mentioned bal_append_docs' : bal.
Lemma bal_define_var fuel ev k v a env : balanced_ev ev -> balanced (define_var fuel ev k v a env).
Proof. intros EV. unfold define_var. bal. Qed.
Lemma bal_define_var_in fuel ev k v a env : balanced_ev ev -> balanced (define_var_in fuel ev k v a env).
Proof. intros EV. unfold define_var_in. bal. Qed.
Lemma bal_define_fun ev k v a env : balanced_ev ev -> balanced (define_fun ev k v a env).
Proof. intros EV. unfold define_fun, finish_fun. bal. Qed.
Lemma bal_define_fun_in ev k v a env : balanced_ev ev -> balanced (define_fun_in ev k v a env).
Proof. intros EV. unfold define_fun_in, finish_fun. bal. Qed.
#[export] Hint Resolve bal_define_var bal_define_var_in bal_define_fun bal_define_fun_in : bal.
Lemma bal_s_define fuel ev a env : balanced_ev ev -> balanced (s_define fuel ev a env).
Proof. intros EV. unfold s_define. bal. Qed.
Lemma bal_apply_args ev a env v : balanced_ev ev -> forall k i, balanced (apply_args k ev a env v i).
Proof. intros EV. induction k; intros; cbn [apply_args]; bal. Qed.
#[export] Hint Resolve bal_s_define bal_apply_args : bal.
Lemma bal_s_apply ev a env n : balanced_ev ev -> balanced (s_apply ev a env n).
Proof. intros EV. unfold s_apply. bal. Qed.
Lemma bal_eval_twice ev x env : balanced_ev ev -> balanced (eval_twice ev x env).
Proof. intros EV. unfold eval_twice. bal. Qed.
#[export] Hint Resolve bal_s_apply bal_eval_twice : bal.
Lemma bal_s_eval ev a env : balanced_ev ev -> balanced (s_eval ev a env).
Proof. intros EV. unfold s_eval. bal. Qed.
Lemma bal_run_forms ev a env : balanced_ev ev -> forall k j, balanced (run_forms k ev a env j).
Proof. intros EV. induction k; intros; cbn [run_forms]; bal. Qed.
#[export] Hint Resolve bal_s_eval bal_run_forms : bal.
(** The loops that pop their arguments at the end. *)
Lemma pop_select ev a env : balanced_ev ev -> forall k i, popping a (select_loop k ev a env i).
Proof. intros EV. induction k as [|k IH]; intros i st; cbn [select_loop]; bal; apply IH. Qed.
Lemma pop_while ev a env n : balanced_ev ev -> forall f c, popping a (while_loop f ev a env n c).
Proof. intros EV. induction f as [|f IH]; intros c st; cbn [while_loop]; bal; apply IH. Qed.
Lemma bal_s_select ev a env : balanced_ev ev -> balanced (s_select ev a env).
Proof.
  intros EV st. unfold s_select. apply mv_bind, mv_bal; [auto with bal|]. intros n. destruct (_ || _); [bal|].
  apply mv_bind, mv_push, pop_select, EV.
Qed.
Lemma bal_s_if ev a env : balanced_ev ev -> balanced (s_if ev a env).
Proof. intros EV. unfold s_if. bal. Qed.
Lemma bal_s_while fuel ev a env : balanced_ev ev -> balanced (s_while fuel ev a env).
Proof.
  intros EV st. unfold s_while. apply mv_bind, mv_bal; [auto with bal|]. intros n. destruct (Nat.ltb _ _); [bal|].
  apply mv_bind, mv_push, pop_while, EV.
Qed.
Lemma bal_for_loop ev a ext k item n step j cnt : balanced_ev ev -> (forall i, balanced (item i)) ->
  forall f i c, balanced (for_loop f ev a ext k item i n step j cnt c).
Proof. intros EV IT. induction f; intros; cbn [for_loop]; bal. Qed.
Lemma bal_for_item f c ad i : balanced (for_item f c ad i). Proof. unfold for_item. bal. Qed.
Lemma bal_int_of r : balanced (int_of r). Proof. unfold int_of. bal. Qed.
#[export] Hint Resolve bal_for_loop bal_for_item bal_int_of : bal.
Lemma bal_from_item f c s i : balanced (from_item f c s i). Proof. unfold from_item. bal. Qed.
Lemma bal_for_step a i n : balanced (for_step a i n). Proof. unfold for_step. bal. Qed.
#[export] Hint Resolve bal_from_item bal_for_step : bal.
Lemma pop_for_in fuel ev a env k n : balanced_ev ev -> popping a (for_in fuel ev a env k n).
Proof. intros EV st. unfold for_in, step_fail, for_result. bal. Qed.
Lemma pop_for_from fuel ev a env k n : balanced_ev ev -> popping a (for_from fuel ev a env k n).
Proof. intros EV st. unfold for_from, step_fail, for_result. bal. Qed.
Lemma bal_s_for fuel ev a env : balanced_ev ev -> balanced (s_for fuel ev a env).
Proof.
  intros EV. unfold s_for. bal; [apply pop_for_in, EV|apply pop_for_from, EV].
Qed.
Lemma pop_equal_loop ev eq a env x : balanced_ev ev -> (forall u v, balanced (eq u v)) ->
  forall k i st, mv (equal_loop k ev eq a env x i) (x :: a :: st) (fun _ st' => st' = st).
Proof. intros EV EQ. induction k as [|k IH]; intros i st; cbn [equal_loop]; bal; apply IH. Qed.
Lemma bal_equal_with ev eq a env : balanced_ev ev -> (forall u v, balanced (eq u v)) -> balanced (equal_with ev eq a env).
Proof. intros EV EQ. unfold equal_with. bal. apply pop_equal_loop; auto. Qed.
Lemma pop_order_loop ev cmp a env x : balanced_ev ev ->
  forall k i st, mv (order_loop k ev cmp a env x i) (x :: a :: st) (fun _ st' => st' = st).
Proof. intros EV. induction k as [|k IH]; intros i st; cbn [order_loop]; unfold by_value; bal; apply IH. Qed.
Lemma bal_s_order ev cmp a env : balanced_ev ev -> balanced (s_order ev cmp a env).
Proof. intros EV. unfold s_order. bal. apply pop_order_loop; auto. Qed.
Lemma bal_formal_texts l : balanced (formal_texts l).
Proof. induction l; cbn [formal_texts]; bal. Qed.
#[export] Hint Resolve bal_equal_with bal_s_order bal_formal_texts : bal.
Lemma bal_valid_formals r : balanced (valid_formals r). Proof. unfold valid_formals. bal. Qed.
Lemma bal_body_forms a b : forall k i, balanced (body_forms k a b i). Proof. induction k; intros; cbn [body_forms]; bal. Qed.
#[export] Hint Resolve bal_valid_formals bal_body_forms : bal.
Lemma bal_s_fn mk a env : balanced (s_fn mk a env). Proof. unfold s_fn. bal. Qed.
Lemma bal_logic_loop ev stop a env : balanced_ev ev -> forall k i l, balanced (logic_loop k ev stop a env i l).
Proof. intros EV. induction k; intros; cbn [logic_loop]; bal. Qed.
Lemma bal_do_loop ev a env : balanced_ev ev -> forall k i l, balanced (do_loop k ev a env i l).
Proof. intros EV. induction k; intros; cbn [do_loop]; bal. Qed.
#[export] Hint Resolve bal_s_select bal_s_if bal_s_while bal_s_for bal_s_fn bal_logic_loop bal_do_loop : bal.
Lemma bal_s_equal fuel ev a env : balanced_ev ev -> balanced (s_equal fuel ev a env).
Proof. intros EV. unfold s_equal. apply bal_equal_with; auto. intros. apply bal_heap. Qed.
#[export] Hint Resolve bal_s_equal : bal.
Lemma bal_collect r x : balanced (collect r x). Proof. unfold collect. bal. Qed.
#[export] Hint Resolve bal_collect : bal.
Lemma bal_generate_same r x : forall k, balanced (generate_same k r x).
Proof. induction k; cbn [generate_same]; bal. Qed.
Lemma bal_generate_calls ev e g r : balanced_ev ev -> forall k i, balanced (generate_calls k ev e g r i).
Proof. intros EV. induction k; intros; cbn [generate_calls]; bal. Qed.
Lemma bal_mapped_vectors ev a e vs : balanced_ev ev -> forall k i c, balanced (mapped_vectors k ev a e vs i c).
Proof. intros EV. induction k; intros; cbn [mapped_vectors]; bal. Qed.
Lemma bal_push_elements f vs i : balanced (push_elements f vs i).
Proof. unfold push_elements. assert (forall l, balanced (iterM (fun v => x <- arg v i ;; vec_push f x) l)) by (intros; apply bal_iterM; intros; bal). bal. Qed.
#[export] Hint Resolve bal_generate_same bal_generate_calls bal_mapped_vectors bal_push_elements : bal.
Lemma bal_generate_mapped ev e f vs r : balanced_ev ev -> forall k i, balanced (generate_mapped k ev e f vs r i).
Proof. intros EV. induction k; intros; cbn [generate_mapped]; bal. Qed.
#[export] Hint Resolve bal_generate_mapped : bal.
Lemma bal_insert r x : balanced (insert r x). Proof. unfold insert. bal. Qed.
#[export] Hint Resolve bal_insert : bal.
Lemma bal_splice r x : balanced (splice r x). Proof. unfold splice. bal. Qed.
#[export] Hint Resolve bal_splice : bal.
Lemma bal_template_loop it : (forall i r, balanced (it i r)) -> forall k c i r, balanced (template_loop k it c i r).
Proof. intros K. induction k; intros; cbn [template_loop]; bal. Qed.
Lemma bal_template_item ev e : balanced_ev ev -> forall x v i r, balanced (template_item x ev e v i r).
Proof.
  intros EV. induction x as [|x IH]; intros; [apply bal_nofuel|].
  assert (IH' : forall v k c i r, balanced (template_loop k (template_item x ev e v) c i r)) by (intros; now apply bal_template_loop).
  clear IH. cbn [template_item]. bal.
Qed.
Lemma bal_template_items ev e f v k c i r : balanced_ev ev -> balanced (template_loop k (template_item f ev e v) c i r).
Proof. intros EV. apply bal_template_loop. intros. now apply bal_template_item. Qed.
#[export] Hint Resolve bal_template_items : bal.
Lemma bal_special_call fuel ev p a env : balanced_ev ev -> balanced (special_call fuel ev p a env).
Proof.
  intros EV. destruct p; cbn [special_call]; auto with bal.
  - unfold s_quote. bal.
  - unfold s_identical. apply bal_equal_with; auto. intros. unfold by_uid. bal.
  - unfold s_not_equal. bal.
  - unfold s_logic. bal.
  - unfold s_logic. bal.
  - unfold s_do. bal.
  - unfold s_generate, s_generate_of, s_generate_map. bal.
  - unfold s_template. bal.
Qed.
#[export] Hint Resolve bal_special_call : bal.

(** ** The evaluator *)
Lemma bal_form_at v a : balanced (form_at v a). Proof. unfold form_at. bal. Qed.
#[export] Hint Resolve bal_form_at : bal.
Lemma bal_raw_args a l : balanced (raw_args a l). Proof. induction l; cbn [raw_args]; bal. Qed.
Lemma bal_push_all a l : balanced (push_all a l). Proof. induction l; cbn [push_all]; bal. Qed.
Lemma bal_eval_args ev v addr env a : balanced_ev ev -> forall f i, balanced (eval_args f ev v addr env a i).
Proof. intros EV. induction f; intros; cbn [eval_args]; bal. Qed.
Lemma bal_builtin_of r : balanced (builtin_of r). Proof. unfold builtin_of. bal. Qed.
Lemma bal_func_at f a : balanced (func_at f a). Proof. unfold func_at. bal. Qed.
#[export] Hint Resolve bal_raw_args bal_push_all bal_eval_args bal_builtin_of bal_func_at : bal.
Lemma bal_run_body ev f addr ext : balanced_ev ev -> forall k i l, balanced (run_body k ev f addr ext i l).
Proof. intros EV. induction k; intros; cbn [run_body]; bal. Qed.
#[export] Hint Resolve bal_run_body : bal.
Lemma bal_call_special fuel ev v addr p env : balanced_ev ev -> balanced (call_special fuel ev v addr p env).
Proof. intros EV. unfold call_special. bal. Qed.
Lemma bal_call_builtin fuel ev v addr f env : balanced_ev ev -> balanced (call_builtin fuel ev v addr f env).
Proof. intros EV. unfold call_builtin. bal. Qed.
Lemma bal_call_function fuel ev v addr f env m w : balanced_ev ev -> balanced (call_function fuel ev v addr f env m w).
Proof. intros EV. unfold call_function. bal. Qed.
#[export] Hint Resolve bal_call_special bal_call_builtin bal_call_function : bal.
Lemma pop_eval_form fuel ev v l addr env w : balanced_ev ev ->
  forall st, mv (eval_form fuel ev v l addr env w) (env :: v :: st) (fun _ st' => st' = st).
Proof. intros EV st. unfold eval_form. bal. Qed.
Lemma bal_eval_impl fuel ev v env w : balanced_ev ev -> balanced (eval_impl fuel ev v env w).
Proof. intros EV. unfold eval_impl. bal. apply pop_eval_form, EV. Qed.
#[export] Hint Resolve bal_eval_impl : bal.
Lemma bal_eval_loop fuel ev env : balanced_ev ev -> forall f v w, balanced (eval_loop f fuel ev v env w).
Proof. intros EV. induction f; intros; cbn [eval_loop]; bal. Qed.
Lemma bal_eval fuel : balanced_ev (eval fuel).
Proof. induction fuel as [|f IH]; intros v env; cbn [eval]; [apply bal_nofuel|]. apply bal_eval_loop, IH. Qed.
#[export] Hint Resolve bal_eval : bal.

Lemma bal_read_eval fuel i : balanced (read_eval fuel i).
Proof. apply bal_read_eval_by, bal_eval. Qed.
