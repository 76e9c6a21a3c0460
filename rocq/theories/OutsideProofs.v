(** What programs see of the outside: no program changes it, and the two builtins
    that show it (SpecOutside.v). *)
From Coq Require Import NArith ZArith Bool Lia Arith String List.
From Verif Require Repl.
From Verif Require Import Base Utf8 OString OStringProofs Input HMap Heap SpecHeap GcProofs VmProofs ValueOps Env Copy ToText Builtins Specials Eval Read Boot Relate HistoryProofs SafeBase SafeRead SafeLib SafeBuiltins SafeSpecials SafeEval SpecText Utf8Proofs SpecTrace SpecSpecial SpecCall SpecDefine SpecBuiltin SpecOutside TraceProofs SpecialProofs SpecialEval CopyProofs DefineProofs BuiltinProofs BuiltinCases SearchProofs.
Import ListNotations.
Local Open Scope N_scope.

(** ** The outside stays *)
Definition on {X} (m _ : M X) : Prop := forall s x s', m s = Ret (x, s') -> outside s' = outside s.
Lemma on_bind X Y (m m' : M X) (k k' : X -> M Y) : on m m' -> (forall x, on (k x) (k' x)) -> on (bind m k) (bind m' k').
Proof. intros A B s y s' E. unfold bind in E. destruct (m s) as [[x s1]| | | | |] eqn:E1; try discriminate. cbn [obind] in E. rewrite (B _ _ _ _ E). now apply (A s x s1). Qed.
Lemma on_assoc X Y Z (m m' : M X) (f f' : X -> M Y) (k k' : Y -> M Z) : on (bind m (fun x => bind (f x) k)) (bind m' (fun x => bind (f' x) k')) -> on (bind (bind m f) k) (bind (bind m' f') k').
Proof. intros K s x s' E. rewrite bind_assoc in E. exact (K s x s' E). Qed.
Lemma on_heap X (f f' : heap -> outcome X) : on (heap_op f) (heap_op f').
Proof. intros s x s' E. unfold heap_op in E. destruct (f (all s)); try discriminate E. now injection E as _ <-. Qed.
Lemma on_lift X (o o' : outcome X) : on (lift o) (lift o').
Proof. intros s x s' E. unfold lift in E. destruct o; try discriminate E. now injection E as _ <-. Qed.
Lemma on_get_cell r : on (get_cell r) (get_cell r).
Proof. intros s x s' E. unfold get_cell in E. destruct (lookup (all s) r); try discriminate E. now injection E as _ <-. Qed.
Lemma on_cell X r (k k' : cell -> M X) : (forall c, True -> on (k c) (k' c)) -> on (bind (get_cell r) k) (bind (get_cell r) k').
Proof. intros A. apply on_bind; [apply on_get_cell|auto]. Qed.
Lemma on_put_cell r c : on (put_cell r c) (put_cell r c).
Proof. intros s x s' E. unfold put_cell in E. destruct (lookup (all s) r); [|discriminate]. now injection E as _ <-. Qed.
Lemma maybe_gc_outside s u s' : maybe_gc s = Ret (u, s') -> outside s' = outside s.
Proof.
  unfold maybe_gc, do_gc. destruct (_ && _); [|intros [= _ <-]; reflexivity].
  destruct (gc (all s) (stack s)) as [h| | | | |] eqn:G; try discriminate. now intros [= _ <-].
Qed.
Lemma fresh_outside d s r s' : fresh d s = Ret (r, s') -> outside s' = outside s.
Proof. unfold fresh. destruct (_ =? _); [discriminate|]. now intros [= _ <-]. Qed.
Lemma on_alloc d : on (alloc d) (alloc d).
Proof. apply on_bind; [intros s u s'; apply maybe_gc_outside|]. intros _ s r s'. apply fresh_outside. Qed.
Lemma on_new_error : on new_error new_error.
Proof. apply on_bind; [intros s u s'; apply maybe_gc_outside|]. intros _ s r s'. apply fresh_outside. Qed.
Lemma on_ret X (x : X) : on (ret x) (ret x). Proof. intros s y s' [= _ <-]. reflexivity. Qed.
Lemma on_annotate r : on (annotate r) (annotate r).
Proof.
  apply on_bind; [apply on_get_cell|]. intros c. destruct (cdata c); try apply on_ret.
  intros s0 x s0' E. unfold put_cell in E. cbn [all with_nextAddr] in E. destruct (lookup (all s0) r); [|discriminate]. now injection E as _ <-.
Qed.
Lemma on_put_fresh r d : on (put_fresh r d) (put_fresh r d).
Proof.
  apply on_bind; [apply on_get_cell|]. intros c s x s' E. unfold put_cell in E. cbn [all with_nextAddr] in E. destruct (lookup (all s) r); [|discriminate]. now injection E as _ <-.
Qed.
Lemma on_push r : on (push r) (push r). Proof. now intros s x s' [= _ <-]. Qed.
Lemma on_pop r : on (pop r) (pop r).
Proof. intros s x s' E. unfold pop in E. destruct (stack s); [discriminate|]. destruct (_ =? _); [|discriminate]. now injection E as _ <-. Qed.
Lemma on_read X (f : vm -> X) : on (read f) (read f). Proof. now intros s x s' [= _ <-]. Qed.
Lemma on_set_fret o : on (set_fret o) (set_fret o).
Proof. intros s x s' E. unfold set_fret in E. now injection E as _ <-. Qed.
Lemma on_set_readably o : on (set_readably o) (set_readably o). Proof. now intros s x s' [= _ <-]. Qed.
Lemma on_set_quit o : on (set_quit o) (set_quit o). Proof. now intros s x s' [= _ <-]. Qed.
Lemma on_write_out o : on (write_out o) (write_out o). Proof. now intros s x s' [= _ <-]. Qed.
Lemma on_nofuel X (m : M X) : on nofuel m. Proof. intros s x s' E. discriminate. Qed.
Lemma on_undef X : on (@undef X) undef. Proof. intros s x s' E. discriminate. Qed.
Lemma on_abort X : on (@abort X) abort. Proof. intros s x s' E. discriminate. Qed.
Theorem eval_outside n v e s x s' : eval n v e s = Ret (x, s') -> outside s' = outside s.
Proof.
  assert (K : on (eval n v e) (eval n v e)); [|apply K].
  apply (r_eval (@on) (fun _ => True) (fun _ => True)); try exact (le_n _); auto using closed_all, on_assoc, on_bind, on_cell, on_ret, on_nofuel, on_undef, on_abort, on_push, on_pop, on_put_cell, on_alloc, on_new_error, on_annotate, on_put_fresh, on_heap, on_lift, on_read, on_set_fret, on_set_quit, on_write_out, on_set_readably.
Qed.
Theorem read_eval_outside n i s x s' : read_eval n i s = Ret (x, s') -> outside s' = outside s.
Proof.
  assert (K : on (read_eval n i) (read_eval n i)); [|apply K].
  apply (r_read_eval (@on) (fun _ => True) (fun _ => True)); try exact (le_n _); auto using closed_all, on_assoc, on_bind, on_cell, on_ret, on_nofuel, on_undef, on_abort, on_push, on_pop, on_put_cell, on_alloc, on_new_error, on_annotate, on_put_fresh, on_heap, on_lift, on_read, on_set_fret, on_set_quit, on_write_out, on_set_readably.
Qed.

(** ** The arguments and the environment variables *)
Definition fresh_string (t : text) : M ref := bind (lift (c_string_copy t)) (fun t => alloc (DStr t)).
Lemma strings_fill v ts s : iterM (fun t => t <- lift (c_string_copy t) ;; y <- alloc (DStr t) ;; vec_push v y) ts s = iterM (fun t => w <- fresh_string t ;; vec_push v w) ts s.
Proof. apply iterM_ext. intros t s1. unfold fresh_string. now rewrite bind_assoc. Qed.
Lemma wp_stays {X} (m : M X) (Q : X -> vm -> Prop) s : wp m Q s -> on m m -> wp m (fun r s' => Q r s' /\ outside s' = outside s) s.
Proof. intros W K. unfold SafeBase.wp in *. destruct (m s) as [[x s']| | | | |] eqn:E; auto. apply K in E. auto. Qed.
Lemma host_reader p what : (forall n ev a env, builtin_call n ev p a env = b_host_strings what a) -> (forall s xs, only_reads s p xs) -> reader p (host_result what).
Proof.
  intros BC OR. apply reader_intro; [exact OR|]. intros n m a env xs s c A IE L E. rewrite BC. clear BC OR. unfold b_host_strings. pose proof (args_start a s A) as H.
  apply wp_bind. eapply args_vec; [exact L|exact E|exact H|]. unfold host_result. destruct xs as [|x xs]; [|eapply q_error; [exact H|auto]].
  apply wp_bind. eapply wp_mono; [apply (wp_stays (alloc (DVec [])) (fun r s1 => At true [a] s [] (eq r) s1 /\ makes s s1 r (DVec []) /\ ~ In r [a])); [eapply q_alloc; [exact H|intros y []|auto]|apply on_alloc]|].
  clear H. intros r s1 ((H & M & NP) & OU). apply wp_bind.
  eapply wp_mono; [apply (wp_stays (push r) (fun _ s2 => At true [a] s [r] (fun _ => False) s2 /\ all s2 = all s1)); [|apply on_push]|].
  { eapply q_push_all; [exact H|has|]. intros s2 H2 E2. split; [eapply at_weaken; [exact H2|easy]|exact E2]. }
  clear H. intros u s2 ((H & E2) & OU2). apply wp_bind, wp_read.
  assert (G : forall ts, wp (iterM (fun t => w <- fresh_string t ;; vec_push r w) ts ;;; pop r ;;; ret r)
    (fun r s' => exists ws, makes s s' r (DVec ws) /\ Forall2 (fun t w => exists t', through_c t t' /\ makes s s' w (DStr t')) ts ws) s2).
  { intros ts. eapply (build_tail vec_push DVec (fun l x => l ++ [x]) (fun l : list text => l)) with (xs := ts) (El := fun t w s' => exists t', through_c t t' /\ makes s s' w (DStr t')) (P := [a]); try assumption; try apply incl_refl; try reflexivity.
    - intros l x y J. apply in_app_or in J as [J|[->|[]]]; auto.
    - intros R done ws x w F K. apply Forall2_app; [exact F|]. constructor; [exact K|constructor].
    - intros r' l' x s' D'. now apply vec_push_is.
    - intros x s3 pre G _ H1. unfold fresh_string. apply wp_bind, wp_lift; [intros; apply nd_c_string_copy|]. intros t' T. apply c_string_through in T.
      eapply q_alloc; [exact H1|intros y []|]. intros w s' _ K1 K2 K3 _. split; [exact K1|]. split; [exists t'; auto|now right].
    - intros x w s3 s4 (t' & T & M1 & M2) EL. exists t'. split; [exact T|]. split; [exact M1|]. rewrite <- M2. unfold data_at. now rewrite EL.
    - destruct M as (M & _). split; auto.
    - destruct M as (_ & M). rewrite <- M. apply data_same. congruence. }
  rewrite <- OU, <- OU2. specialize (G (what (outside s2))). unfold SafeBase.wp, bind at 1 in G. unfold SafeBase.wp, bind at 1. rewrite strings_fill. exact G.
Qed.
Lemma arguments_reader : reader BiHostArguments (host_result o_arguments).
Proof. now apply host_reader. Qed.
Lemma variables_reader : reader BiHostVariables (host_result o_variables).
Proof. now apply host_reader. Qed.

(** ** Paths *)
Lemma path_right t p : str_get_c_string (text_str t) = Ret p -> path_of t (cstr (snd p)).
Proof.
  intros E F. assert (CO : coherent (text_str t)) by now left.
  destruct (get_c_string_scalar (text_str t) CO F) as (s' & G & _). rewrite G in E. injection E as <-. cbn [snd text_str ucs].
  assert (FB : Forall decodable (before_nul t)).
  { apply Forall_forall. intros c I. apply scalar_decodable; [|intros ->; now apply (before_nul_no t)].
    destruct (before_nul_split t) as (q & [(E1 & _)|E1]); rewrite E1 in F; [|apply Forall_app in F as (F & _)]; exact (proj1 (Forall_forall _ _) F c I). }
  destruct (before_nul_split t) as (q & [(E1 & _)|E1]).
  - rewrite E1 at 1. apply cstr_app_nul. now apply utf8_text_nonul.
  - rewrite E1 at 1. rewrite utf8_text_app, utf8_text_cons. change (utf8 0) with [0]. rewrite <- !app_assoc. cbn [app]. apply cstr_app_nul. now apply utf8_text_nonul.
Qed.
Lemma octets_text_says b u : octets_text b = Ret u -> octets_say b u.
Proof.
  unfold octets_text, str_from_buffer. intros E F.
  destruct (decode_loop_spec (List.length b) b 0 F (le_n _)) as (l & rest & HP & HD). rewrite HD in E. cbn in E. injection E as <-. now exists rest.
Qed.
Lemma arguments_given l s : given l s (Repl.add_arguments l s).
Proof.
  exists (map Repl.argument_text l). split; [|reflexivity]. induction l as [|a l IH]; [constructor|]. cbn [map]. constructor; [|exact IH]. intros F.
  destruct (decode_loop_spec (List.length a) a 0 F (le_n _)) as (u & rest & HP & HD). exists rest. unfold Repl.argument_text, str_from_buffer. rewrite HD. exact HP.
Qed.
