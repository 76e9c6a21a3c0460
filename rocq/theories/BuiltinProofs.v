(** The builtins that change nothing do what SpecBuiltin.v says. *)
From Coq Require Import NArith ZArith Bool Lia Arith List String Permutation.
From Coq Require Import ZifyBool ZifyNat ZifyN.
From Verif Require Import Base ListLemmas Vec OString HMap HMapProofs Heap SpecHeap GcProofs VmProofs ValueOps Env Copy Builtins Specials Eval Boot Semver SafeBase SafeRead SafeLib SafeBuiltins SafeSpecials SafeEval SpecTrace SpecSpecial SpecForm SpecCall SpecDefine SpecEval SpecBuiltin SpecSeq SpecVec VecProofs TraceProofs SpecialProofs SpecialEval CallProofs CopyProofs DefineProofs.
Import ListNotations.
Local Open Scope N_scope.
Local Open Scope list_scope.

Lemma reader_intro p R : (forall s xs, only_reads s p xs) ->
  (forall n m a env xs s c, Inv [a] s -> In env (stack s) -> lookup (all s) a = Some c -> cdata c = DVec xs ->
    wp (builtin_call n (Eval.eval m) p a env) (fun r s' => R s env xs s' r) s) -> reader p R.
Proof.
  intros O W n m a env xs s r s' AR E. destruct (arguments_inv _ _ _ _ AR) as (A & GE & IE & c & L & EC).
  pose proof (only_reads_quiet _ n p [a] a env s c xs (eval_safe true m) A (or_introl eq_refl) GE IE L EC (O s xs)) as K.
  apply (wp_ret_inv _ _ _ _ _) with (2 := E) in K. split; [eapply keeps_at; exact K|]. exact (wp_ret_inv _ _ _ _ _ (W n m a env xs s c A IE L EC) E).
Qed.

Section Quiet.
Context (P : list ref) (s0 : vm).
Implicit Types (pre : list ref) (G : ref -> Prop) (s : vm).
Lemma q_alloc d pre G (Q : ref -> vm -> Prop) s : At true P s0 pre G s -> (forall x, dref d x -> ~ In x P /\ reach s0 x) ->
  (forall r s', At true P s0 pre (eq r) s' -> At true P s [] (eq r) s' -> makes s0 s' r d -> nextId s <= r -> ~ In r P -> Q r s') -> wp (alloc d) Q s.
Proof.
  intros H ND K. pose proof (a_inv _ _ _ _ _ _ _ H) as A.
  apply (r_alloc true true P s d [] (fun _ => False)); [now apply at_start| |discriminate|].
  { intros x R. destruct (ND x R) as (N & RX). split; [exact N|]. right. right. right. eapply at_reach; [exact H|reflexivity|exact RX]. }
  intros r s' H' AL M. pose proof (a_next _ _ _ _ _ _ _ H) as NX. destruct (al_cell _ _ _ _ _ _ AL) as (ad & L). assert (M' : nextId s <= r) by (now apply M). apply K; auto.
  - eapply at_call; [exact H|exact H'|auto].
  - split; [lia|]. unfold data_at. rewrite L. reflexivity.
  - apply M.
Qed.
Lemma q_error pre G (Q : ref -> vm -> Prop) s : At true P s0 pre G s -> (forall r s', At true P s0 pre (eq r) s' -> complains s0 s' r -> Q r s') -> wp new_error Q s.
Proof.
  intros H K. unfold new_error. apply (r_alloc_gen true true P s0 (fun s => DErr (msgs s (nextAddr s)) 0) pre G); [exact H|easy|discriminate|].
  intros r s' s1 H' AL M. apply K; [exact H'|]. destruct (al_cell _ _ _ _ _ _ AL) as (ad & L). eexists. split; [split; [now apply M|]|]; [unfold data_at; rewrite L; reflexivity|exact I].
Qed.
Lemma q_push_all r pre G (Q : unit -> vm -> Prop) s : At true P s0 pre G s -> has true s0 pre G r ->
  (forall s', At true P s0 (r :: pre) G s' -> all s' = all s -> Q tt s') -> wp (push r) Q s.
Proof. intros H R K. eapply at_push; [exact H|exact R|]. intros s' A E _ _. auto. Qed.
Lemma q_data pre G s x : At true P s0 pre G s -> reach s0 x -> data_at s x = data_at s0 x.
Proof. intros H R. unfold data_at. rewrite (a_same _ _ _ _ _ _ _ H); auto. Qed.
Lemma q_const d t pre G (Q : ref -> vm -> Prop) s : At true P s0 pre G s -> (forall x, ~ dref d x) ->
  (forall r s', At true P s0 pre (eq r) s' -> At true P s [] (eq r) s' -> makes s0 s' r d -> nextId s <= r -> Q r s') -> wp (new_const d t) Q s.
Proof.
  intros H N K. pose proof (a_inv _ _ _ _ _ _ _ H) as A. pose proof (a_next _ _ _ _ _ _ _ H) as NX.
  assert (W : wp (new_const d t) (fun r s' => (At true P s [] (eq r) s' /\ data_at s' r = Some d) /\ nextId s <= r) s).
  { pose proof (const_data P d t s A N) as W. 
    assert (W2 : wp (new_const d t) (fun r s' => nextId s <= r) s).
    { unfold new_const. pose proof (at_start true true P s A) as H0. apply wp_bind, (r_alloc true true P s d [] _ _ _ H0); [intros x R; now apply N in R|discriminate|]. clear H0. intros x s1 H1 AL MX.
      assert (T : nextId s <= x) by (now apply MX). clear - T. unfold SafeBase.wp, bind, push, obind, alloc. cbn [fst snd].
      repeat match goal with |- match match ?e with _ => _ end with _ => _ end => destruct e as [[? ?]| | | | |]; cbn [fst snd]; auto end. }
    unfold SafeBase.wp in *. destruct (new_const d t s) as [[r s']| | | | |]; auto. }
  eapply wp_mono; [exact W|]. intros r s' ((B & E) & L). apply K; auto; [eapply at_call; [exact H|exact B|auto]|]. split; [lia|exact E].
Qed.
End Quiet.

Lemma forall2_impl {X Y} (R R' : X -> Y -> Prop) l l' : (forall x y, R x y -> R' x y) -> Forall2 R l l' -> Forall2 R' l l'.
Proof. intros K. induction 1; constructor; auto. Qed.
(** ** Comparing reads only what the two values reach *)
Section Local.
Context (h k : heap) (cmp cmp' : ref -> ref -> outcome Z).
Lemma seq_local x y : (forall p q, In p x -> In q y -> cmp' p q = cmp p q) -> compare_seq cmp' x y = compare_seq cmp x y.
Proof.
  revert y. induction x as [|p x IH]; intros y K; [reflexivity|]. destruct y as [|q y]; [reflexivity|]. cbn [compare_seq]. rewrite K by (now left).
  destruct (cmp p q); cbn; auto. destruct (_ =? 0)%Z; [|reflexivity]. apply IH. intros. apply K; now right.
Qed.
Lemma sized_local x y : (forall p q, In p x -> In q y -> cmp' p q = cmp p q) -> compare_sized cmp' x y = compare_sized cmp x y.
Proof. intros K. unfold compare_sized. now rewrite seq_local. Qed.
Lemma find_local x b : (forall e, In e b -> cmp' x (ekey e) = cmp x (ekey e)) -> find_o cmp' x b = find_o cmp x b.
Proof.
  induction b as [|e b IH]; intros K; [reflexivity|]. cbn [find_o]. rewrite K by (now left). destruct (cmp x (ekey e)); cbn; auto. destruct (_ =? 0)%Z; [reflexivity|].
  apply IH. intros. apply K. now right.
Qed.
Lemma find_in x b e : find_o cmp x b = Ret (Some e) -> In e b.
Proof.
  induction b as [|f b IH]; [discriminate|]. cbn [find_o]. destruct (cmp x (ekey f)) as [z| | | | |]; cbn; try discriminate. destruct (z =? 0)%Z; [intros [= <-]; now left|]. intros E. right. auto.
Qed.
Lemma single_in e v : single e = Ret v -> In v (evals e).
Proof. unfold single. destruct (evals e) as [|w [|]]; try discriminate. intros [= <-]. now left. Qed.
Lemma maps_local x y : (forall p q, dref (DMap x) p -> dref (DMap y) q -> cmp' p q = cmp p q) -> (forall p, dref (DMap x) p -> lookup k p = lookup h p) ->
  compare_maps cmp' k x y = compare_maps cmp h x y.
Proof.
  intros K LK. unfold compare_maps. destruct (Nat.eqb _ _); [|reflexivity].
  assert (IN : forall e, In e (List.concat (buckets x)) -> In e (List.concat (buckets x))) by auto. revert IN. generalize (List.concat (buckets x)) at 1 3 4. intros es.
  induction es as [|e es IH]; intros IN; [reflexivity|]. cbn [compare_elems].
  destruct (single e) as [v| | | | |] eqn:ES; cbn; auto.
  assert (DE : forall u, u = ekey e \/ In u (evals e) -> dref (DMap x) u) by (intros u J; exists e; split; [apply IN; now left|exact J]).
  assert (EF : map_find cmp' k y (ekey e) = map_find cmp h y (ekey e)).
  { unfold map_find, vhash. rewrite LK by auto. destruct (match lookup h (ekey e) with Some c => cell_hash c | None => Dangling end) as [hk| | | | |]; cbn; auto.
    apply find_local. intros f J. apply K; [auto|]. exists f. split; [|auto]. apply in_concat. 
    destruct (Nat.lt_ge_cases (bucket_index hk (List.length (buckets y))) (List.length (buckets y))) as [LT|GE]; [|rewrite nth_overflow in J by exact GE; contradiction].
    eexists. split; [apply nth_In; exact LT|exact J]. }
  rewrite EF. destruct (map_find cmp h y (ekey e)) as [[f|]| | | | |] eqn:EM; cbn; auto.
  destruct (single f) as [v'| | | | |] eqn:EV; cbn; auto.
  rewrite K; [|apply DE; right; now apply single_in|].
  - destruct (cmp v v'); cbn; auto. destruct (_ =? 0)%Z; [|reflexivity]. apply IH. intros. apply IN. now right.
  - exists f. split; [|right; now apply single_in]. unfold map_find in EM. destruct (vhash h (ekey e)) as [hk| | | | |]; try discriminate. cbn in EM. apply find_in in EM.
    destruct (Nat.lt_ge_cases (bucket_index hk (List.length (buckets y))) (List.length (buckets y))) as [LT|GE]; [|rewrite nth_overflow in EM by exact GE; contradiction].
    apply in_concat. eexists. split; [apply nth_In; exact LT|exact EM].
Qed.
Lemma bindings_local x y : (forall p q, (exists t n, In (t, (n, p)) x) -> (exists t n, In (t, (n, q)) y) -> cmp' p q = cmp p q) -> compare_bindings cmp' x y = compare_bindings cmp x y.
Proof.
  induction x as [|(t & n & v) x IH]; intros K; [reflexivity|]. cbn [compare_bindings]. destruct (find_binding t y) as [(n' & v')|] eqn:EF; [|reflexivity].
  rewrite K.
  - destruct (cmp v v'); cbn; auto. destruct (_ =? 0)%Z; [|reflexivity]. apply IH. intros p q (t1 & n1 & J) Q. apply K; [|exact Q]. exists t1, n1. now right.
  - exists t, n. now left.
  - unfold find_binding in EF. match type of EF with option_map _ ?F = _ => destruct F as [(t' & w)|] eqn:EG; [|discriminate] end. apply find_some in EG as (J & _). cbn in EF. injection EF as ->. exists t', n'. exact J.
Qed.
Lemma funs_local f g : (forall p q, dref (DFun f) p -> dref (DFun g) q -> cmp' p q = cmp p q) -> compare_funs cmp' f g = compare_funs cmp f g.
Proof. intros K. unfold compare_funs. rewrite !K; cbn; auto. Qed.
End Local.
Lemma vcompare_local h k n : forall a b, kept h k a -> kept h k b -> vcompare n k a b = vcompare n h a b.
Proof.
  induction n as [|n IH]; intros a b KA KB; [reflexivity|]. cbn [vcompare]. destruct (a =? b); [reflexivity|].
  rewrite (KA a), (KB b) by (apply re_root; now left). destruct (lookup h a) as [ca|] eqn:LA; [|reflexivity]. destruct (lookup h b) as [cb|] eqn:LB; [|reflexivity].
  assert (RA : forall x, dref (cdata ca) x -> kept h k x) by (intros x R; eapply kept_child; [exact KA|exact LA|apply refers_iff; now right]).
  assert (RB : forall x, dref (cdata cb) x -> kept h k x) by (intros x R; eapply kept_child; [exact KB|exact LB|apply refers_iff; now right]).
  destruct (cdata ca) eqn:EA; try reflexivity; destruct (cdata cb) eqn:EB; try reflexivity.
  - apply sized_local. intros p q J J'. apply IH; auto.
  - apply maps_local; [|intros p J]. intros p q J J'. apply IH; auto. apply (RA p J). apply re_root. now left.
  - apply sized_local. intros p q J J'. apply IH; auto.
  - apply sized_local. intros p q J J'. apply IH; auto.
  - unfold compare_envs. destruct (Nat.eqb _ _); [|reflexivity]. apply bindings_local. intros p q (t & m & J) (t' & m' & J'). apply IH; [apply RA|apply RB]; left; eauto 8.
  - apply funs_local. intros p q J J'. apply IH; auto.
  - apply funs_local. intros p q J J'. apply IH; auto.
Qed.

(** ** A collection made element by element *)
Section Build.
Context {X : Type}.
Context (op : ref -> ref -> M unit) (mk : list ref -> data) (step : list ref -> ref -> list ref).
Context (keep : list X -> list X).
Context (MK : forall l y, dref (mk l) y <-> In y l).
Context (STEP : forall l x y, In y (step l x) -> In y l \/ y = x).
Context (KEEP : forall (R : X -> ref -> Prop) done ws x w, Forall2 R (keep done) ws -> R x w -> Forall2 R (keep (done ++ [x])) (step ws w)).
Context (OP : forall r l x s, data_at s r = Some (mk l) -> op r x s = put r (mk (step l x)) s).
Context (P : list ref) (s0 : vm) (elem : X -> M ref) (El : X -> ref -> vm -> Prop) (xs : list X).
Context (EL : forall y s pre G, In y xs -> At true P s0 pre G s ->
  wp (elem y) (fun w s' => At true P s [] (eq w) s' /\ El y w s' /\ (w < nextId s0 \/ nextId s <= w)) s).
Context (ST : forall y w s s', El y w s -> lookup (all s') w = lookup (all s) w -> El y w s').

Lemma build_loop r : mine true P s0 r -> forall l done ws s, incl l xs -> At true P s0 [r] (fun _ => False) s -> data_at s r = Some (mk ws) ->
  Forall2 (fun y w => El y w s /\ w <> r) (keep done) ws ->
  wp (iterM (fun y => w <- elem y ;; op r w) l) (fun _ s' => exists ws', At true P s0 [r] (fun _ => False) s' /\ data_at s' r = Some (mk ws') /\
    Forall2 (fun y w => El y w s' /\ w <> r) (keep (done ++ l)) ws') s.
Proof.
  intros MR. induction l as [|y l IH]; intros done ws s IL H DR F; cbn [iterM].
  - apply wp_ret. exists ws. rewrite app_nil_r. auto.
  - apply wp_bind, wp_bind. eapply wp_mono; [eapply EL; [apply IL; now left|exact H]|]. intros w s1 (A1 & E1 & N1).
    assert (RL : r < nextId s) by (eapply (at_lt true); [exact H|has]).
    assert (NR : w <> r) by (destruct N1 as [N1|N1]; [pose proof (proj2 MR eq_refl); lia|lia]).
    assert (H1 : At true P s0 [r] (eq w) s1) by (eapply (at_call true); [exact H|exact A1|auto]).
    assert (RR : reach s r) by (apply re_root; rewrite (a_stack _ _ _ _ _ _ _ H); now left).
    assert (DR1 : data_at s1 r = Some (mk ws)) by (rewrite <- DR; eapply q_data; [exact A1|exact RR]).
    assert (CR : exists c, lookup (all s) r = Some c /\ cdata c = mk ws).
    { unfold data_at in DR. destruct (lookup (all s) r) as [c|]; [|discriminate]. exists c. split; [reflexivity|]. now injection DR. }
    destruct CR as (cr & LR & ER).
    assert (F1 : Forall2 (fun y w => El y w s1 /\ w <> r) (keep done) ws).
    { assert (FW : forall z, In z ws -> lookup (all s1) z = lookup (all s) z).
      { intros z J. apply (a_same _ _ _ _ _ _ _ A1). right. split; [reflexivity|]. eapply re_step; [exact RR|exact LR|]. apply refers_iff. right. rewrite ER. now apply MK. }
      clear - F FW ST. revert F FW. generalize (keep done) as ks. intros ks F. induction F as [|k z ks ws (Ek & Nk) F IH]; intros FW; constructor.
      - split; [|exact Nk]. eapply ST; [exact Ek|]. apply FW. now left.
      - apply IH. intros q J. apply FW. now right. }
    assert (W : wp (put r (mk (step ws w))) (fun _ s' => At true P s0 [r] (eq w) s' /\ (exists c, lookup (all s') r = Some c /\ cdata c = mk (step ws w)) /\ (forall x, x <> r -> lookup (all s') x = lookup (all s1) x)) s1).
    { apply (r_put true true P s0 r _ [r] _ _ _ H1); [has|exact MR| |discriminate|discriminate|auto].
      intros q J. apply MK, STEP in J as [J| ->]; [|now apply (a_good _ _ _ _ _ _ _ H1)].
      assert (LR1 : lookup (all s1) r = Some cr) by (rewrite (a_same _ _ _ _ _ _ _ A1); auto). eapply at_dref; [exact H1|exact LR1|]. rewrite ER. now apply MK. }
    unfold SafeBase.wp at 1. rewrite (OP r ws w s1 DR1). eapply wp_mono; [exact W|]. clear W. intros u s2 (H2 & (c2 & L2 & E2) & O2).
    eapply wp_mono; [apply (IH (done ++ [y]) (step ws w) s2)|].
    + intros z J. apply IL. now right.
    + eapply at_weaken; [exact H2|easy].
    + unfold data_at. rewrite L2. cbn. now rewrite E2.
    + apply KEEP; [|split; [eapply ST; [exact E1|now apply O2]|exact NR]].
      eapply forall2_impl; [|exact F1]. intros k z (Ek & Nk). split; [|exact Nk]. eapply ST; [exact Ek|now apply O2].
    + intros u' s3 (ws' & K). exists ws'. rewrite <- app_assoc in K. exact K.
Qed.
Lemma build_tail r l s : keep [] = [] -> incl l xs -> mine true P s0 r -> At true P s0 [r] (fun _ => False) s -> data_at s r = Some (mk []) ->
  wp (iterM (fun y => w <- elem y ;; op r w) l ;;; pop r ;;; ret r) (fun r s' => exists ws, makes s0 s' r (mk ws) /\ Forall2 (fun y w => El y w s') (keep l) ws) s.
Proof.
  intros K0 IL MR H DR. apply wp_bind. eapply wp_mono; [apply (build_loop r MR l [] [] s IL H DR)|].
  - rewrite K0. constructor.
  - intros u s1 (ws & H1 & D1 & F). apply wp_bind. eapply at_pop; [exact H1|]. intros s2 H2 E2. apply wp_ret. exists ws. cbn [app] in F. split.
    + split; [now apply MR|]. rewrite <- D1. apply data_same. congruence.
    + eapply forall2_impl; [|exact F]. intros y w (XE & _). eapply ST; [exact XE|]. congruence.
Qed.
End Build.

(** ** The builtins *)
Ltac vec_arg := apply wp_bind, wp_vec_of; [discriminate|]; let c' := fresh in let l' := fresh in let L' := fresh in let E' := fresh in intros c' l' L' E';
  match goal with L : lookup (all ?s) ?a = Some _, E : cdata _ = DVec _ |- _ => rewrite L in L'; injection L' as <-; rewrite E in E'; injection E' as <- end.

Section Args.
Context (a : ref) (s : vm) (c : cell) (xs : list ref) (A : Inv [a] s) (L : lookup (all s) a = Some c) (E : cdata c = DVec xs).
Lemma args_reach x : In x xs -> reach s x.
Proof. intros J. eapply re_step; [apply re_root; apply (i_priv _ _ _ A); now left|exact L|]. apply refers_iff. right. now rewrite E. Qed.
Lemma args_good x pre G s' : At true [a] s pre G s' -> In x xs -> good [a] s' x.
Proof. intros H J. eapply (arg_good true [a] a s c xs); eauto. now left. Qed.
Lemma args_lt x : In x xs -> x < nextId s.
Proof. intros J. eapply (reach_lt true); [exact A|now apply args_reach]. Qed.
Lemma args_start : At true [a] s [] (fun _ => False) s.
Proof. now apply at_start. Qed.
Lemma args_vec pre G (Q : list ref -> vm -> Prop) s' : At true [a] s pre G s' -> Q xs s' -> wp (vec_of a) Q s'.
Proof.
  intros H K. apply wp_vec_of; [discriminate|]. intros c' l' L' E'. rewrite (a_same _ _ _ _ _ _ _ H) in L' by (left; now left).
  rewrite L in L'. injection L' as <-. rewrite E in E'. now injection E' as <-.
Qed.
Lemma args_get x pre G (Q : data -> vm -> Prop) s' : At true [a] s pre G s' -> In x xs -> (forall d, data_at s x = Some d -> Q d s') -> wp (get x) Q s'.
Proof. intros H J K. apply t_get. intros d D. apply K. rewrite <- D. symmetry. eapply q_data; [exact H|now apply args_reach]. Qed.
End Args.

Lemma not_reader : reader BiNot not_result.
Proof.
  apply reader_intro; [easy|]. intros n m a env xs s c A IE L E. cbn [builtin_call]. unfold b_not. pose proof (args_start a s A) as H.
  apply wp_bind. unfold nargs. apply wp_bind. eapply args_vec; [exact L|exact E|exact H|]. apply wp_ret. unfold not_result.
  destruct xs as [|x [|y xs]]; cbn [List.length Nat.eqb negb]; try (eapply q_error; [exact H|auto]).
  apply wp_bind. eapply q_push_all; [exact H|right; right; left; apply (i_priv _ _ _ A); now left|]. clear H. intros s1 H _.
  apply wp_bind. unfold arg. apply wp_bind. eapply args_vec; [exact L|exact E|exact H|]. apply wp_need. cbn. intros ? [= <-].
  apply wp_bind. eapply args_get; [exact A|exact L|exact E|exact H|now left|]. intros d D. apply wp_bind. eapply at_pop; [exact H|]. clear H. intros s2 H _.
  destruct d; try (eapply q_error; [exact H|]; intros r s' _ C; eexists; split; [exact D|exact C]).
  eapply q_alloc; [exact H|easy|]. intros r s' _ _ M _ _. eexists. split; [exact D|exact M].
Qed.
Lemma is_reader tags K : (forall d, existsb (Z.eqb (tag d)) tags = true <-> K d) -> reader (BiIs tags) (is_result K).
Proof.
  intros TK. apply reader_intro; [easy|]. intros n m a env xs s c A IE L E. cbn [builtin_call]. unfold b_is. pose proof (args_start a s A) as H.
  apply wp_bind. eapply args_vec; [exact L|exact E|exact H|]. unfold is_result.
  destruct xs as [|x [|y xs]]; try (eapply q_error; [exact H|auto]).
  apply wp_bind. eapply args_get; [exact A|exact L|exact E|exact H|now left|]. intros d D.
  eapply q_alloc; [exact H|easy|]. intros r s' _ _ M _ _. exists d. eexists. split; [exact D|]. split; [exact M|]. apply TK.
Qed.
Lemma env_new_reader : reader BiEnvNew env_new_result.
Proof.
  apply reader_intro; [easy|]. intros n m a env xs s c A IE L E. cbn [builtin_call]. unfold b_env_new. pose proof (args_start a s A) as H.
  apply wp_bind. eapply args_vec; [exact L|exact E|exact H|]. unfold env_new_result.
  destruct xs as [|x [|y xs]]; try (eapply q_error; [exact H|auto]).
  - eapply q_alloc; [exact H|intros x [(? & ? & ? & [] & _)|F]; discriminate|auto].
  - apply wp_bind. eapply args_get; [exact A|exact L|exact E|exact H|now left|]. intros d D.
    destruct d; try (eapply q_error; [exact H|]; intros r s' _ C; eexists; split; [exact D|exact C]).
    eapply q_alloc; [exact H| |].
    + intros y [(? & ? & ? & [] & _)|[= <-]]. split; [|eapply args_reach; [exact A|exact L|exact E|now left]]. eapply args_good; [exact L|exact E|exact H|now left].
    + intros r s' _ _ M _ _. eexists. split; [exact D|exact M].
Qed.
Lemma env_current_reader : reader BiEnvCurrent env_current_result.
Proof.
  apply reader_intro; [easy|]. intros n m a env xs s c A IE L E. cbn [builtin_call]. unfold b_env_current. pose proof (args_start a s A) as H.
  apply wp_bind. eapply args_vec; [exact L|exact E|exact H|]. unfold env_current_result.
  destruct xs; [now apply wp_ret|]. eapply q_error; [exact H|auto].
Qed.
Lemma env_global_reader : reader BiEnvGlobal env_global_result.
Proof.
  apply reader_intro; [easy|]. intros n m a env xs s c A IE L E. cbn [builtin_call]. unfold b_env_global. pose proof (args_start a s A) as H.
  apply wp_bind. eapply args_vec; [exact L|exact E|exact H|]. unfold env_global_result.
  destruct xs; [now apply wp_read|]. eapply q_error; [exact H|auto].
Qed.
Lemma uid_reader : reader BiUid uid_result.
Proof.
  apply reader_intro; [easy|]. intros n m a env xs s c A IE L E. cbn [builtin_call]. unfold b_uid. pose proof (args_start a s A) as H.
  apply wp_bind. eapply q_push_all; [exact H|right; right; left; apply (i_priv _ _ _ A); now left|]. clear H. intros s1 H _.
  apply wp_bind. eapply q_push_all; [exact H|right; right; left; exact IE|]. clear H. intros s2 H _.
  apply wp_bind. eapply args_vec; [exact L|exact E|exact H|]. unfold uid_result.
  assert (ER : wp (pop env ;;; pop a ;;; new_error) (fun r s' => complains s s' r) s2).
  { apply wp_bind. eapply at_pop; [exact H|]. clear H. intros s3 H _. apply wp_bind. eapply at_pop; [exact H|]. clear H. intros s4 H _. eapply q_error; [exact H|auto]. }
  destruct xs as [|x [|y xs]]; try exact ER. clear ER. destruct (INT32_MAX <? Z.of_N x)%Z; [apply wp_abort|].
  apply wp_bind. eapply q_alloc; [exact H|easy|]. clear H. intros r s3 H _ M _ _.
  apply wp_bind. eapply at_pop; [exact H|]. clear H. intros s4 H E4. apply wp_bind. eapply at_pop; [exact H|]. clear H. intros s5 H E5. apply wp_ret.
  destruct M as (M1 & M2). split; [exact M1|]. now rewrite (data_same s3) by congruence.
Qed.
Lemma at_index_norm l z : fits z -> (Z.of_nat (List.length l) < 2 ^ 63)%Z ->
  match norm_index (List.length l) z with Some k => nth_error l k | None => None end = at_index l z.
Proof. intros F B. unfold at_index. rewrite norm_index_position; [reflexivity|exact B|]. unfold fits in F. unfold ptrdiff_ok. lia. Qed.
Lemma find_all_differ {cmp : ref -> ref -> outcome Z} k b : find_o cmp k b = Ret None -> forall e, In e b -> exists z, cmp k (ekey e) = Ret z /\ z <> 0%Z.
Proof.
  induction b as [|x b IH]; cbn [find_o]; [intros _ e []|]. destruct (cmp k (ekey x)) as [z| | | | |] eqn:EC; cbn; try discriminate.
  destruct (Z.eqb_spec z 0); [discriminate|]. intros H e [<-|J]; eauto.
Qed.
Lemma find_equal {cmp : ref -> ref -> outcome Z} k b e : find_o cmp k b = Ret (Some e) -> In e b /\ cmp k (ekey e) = Ret 0%Z.
Proof.
  induction b as [|x b IH]; cbn [find_o]; [discriminate|]. destruct (cmp k (ekey x)) as [z| | | | |] eqn:EC; cbn; try discriminate.
  destruct (Z.eqb_spec z 0) as [->|N]; [intros [= <-]; split; [now left|exact EC]|]. intros H. destruct (IH H). split; [now right|assumption].
Qed.
Lemma nth_error_rev2 {Y} (l : list Y) k : (k < List.length l)%nat -> nth_error (rev l) k = nth_error l (List.length l - S k).
Proof.
  revert k. induction l as [|x l IH] using rev_ind; intros k Hk; [cbn in Hk; lia|]. rewrite rev_app_distr, app_length in *. cbn [rev app List.length] in *. destruct k as [|k].
  - rewrite nth_error_app2 by lia. now replace (List.length l + 1 - 1 - List.length l)%nat with 0%nat by lia.
  - cbn [nth_error]. rewrite IH by lia. rewrite nth_error_app1 by lia. f_equal. lia.
Qed.
Lemma list_at_index l z : list_at l z = at_index l z.
Proof.
  unfold list_at, at_index, position. destruct (Z.ltb_spec z 0) as [N|N].
  - destruct (Z.leb_spec 0 z); [lia|]. cbn [andb]. destruct (Z.leb_spec (- Z.of_nat (List.length l)) z) as [B|B]; cbn [andb].
    + destruct (Z.ltb_spec z 0); [|lia]. rewrite nth_error_rev2 by lia. f_equal. lia.
    + apply nth_error_None. rewrite rev_length. lia.
  - destruct (Z.leb_spec 0 z); [|lia]. cbn [andb]. destruct (Z.ltb_spec z (Z.of_nat (List.length l))) as [B|B]; [reflexivity|].
    destruct (Z.ltb_spec z 0); [lia|]. rewrite andb_false_r. apply nth_error_None. lia.
Qed.
Lemma index_entry (m : hmap ref ref) z : indexed m z (map_get_at_index m z).
Proof.
  unfold indexed, map_get_at_index. destruct (Z.leb_spec 0 z) as [B|B].
  - destruct (Z.ltb_spec z 0); [lia|]. rewrite at_index_ok by lia. now rewrite Nat.sub_0_r.
  - destruct (Z.ltb_spec z 0); [|lia]. rewrite at_index_back_ok by lia. rewrite Nat.sub_0_r. pose proof (back_list_perm (buckets m)) as P.
    destruct (nth_error (back_list (rev (buckets m))) (Z.to_nat (- (z + 1)))) as [q|] eqn:EN.
    + apply nth_error_In in EN. eapply Permutation_in; eauto.
    + apply nth_error_None in EN. rewrite (Permutation_length P) in EN. lia.
Qed.
Lemma map_at_value n m i w s1 s (Q : option ref -> vm -> Prop) : data_at s1 i = data_at s i -> data_at s1 w = data_at s w -> all s1 = all s -> 
  (forall o, map_value s m i w o -> Q o s1) -> wp (map_at n m i w) Q s1.
Proof.
  intros EI EW EA K. unfold map_at. apply wp_bind, t_get. intros d D. rewrite EW in D. 
  assert (NW : forall d, data_at s w = Some d -> (forall t, d <> DSym t) -> wp (ret None) Q s1) by (intros d0 D0 N; apply wp_ret, K; eapply mv_word; eauto).
  destruct d as [ |db|dz|df|dt|dt|dt|dmsg dline|l|mm|l max|l|db denc|df|df|dp|dp|dv]; try (eapply NW; [exact D|discriminate]). clear NW.
  destruct (text_eqb dt (asc "index")) eqn:E1.
  - apply text_eqb_true in E1. subst dt. apply wp_bind, t_get. intros e DE. rewrite EI in DE. destruct e as [ |db|dz|df|dt|dt|dt|dmsg dline|l|mm|l max|l|db denc|df|df|dp|dp|dv]; try (apply wp_ret, K; eapply mv_not_int; [exact D|exact DE|discriminate]).
    pose proof (index_entry m dz) as IE. destruct (map_get_at_index m dz) as [q|]; [|apply wp_ret, K; eapply mv_no_index; eauto].
    apply wp_bind, wp_lift; [now destruct q as [? ? [|? [|]]]|]. intros v EV. apply wp_ret, K. eapply mv_index; eauto. unfold single in EV. destruct (evals q) as [|? [|]]; congruence.
  - destruct (text_eqb dt (asc "hash")) eqn:E2.
    + apply text_eqb_true in E2. subst dt. apply wp_bind. unfold hash_of. apply wp_heap; [discriminate|]. intros hk EH. rewrite EA in EH. apply wp_bind. unfold vmap_find. apply wp_heap; [discriminate|]. intros o EO. rewrite EA in EO. destruct o as [q|].
      * destruct (find_equal _ _ _ EO) as (J & C0). apply wp_bind, wp_lift; [now destruct q as [? ? [|? [|]]]|]. intros v EV. apply wp_ret, K. eapply (mv_key s m i w q v); [exact D| |unfold single in EV; destruct (evals q) as [|? [|]]; congruence].
        split; [|eauto]. destruct (Nat.lt_ge_cases (bucket_index hk (List.length (buckets m))) (List.length (buckets m))) as [LT|GE]; [|rewrite nth_overflow in J by exact GE; destruct J].
        apply in_concat. eexists. split; [apply nth_In; exact LT|exact J].
      * apply wp_ret, K. eapply mv_no_key; [exact D|]. exists n, hk. split; [exact EH|]. now apply find_all_differ.
    + apply wp_ret, K. eapply mv_word; [exact D| |]; intros [= ->].
      * now rewrite (proj2 (text_eqb_true _ _) eq_refl) in E1.
      * now rewrite (proj2 (text_eqb_true _ _) eq_refl) in E2.
Qed.
Lemma ln_at_reader : reader BiLnAt ln_at_result.
Proof.
  apply reader_intro; [easy|]. intros n m a env xs s c A IE L E. cbn [builtin_call]. unfold b_ln_at. pose proof (args_start a s A) as H.
  apply wp_bind. eapply args_vec; [exact L|exact E|exact H|]. unfold ln_at_result.
  destruct xs as [|x [|i t]]; try (eapply q_error; [exact H|auto]).
  apply wp_bind. eapply args_get; [exact A|exact L|exact E|exact H|now left|]. intros d D.
  destruct d as [ |db|dz|df|dt|dt|dt|dmsg dline|q|mm|q max|q|db denc|df|df|dp|dp|dv]; try apply wp_abort; try (eapply q_error; [exact H|]; intros r s' _ C; eexists; split; [exact D|]; exact C).
  - destruct t as [|y t]; [|eapply q_error; [exact H|]; intros r s' _ C; eexists; split; [exact D|exact C]].
    apply wp_bind. eapply args_get; [exact A|exact L|exact E|exact H|now right; left|]. intros e DE.
    destruct e; try (eapply q_error; [exact H|]; intros r s' _ C; exists (DVec q); split; [exact D|]; eexists; split; [exact DE|exact C]).
    match goal with DE : data_at s i = Some (DInt ?z) |- _ => rename z into i0 end. destruct (norm_index (List.length q) i0) as [k|] eqn:EN; [destruct (nth_error q k) as [y|] eqn:EK|].
    + apply wp_ret. eexists. split; [exact D|]. eexists. split; [exact DE|]. intros F B. rewrite <- (at_index_norm q i0 F B), EN, EK. reflexivity.
    + eapply q_error; [exact H|]. intros r s' _ C. eexists. split; [exact D|]. eexists. split; [exact DE|]. intros F B. rewrite <- (at_index_norm q i0 F B), EN, EK. exact C.
    + eapply q_error; [exact H|]. intros r s' _ C. eexists. split; [exact D|]. eexists. split; [exact DE|]. intros F B. rewrite <- (at_index_norm q i0 F B), EN. exact C.
  - destruct t as [|w [|w' t]]; try (eapply q_error; [exact H|]; intros r s' _ C; eexists; split; [exact D|exact C]).
    apply wp_bind. apply (map_at_value n mm i w s s); auto. intros [v|] MV.
    + apply wp_ret. eexists. split; [exact D|]. eexists. split; [exact MV|reflexivity].
    + eapply q_error; [exact H|]. intros r s' _ C. eexists. split; [exact D|]. eexists. split; [exact MV|exact C].
  - destruct t as [|y t]; [|eapply q_error; [exact H|]; intros r s' _ C; eexists; split; [exact D|exact C]].
    apply wp_bind. eapply args_get; [exact A|exact L|exact E|exact H|now right; left|]. intros e DE.
    destruct e; try (eapply q_error; [exact H|]; intros r s' _ C; exists (DList q); split; [exact D|]; eexists; split; [exact DE|exact C]).
    match goal with DE : data_at s i = Some (DInt ?z) |- _ => rename z into i0 end. rewrite list_at_index. destruct (at_index q i0) as [y|] eqn:EN; [|apply wp_abort].
    apply wp_ret. eexists. split; [exact D|]. eexists. split; [exact DE|exact EN].
Qed.

(** ** Collections *)
Lemma copied_el P s0 xs n : Inv P s0 -> (forall x, In x xs -> reach s0 x) -> (forall x pre G s, At true P s0 pre G s -> In x xs -> good P s x) ->
  forall y s pre G, In y xs -> At true P s0 pre G s ->
  wp (copy_atom n y) (fun w s' => At true P s [] (eq w) s' /\ defined s0 y w s' /\ (w < nextId s0 \/ nextId s <= w)) s.
Proof.
  intros A0 R GD y s pre G J H. pose proof (a_inv _ _ _ _ _ _ _ H) as A. assert (RY : reach s y) by (eapply at_reach; [exact H|reflexivity|now apply R]).
  eapply wp_mono; [apply copy_atom_new; [exact A|eapply GD; eauto|exact RY]|]. intros w s' (B & E & N). split; [exact B|].
  assert (EY : data_at s y = data_at s0 y) by (eapply q_data; [exact H|now apply R]). split.
  - destruct E as [d E0 AT NW E1|d E0 NA EW E1]; rewrite EY in E0; [eapply def_copy; eauto|eapply def_same; eauto].
    destruct N as [->|N]; [unfold data_at in EY, E0; rewrite NW in EY; cbn in EY; congruence|].
    destruct (lookup (all s0) w) eqn:LW; [|reflexivity]. apply (lookup_lt true P s0 w _ A0) in LW. pose proof (a_next _ _ _ _ _ _ _ H). lia.
  - destruct N as [->|N]; [left; eapply (reach_lt true); [exact A0|now apply R]|auto].
Qed.
Lemma defined_stays s0 y w s s' : defined s0 y w s -> lookup (all s') w = lookup (all s) w -> defined s0 y w s'.
Proof. intros [d ? ? ? E|d ? ? ? E] L; [eapply def_copy|eapply def_same]; eauto; unfold data_at in *; congruence. Qed.
Lemma forall2_skipn {X Y} (R : X -> Y -> Prop) l l' : Forall2 R l l' -> forall k, Forall2 R (skipn k l) (skipn k l').
Proof. induction 1; intros [|k]; cbn [skipn]; try constructor; auto. Qed.
Lemma last_keep {X Y} (R : X -> Y -> Prop) n done ws x w : Forall2 R (last_of n done) ws -> R x w ->
  Forall2 R (last_of n (done ++ [x])) (skipn (List.length (ws ++ [w]) - n) (ws ++ [w])).
Proof.
  intros F K. assert (LW : List.length ws = List.length (last_of n done)) by (clear K; induction F; cbn; congruence). unfold last_of in *. rewrite skipn_length in LW.
  assert (F' : Forall2 R (skipn (List.length done - n) (done ++ [x])) (ws ++ [w])).
  { rewrite skipn_app. replace (List.length done - n - List.length done)%nat with 0%nat by lia. apply Forall2_app; [exact F|]. constructor; [exact K|constructor]. }
  replace (skipn (List.length (done ++ [x]) - n) (done ++ [x])) with (skipn (List.length (ws ++ [w]) - n) (skipn (List.length done - n) (done ++ [x]))).
  - apply forall2_skipn. exact F'.
  - rewrite skipn_skipn', !app_length. cbn [List.length]. f_equal. lia.
Qed.

Section Made.
Context (a : ref) (s : vm) (c : cell) (xs : list ref) (A : Inv [a] s) (L : lookup (all s) a = Some c) (E : cdata c = DVec xs) (n : nat).
Let EL := copied_el [a] s xs n A (args_reach a s c xs A L E) (fun x pre G s' => args_good a s c xs L E x pre G s').
Lemma new_seq_made mk step keep l : (forall l y, dref (mk l) y <-> In y l) -> (forall l x y, In y (step l x) -> In y l \/ y = x) ->
  (forall (R : ref -> ref -> Prop) done ws x w, Forall2 R (keep done) ws -> R x w -> Forall2 R (keep (done ++ [x])) (step ws w)) ->
  (forall r l x s, data_at s r = Some (mk l) -> seq_push r x s = put r (mk (step l x)) s) -> keep [] = [] -> incl l xs ->
  wp (new_seq n (mk []) l) (fun r s' => exists ws, makes s s' r (mk ws) /\ made_of s (keep l) s' ws) s.
Proof.
  intros MK STEP KEEP OP K0 IL. unfold new_seq. pose proof (args_start a s A) as H. apply wp_bind. eapply q_alloc; [exact H|intros x J; now apply MK in J|].
  clear H. intros r s1 H _ M _ NP. apply wp_bind. eapply q_push_all; [exact H|has|]. clear H. intros s2 H E2.
  eapply wp_mono; [eapply (build_tail seq_push mk step keep MK STEP KEEP OP [a] s (copy_atom n) (fun y w s' => defined s y w s') xs EL)|].
  - intros y w s3 s4 DF. now apply defined_stays.
  - exact K0.
  - exact IL.
  - destruct M as (M & _). split; auto.
  - eapply at_weaken; [exact H|easy].
  - destruct M as (_ & M). rewrite <- M. apply data_same. congruence.
  - intros r' s3 K. exact K.
Qed.
End Made.
Lemma push_is r s d x : data_at s r = Some d -> seq_push r x s =
  match d with DVec l => put r (DVec (l ++ [x])) s | DList l => put r (DList (l ++ [x])) s | DQueue l max => put r (DQueue (queue_push l max x) max) s | _ => Abort end.
Proof.
  intros D. unfold seq_push, bind, get, get_cell, bind. unfold data_at in D. destruct (lookup (all s) r) as [c|]; [|discriminate]. cbn in *. injection D as ->. destruct d; reflexivity.
Qed.
Lemma list_reader : reader BiList list_result.
Proof.
  apply reader_intro; [easy|]. intros n m a env xs s c A IE L E. cbn [builtin_call]. unfold b_list. pose proof (args_start a s A) as H.
  apply wp_bind. eapply args_vec; [exact L|exact E|exact H|].
  eapply (new_seq_made a s c xs A L E n DList (fun l x => l ++ [x]) (fun l => l)); auto using incl_refl.
  - intros l y. reflexivity.
  - intros l x y J. apply in_app_or in J as [J|[->|[]]]; auto.
  - intros R done ws x w F K. apply Forall2_app; [exact F|]. constructor; [exact K|constructor].
  - intros r l x s' D. now rewrite (push_is r s' _ x D).
Qed.
Lemma queue_reader : reader BiQueue queue_result.
Proof.
  apply reader_intro; [easy|]. intros n m a env xs s c A IE L E. cbn [builtin_call]. unfold b_queue. pose proof (args_start a s A) as H.
  apply wp_bind. eapply args_vec; [exact L|exact E|exact H|].
  eapply (new_seq_made a s c xs A L E n (fun l => DQueue l None) (fun l x => l ++ [x]) (fun l => l)); auto using incl_refl.
  - intros l y. reflexivity.
  - intros l x y J. apply in_app_or in J as [J|[->|[]]]; auto.
  - intros R done ws x w F K. apply Forall2_app; [exact F|]. constructor; [exact K|constructor].
  - intros r l x s' D. now rewrite (push_is r s' _ x D).
Qed.
Lemma queue_max_reader : reader BiQueueMax queue_max_result.
Proof.
  apply reader_intro; [easy|]. intros n m a env xs s c A IE L E. cbn [builtin_call]. unfold b_queue_max. pose proof (args_start a s A) as H.
  apply wp_bind. eapply args_vec; [exact L|exact E|exact H|]. unfold queue_max_result.
  destruct xs as [|x t]; [eapply q_error; [exact H|auto]|].
  apply wp_bind. eapply args_get; [exact A|exact L|exact E|exact H|now left|]. intros d D.
  destruct d; try (eapply q_error; [exact H|]; intros r s' _ C; eexists; split; [exact D|exact C]).
  match goal with D : data_at s x = Some (DInt ?z) |- _ => rename z into k end.
  destruct (Z.ltb_spec k 0) as [N|N].
  - eapply q_error; [exact H|]. intros r s' _ C. eexists. split; [exact D|]. split; [auto|lia].
  - eapply wp_mono; [eapply (new_seq_made a s c (x :: t) A L E n (fun l => DQueue l (Some (Z.to_N k))) (fun l x => queue_push l (Some (Z.to_N k)) x) (fun l => last_of (Z.to_nat k) l))|].
    + intros l y. reflexivity.
    + intros l y z J. unfold queue_push in J. apply in_skipn in J. apply in_app_or in J as [J|[->|[]]]; auto.
    + intros R done ws y w F K. unfold queue_push. replace (N.to_nat (Z.to_N k)) with (Z.to_nat k) by lia. now apply last_keep.
    + intros r l y s' D'. now rewrite (push_is r s' _ y D').
    + reflexivity.
    + intros y J. now right.
    + intros r s' (ws & K). eexists. split; [exact D|]. split; [lia|]. intros _. exists ws. exact K.
Qed.
Lemma vec_push_is r s l x : data_at s r = Some (DVec l) -> vec_push r x s = put r (DVec (l ++ [x])) s.
Proof. intros D. unfold vec_push, vec_of, bind, get, bind, get_cell. unfold data_at in D. destruct (lookup (all s) r) as [c|]; [|discriminate]. cbn in *. injection D as ->. reflexivity. Qed.
Lemma vec_build a s c xs : Inv [a] s -> lookup (all s) a = Some c -> cdata c = DVec xs -> forall elem (El : ref -> ref -> vm -> Prop),
  (forall y s1 pre G, In y xs -> At true [a] s pre G s1 -> wp (elem y) (fun w s' => At true [a] s1 [] (eq w) s' /\ El y w s' /\ (w < nextId s \/ nextId s1 <= w)) s1) ->
  (forall y w s s', El y w s -> lookup (all s') w = lookup (all s) w -> El y w s') ->
  forall r s1, mine true [a] s r -> At true [a] s [r] (fun _ => False) s1 -> data_at s1 r = Some (DVec []) ->
  wp (iterM (fun y => w <- elem y ;; vec_push r w) xs ;;; pop r ;;; ret r) (fun r s' => exists ws, makes s s' r (DVec ws) /\ Forall2 (fun y w => El y w s') xs ws) s1.
Proof.
  intros A L E elem El EL ST r s1 MR H D.
  eapply (build_tail vec_push DVec (fun l x => l ++ [x]) (fun l => l)) with (xs := xs) (elem := elem) (El := El) (P := [a]); try assumption; try apply incl_refl; try reflexivity.
  - intros l x y J. apply in_app_or in J as [J|[->|[]]]; auto.
  - intros R done ws x w F K. apply Forall2_app; [exact F|]. constructor; [exact K|constructor].
  - intros r' l x s' D'. now apply vec_push_is.
Qed.
Lemma vector_reader : reader BiVector vector_result.
Proof.
  apply reader_intro; [easy|]. intros n m a env xs s c A IE L E. cbn [builtin_call]. unfold b_vector. pose proof (args_start a s A) as H.
  apply wp_bind. eapply q_alloc; [exact H|intros x []|]. clear H. intros r s1 H _ M _ NP.
  apply wp_bind. eapply q_push_all; [exact H|has|]. clear H. intros s2 H E2. apply wp_bind. eapply args_vec; [exact L|exact E|exact H|].
  eapply (vec_build a s c xs A L E (copy_atom n) (fun y w s' => defined s y w s')).
  - exact (copied_el [a] s xs n A (args_reach a s c xs A L E) (fun x pre G s' => args_good a s c xs L E x pre G s')).
  - intros y w s3 s4 DF. now apply defined_stays.
  - destruct M as (M & _). split; auto.
  - eapply at_weaken; [exact H|easy].
  - destruct M as (_ & M). rewrite <- M. apply data_same. congruence.
Qed.
Lemma doc_reader : reader BiDoc doc_result.
Proof.
  apply reader_intro; [easy|]. intros n m a env xs s c A IE L E. cbn [builtin_call]. unfold b_doc. pose proof (args_start a s A) as H.
  apply wp_bind. eapply args_vec; [exact L|exact E|exact H|].
  assert (DO : forall x s1 pre G, In x xs -> At true [a] s pre G s1 -> wp (doc_of x) (fun w s' => At true [a] s1 [] (eq w) s' /\ is_doc s s' x w /\ (w < nextId s \/ nextId s1 <= w)) s1).
  { intros x s1 pre G J H1. pose proof (a_inv _ _ _ _ _ _ _ H1) as A1. pose proof (at_start true true [a] s1 A1) as B. unfold doc_of. apply wp_bind, wp_get_cell; [discriminate|]. intros cx LX.
    assert (LX0 : lookup (all s) x = Some cx). { rewrite <- LX. symmetry. apply (a_same _ _ _ _ _ _ _ H1). right. split; [reflexivity|]. now apply (args_reach a s c xs A L E). }
    destruct (cdoc cx) as [d|] eqn:ED.
    - apply wp_ret. assert (RF : refers cx d) by (apply refers_iff; now left). split; [eapply at_weaken; [exact B|]; intros q <-; eapply good_child; [exact A1|exact LX|exact RF]|].
      split; [exists cx; split; [exact LX0|]; now rewrite ED|]. left. eapply (reach_lt true); [exact A|]. eapply re_step; [|exact LX0|exact RF]. now apply (args_reach a s c xs A L E).
    - unfold value_nil. eapply q_const; [exact B|intros y []|]. intros w s2 B2 _ (M1 & M2) N. split; [exact B2|]. split; [|now right]. exists cx. split; [exact LX0|]. rewrite ED. split; [|exact M2]. pose proof (a_next _ _ _ _ _ _ _ H1). lia. }
  unfold doc_result. destruct xs as [|x [|y xs]].
  - eapply q_error; [exact H|auto].
  - eapply wp_mono; [eapply DO; [now left|exact H]|]. intros r s' (_ & K & _). exact K.
  - apply wp_bind. eapply q_alloc; [exact H|intros z []|]. clear H. intros r s1 H _ M _ NP.
    apply wp_bind. eapply q_push_all; [exact H|has|]. clear H. intros s2 H E2.
    eapply (vec_build a s c _ A L E doc_of (fun y w s' => is_doc s s' y w)).
    + exact DO.
    + intros z w s3 s4 (cz & LZ & K) EW. exists cz. split; [exact LZ|]. destruct (cdoc cz); [exact K|]. destruct K as (K1 & K2). split; [exact K1|]. unfold data_at in *. congruence.
    + destruct M as (M & _). split; auto.
    + eapply at_weaken; [exact H|easy].
    + destruct M as (_ & M). rewrite <- M. apply data_same. congruence.
Qed.

(** ** len *)
Lemma bind_assoc {X Y Z} (m : M X) (f : X -> M Y) (g : Y -> M Z) s : bind (bind m f) g s = bind m (fun x => bind (f x) g) s.
Proof. unfold bind, obind. destruct (m s) as [[x s']| | | | |]; reflexivity. Qed.
Lemma iterM_ext {X} (f g : X -> M unit) l : (forall x s, f x s = g x s) -> forall s, iterM f l s = iterM g l s.
Proof. intros K. induction l as [|x l IH]; intros s; cbn [iterM]; [reflexivity|]. unfold bind, obind. rewrite K. destruct (g x s) as [[y s']| | | | |]; auto. Qed.
Lemma bind_ext {X Y} (m m' : M X) (f : X -> M Y) s : m s = m' s -> bind m f s = bind m' f s.
Proof. intros E. unfold bind. now rewrite E. Qed.
Lemma wp_eq {X} (m m' : M X) (Q : X -> vm -> Prop) s : m s = m' s -> wp m' Q s -> wp m Q s.
Proof. unfold SafeBase.wp. now intros ->. Qed.
Lemma names_are s0 fs : forall names (Q : list text -> vm -> Prop) s, (forall x, In x fs -> data_at s x = data_at s0 x) -> Forall2 (fun x t => data_at s0 x = Some (DSym t)) fs names -> Q names s -> wp (mapM formal_name fs) Q s.
Proof.
  induction fs as [|x fs IH]; intros names Q s DS F K; inversion F as [|? t ? ts DT FT]; subst; cbn [mapM]; [now apply wp_ret|].
  apply wp_bind. unfold formal_name. apply wp_bind, t_get. intros d D. rewrite DS, DT in D by (now left). injection D as <-. apply wp_ret. apply wp_bind. eapply IH; [intros y J; apply DS; now right|exact FT|]. now apply wp_ret.
Qed.
Lemma required_is names : required_formals names = before_dot names.
Proof. induction names as [|t l IH]; [reflexivity|]. cbn. now rewrite IH. Qed.
Lemma length_of_fun s d f n : length_of s d n -> d = DFun f \/ d = DMac f -> exists fs names, data_at s (fformals f) = Some (DVec fs) /\
  Forall2 (fun x t => data_at s x = Some (DSym t)) fs names /\ n = Z.of_nat (before_dot names).
Proof.
  intros LN E. destruct LN as [ | | | | | | | | | | | |d f' fs names E' DF F| ]; try (destruct E; discriminate). exists fs, names.
  assert (f' = f) as -> by (destruct E as [-> | ->]; destruct E' as [E'|E']; congruence). auto.
Qed.
Section Len.
Context (a : ref) (s : vm) (c : cell) (xs : list ref) (A : Inv [a] s) (L : lookup (all s) a = Some c) (E : cdata c = DVec xs).
Lemma length_is x pre G (Q : Z -> vm -> Prop) s1 : At true [a] s pre G s1 -> In x xs -> (forall d z, data_at s x = Some d -> (forall n, length_of s d n -> z = n) -> Q z s1) -> wp (value_length x) Q s1.
Proof.
  intros H J K. unfold value_length. apply wp_bind. eapply args_get; [exact A|exact L|exact E|exact H|exact J|]. intros d D. specialize (K d).
  assert (FN : forall f, d = DFun f \/ d = DMac f -> wp (fs <- vec_of (fformals f) ;; names <- mapM formal_name fs ;; ret (Z.of_nat (required_formals names))) Q s1).
  { intros f EF. destruct (lookup (all s) x) as [cx|] eqn:LX; [|unfold data_at in D; rewrite LX in D; discriminate].
    assert (ED : cdata cx = d) by (unfold data_at in D; rewrite LX in D; injection D as D; exact D).
    assert (RF : reach s (fformals f)). { eapply re_step; [|exact LX|]; [now apply (args_reach a s c xs A L E)|]. apply refers_iff. right. rewrite ED. destruct EF as [-> | ->]; cbn; auto. }
    apply wp_bind, wp_vec_of; [discriminate|]. intros cf fs LF EF1.
    assert (LF0 : lookup (all s) (fformals f) = Some cf) by (rewrite <- LF; symmetry; apply (a_same _ _ _ _ _ _ _ H); right; auto).
    assert (DS : forall y, In y fs -> data_at s1 y = data_at s y). { intros y JY. eapply q_data; [exact H|]. eapply re_step; [exact RF|exact LF0|]. apply refers_iff. right. now rewrite EF1. }
    assert (DF0 : data_at s (fformals f) = Some (DVec fs)) by (unfold data_at; rewrite LF0; cbn; now rewrite EF1).
    apply wp_bind.
    assert (W : wp (mapM formal_name fs) (fun names s' => s' = s1 /\ Forall2 (fun y t => data_at s y = Some (DSym t)) fs names) s1).
    { clear - DS. induction fs as [|y fs IH]; cbn [mapM]; [apply wp_ret; split; auto|]. unfold formal_name at 1. apply wp_bind, wp_bind, t_get. intros e DE. destruct e; try apply wp_abort. apply wp_ret. apply wp_bind.
      eapply wp_mono; [apply IH; intros z J; apply DS; now right|]. intros ns s' (-> & F). apply wp_ret. split; [reflexivity|]. constructor; [rewrite <- DS by (now left); exact DE|exact F]. }
    eapply wp_mono; [exact W|]. intros names s' (-> & F). apply wp_ret. apply K; [exact D|]. intros n LN. rewrite required_is. apply (length_of_fun s d f n LN) in EF as (fs' & names' & DF' & F' & ->).
    rewrite DF0 in DF'. injection DF' as <-. f_equal. f_equal.
    clear - F F'. revert names' F'. induction F as [|y t fs names DY F IH]; intros names' F'; inversion F' as [|? t' ? ts DT FT]; subst; [reflexivity|]. f_equal; [congruence|auto]. }
  destruct d; try (apply FN; auto; fail); try (apply wp_ret, K; [exact D|]; intros k LN; inversion LN; subst; try reflexivity; match goal with X : _ \/ _ |- _ => destruct X; discriminate end).
  - destruct (special_required p); [|apply wp_unmodelled]. apply wp_ret, K; [exact D|]. intros k LN. inversion LN; subst. match goal with X : _ \/ _ |- _ => destruct X; discriminate end.
  - destruct (builtin_required p); [|apply wp_unmodelled]. apply wp_ret, K; [exact D|]. intros k LN. inversion LN; subst. match goal with X : _ \/ _ |- _ => destruct X; discriminate end.
Qed.
End Len.

Lemma fits_wrap n : fits n -> wrap32 n = n.
Proof. intros F. apply wrap32_id. unfold fits in F. unfold in_int32, INT32_MIN, INT32_MAX. lia. Qed.
Lemma len_reader : reader BiLen len_result.
Proof.
  apply reader_intro; [easy|]. intros n m a env xs s c A IE L E. cbn [builtin_call]. unfold b_len. pose proof (args_start a s A) as H.
  apply wp_bind. eapply args_vec; [exact L|exact E|exact H|].
  set (elem := fun x => k <- value_length x ;; alloc (DInt (wrap32 k))).
  assert (EL : forall x s1 pre G, In x xs -> At true [a] s pre G s1 -> wp (elem x) (fun w s' => At true [a] s1 [] (eq w) s' /\ is_length s s' x w /\ (w < nextId s \/ nextId s1 <= w)) s1).
  { intros x s1 pre G J H1. unfold elem. apply wp_bind. eapply length_is; [exact A|exact L|exact E|exact H1|exact J|]. intros d z D K.
    eapply q_alloc; [exact H1|intros y []|]. intros w s2 _ B M N _. split; [exact B|]. split; [|now right]. exists d. eexists. split; [exact D|]. split; [exact M|]. intros k LK F. rewrite (K k LK). now apply fits_wrap. }
  unfold len_result. destruct xs as [|x [|y xs]].
  - eapply q_error; [exact H|auto].
  - eapply wp_mono; [eapply (EL x); [now left|exact H]|]. intros r s' (_ & K & _). exact K.
  - apply wp_bind. eapply q_alloc; [exact H|intros z []|]. clear H. intros r s1 H _ M _ NP.
    apply wp_bind. eapply q_push_all; [exact H|has|]. clear H. intros s2 H E2.
    eapply wp_eq; [apply bind_ext; apply (iterM_ext _ (fun y => w <- elem y ;; vec_push r w))|].
    + intros z s'. unfold elem. now rewrite bind_assoc.
    + eapply (vec_build a s c _ A L E elem (fun y w s' => is_length s s' y w)).
      * exact EL.
      * intros z w s3 s4 (d & k & D & (K1 & K2) & F) EW. exists d, k. split; [exact D|]. split; [|exact F]. split; [exact K1|]. unfold data_at in *. congruence.
      * destruct M as (M & _). split; auto.
      * eapply at_weaken; [exact H|easy].
      * destruct M as (_ & M). rewrite <- M. apply data_same. congruence.
Qed.

(** ** hash-map *)
Lemma map_put_num m hk (k v : ref) m' : (0 < List.length (buckets m))%nat -> map_put (fun _ _ => false) m hk k v = Ret m' -> numElements m = List.length (List.concat (buckets m)) -> numElements m' = S (numElements m).
Proof.
  intros L. unfold map_put. destruct (map_get (fun _ _ : ref => false) m hk k) eqn:EG.
  { exfalso. unfold map_get in EG. revert EG. generalize (nth (bucket_index hk (List.length (buckets m))) (buckets m) []). clear. induction l; cbn; congruence. }
  clear EG. set (i := bucket_index hk (List.length (buckets m))).
  assert (Hi : (i < List.length (buckets m))%nat) by (now apply bucket_index_lt).
  destruct (bucket_split (buckets m) i Hi) as (bp & bq & Ebs & Lp & Hset). rewrite Hset. set (b := nth i (buckets m) []) in *.
  set (m1 := mkMap _ _ _). intros EQ NE.
  assert (L1 : List.length (buckets m1) = List.length (buckets m)) by (cbn [m1 buckets]; rewrite Ebs, !app_length; reflexivity).
  assert (N1 : List.length (List.concat (buckets m1)) = S (numElements m)).
  { rewrite NE. cbn [m1 buckets]. rewrite Ebs, !concat_mid, !app_length. cbn [List.length]. lia. }
  destruct (Nat.leb (3 * List.length (buckets m1)) (4 * inUse m1)).
  - unfold map_rehash in EQ. set (m0 := mkMap (repeat [] (2 * List.length (buckets m1))) 0 0) in *.
    assert (L0 : List.length (buckets m0) = (2 * List.length (buckets m1))%nat) by (cbn [m0 buckets]; apply repeat_length).
    assert (Hplr : placed (buckets m0)) by apply placed_repeat.
    destruct (rehash_fold_ok (List.concat (buckets m1)) m0) as (R1 & R2 & R3 & R4 & R5); [lia|exact Hplr|]. cbn zeta in *. set (m2 := fold_left rehash_insert (List.concat (buckets m1)) m0) in *. clearbody m2.
    match type of EQ with context [Nat.ltb ?a ?b] => destruct (Nat.ltb a b); [|discriminate] end. injection EQ as <-. cbn [m0 numElements] in R4. lia.
  - injection EQ as <-. reflexivity.
Qed.
Definition shaped (s : vm) (kvs : list (ref * ref)) (m : hmap ref ref) : Prop :=
  (0 < List.length (buckets m))%nat /\
  Permutation (map (fun e => (ekey e, evals e)) (List.concat (buckets m))) (map (fun p => (fst p, [snd p])) kvs) /\
  numElements m = List.length kvs /\
  forall e, In e (List.concat (buckets m)) -> vhash (all s) (ekey e) = Ret (ehash e).
Lemma pairs_before {X} (R : X -> X -> Prop) l x l' : ForallOrdPairs R (l ++ x :: l') -> forall p, In p l -> R p x.
Proof.
  induction l as [|q l IH]; cbn; intros F p J; [easy|]. inversion F as [|? ? F1 F2]; subst. destruct J as [<-|J]; [|now apply IH]. rewrite Forall_forall in F1. apply F1. apply in_or_app. right. now left.
Qed.
Lemma find_none {cmp : ref -> ref -> outcome Z} k b o : (forall e, In e b -> cmp k (ekey e) <> Ret 0%Z) -> find_o cmp k b = Ret o -> o = None.
Proof.
  induction b as [|e b IH]; intros K; cbn [find_o]; [congruence|]. pose proof (K e (or_introl eq_refl)) as KE. destruct (cmp k (ekey e)) as [z| | | | |]; cbn; try discriminate.
  destruct (Z.eqb_spec z 0) as [->|N]; [congruence|]. apply IH. intros. apply K. now right.
Qed.
Section Pairs.
Context (a : ref) (s : vm) (c : cell) (xs : list ref) (A : Inv [a] s) (L : lookup (all s) a = Some c) (E : cdata c = DVec xs) (n : nat) (r : ref) (MR : mine true [a] s r).
Lemma put_pairs_made : forall l done m s1, incl l xs -> (forall p, In p done -> In (fst p) xs) -> At true [a] s [r] (fun _ => False) s1 -> data_at s1 r = Some (DMap m) ->
  wp (put_pairs n r l) (fun ok s' => exists m', At true [a] s [r] (fun _ => False) s' /\ data_at s' r = Some (DMap m') /\
    match in_pairs l with None => ok = false | Some kvs => ok = true /\ (shaped s done m -> distinct_keys s (done ++ kvs) -> shaped s (done ++ kvs) m') end) s1.
Proof.
  fix IH 1. intros l done m s1 IL ID H D. destruct l as [|k [|v t]]; cbn [put_pairs in_pairs].
  - apply wp_ret. exists m. rewrite app_nil_r. auto.
  - apply wp_ret. exists m. auto.
  - specialize (IH t). 
    assert (JK : In k xs) by (apply IL; now left). assert (JV : In v xs) by (apply IL; right; now left).
    pose proof (a_inv _ _ _ _ _ _ _ H) as A1. apply wp_bind. unfold hash_map_put. apply wp_bind. unfold hash_of. apply wp_heap; [discriminate|]. intros hk EH.
    assert (EH0 : vhash (all s) k = Ret hk). { rewrite <- EH. unfold vhash. rewrite (a_same _ _ _ _ _ _ _ H); [reflexivity|]. right. split; [reflexivity|]. now apply (args_reach a s c xs A L E). }
    destruct (lookup (all s1) r) as [cr|] eqn:LR; [|unfold data_at in D; rewrite LR in D; discriminate].
    assert (ER : cdata cr = DMap m) by (unfold data_at in D; rewrite LR in D; injection D as D; exact D).
    apply wp_bind. unfold map_of. apply wp_bind, t_get. intros d D'. rewrite D in D'. injection D' as <-. apply wp_ret.
    assert (W : wp (vmap_put n m hk k v) (fun m' s' => s' = s1 /\ (forall x, dref (DMap m') x -> x = k \/ x = v \/ dref (DMap m) x) /\ (shaped s done m -> (forall p, In p done -> forall n, vcompare n (all s) k (fst p) <> Ret 0%Z) -> shaped s (done ++ [(k, v)]) m')) s1).
    { assert (W : wp (vmap_put n m hk k v) (fun m' s' => s' = s1 /\ (forall x, dref (DMap m') x -> x = k \/ x = v \/ dref (DMap m) x)) s1) by (eapply (wp_vmap_put true); [exact A1|discriminate|discriminate|auto]).
      apply wp_record in W. eapply wp_mono; [exact W|]. clear W. intros m' s' ((-> & DR) & EQ). split; [reflexivity|]. split; [exact DR|]. intros (S1 & S2 & S3 & S4) ND.
      unfold vmap_put, vmap_find, heap_op, bind, obind in EQ.
      destruct (find_o (vcompare n (all s1)) k (nth (bucket_index hk (List.length (buckets m))) (buckets m) [])) as [o| | | | |] eqn:EF; try discriminate.
      assert (o = None).
      { eapply find_none; [|exact EF]. intros e J. assert (JE : In e (List.concat (buckets m))).
        { apply in_concat. eexists. split; [apply nth_In; now apply bucket_index_lt|exact J]. }
        assert (KE : In (ekey e, evals e) (map (fun p => (fst p, [snd p])) done)) by (eapply Permutation_in; [exact S2|]; apply (in_map (fun e => (ekey e, evals e)) _ _ JE)).
        apply in_map_iff in KE as (p & EP & JP). injection EP as EP _. rewrite <- EP. rewrite (vcompare_local (all s) (all s1)); [now apply ND| |]; (eapply kept_stack; [exact H|]); apply (args_reach a s c xs A L E); auto. }
      subst o. unfold lift in EQ. cbn [no_stack fst snd] in EQ. destruct (map_put (fun _ _ : N => false) m hk k v) as [m2| | | | |] eqn:EM; try discriminate. cbn in EQ. injection EQ as <-.
      pose proof EM as EM2. apply map_put_perm in EM as (PM & LB); [|exact S1]. split; [exact LB|]. split; [|split].
      - rewrite PM. cbn [map ekey evals]. rewrite map_app. cbn [map fst snd]. rewrite <- Permutation_cons_append. now constructor.
      - rewrite app_length. cbn [List.length]. apply map_put_num in EM2; [|exact S1|]; [lia|]. rewrite S3. apply Permutation_length in S2. rewrite !map_length in S2. congruence.
      - intros e J. eapply Permutation_in in J; [|exact PM]. destruct J as [<-|J]; [exact EH0|now apply S4]. }
    apply wp_bind. eapply wp_mono; [exact W|]. clear W. intros m' s' (-> & DR & SH).
    assert (W : wp (put r (DMap m')) (fun _ s' => At true [a] s [r] (fun _ => False) s' /\ (exists c, lookup (all s') r = Some c /\ cdata c = DMap m')) s1).
    { eapply (r_put true true [a] s r _ [r] _ _ _ H); [has|exact MR| |discriminate|discriminate|auto].
      intros x J. apply DR in J as [->|[->|J]]; [eapply args_good; eauto|eapply args_good; eauto|]. eapply at_dref; [exact H|exact LR|]. now rewrite ER. }
    eapply wp_mono; [exact W|]. clear W. intros u s2 (H2 & c2 & L2 & E2).
    eapply wp_mono; [apply (IH (done ++ [(k, v)]) m' s2)|].
    + intros z J. apply IL. now right; right.
    + intros p J. apply in_app_or in J as [J|[<-|[]]]; auto.
    + exact H2.
    + unfold data_at. rewrite L2. cbn. now rewrite E2.
    + intros ok s3 (m3 & H3 & D3 & K). exists m3. split; [exact H3|]. split; [exact D3|]. destruct (in_pairs t) as [kvs|]; cbn [option_map]; [|exact K]. destruct K as (K1 & K2). split; [exact K1|].
      rewrite <- app_assoc in K2. intros SM ND. apply K2; [|exact ND]. apply SH; [exact SM|]. intros p J. exact (pairs_before _ done (k, v) kvs ND p J).
Qed.
End Pairs.
Lemma hash_map_reader : reader BiHashMap hash_map_result.
Proof.
  apply reader_intro; [easy|]. intros n m a env xs s c A IE L E. cbn [builtin_call]. unfold b_hash_map. pose proof (args_start a s A) as H.
  apply wp_bind. eapply q_alloc; [exact H|intros x (e & J & _); vm_compute in J; contradiction|]. clear H. intros r s1 H _ (M & M2) _ NP.
  apply wp_bind. eapply q_push_all; [exact H|has|]. clear H. intros s2 H E2. apply wp_bind. eapply args_vec; [exact L|exact E|exact H|].
  apply wp_bind. eapply wp_mono; [eapply (put_pairs_made a s c xs A L E n r) with (done := [])|].
  - split; auto.
  - apply incl_refl.
  - intros p [].
  - eapply at_weaken; [exact H|easy].
  - rewrite <- M2. apply data_same. congruence.
  - clear H. intros ok s3 (m3 & H & D3 & K). apply wp_bind. eapply at_pop; [exact H|]. clear H. intros s4 H E4. unfold hash_map_result. destruct (in_pairs xs) as [kvs|].
    + destruct K as (-> & K). apply wp_ret. exists m3. split; [split; [exact M|]; rewrite <- D3; apply data_same; congruence|]. intros ND. destruct K as (_ & K2 & K3 & K4); [|exact ND|auto].
      split; [cbn; lia|]. split; [vm_compute; constructor|]. split; [reflexivity|]. intros e J. vm_compute in J. contradiction.
    + rewrite K. eapply q_error; [exact H|auto].
Qed.

(** ** exit *)
Lemma exit_does : does BiExit exit_result.
Proof.
  intros n m a env xs s r s' AR EB. destruct (arguments_inv _ _ _ _ AR) as (A & GE & IE & c & L & E).
  assert (W : wp (builtin_call n (Eval.eval m) BiExit a env) (fun r s' => exit_result s env xs s' r) s); [|exact (wp_ret_inv _ _ _ _ _ W EB)].
  cbn [builtin_call]. unfold b_exit. pose proof (args_start a s A) as H. apply wp_bind. eapply args_vec; [exact L|exact E|exact H|].
  assert (OK : forall k, (xs = [] /\ k = exitCode s) \/ (exists x, xs = [x] /\ data_at s x = Some (DInt k)) -> wp (set_quit k ;;; value_true) (fun r s' => exit_result s env xs s' r) s).
  { intros k K. apply wp_bind.
    assert (A1 : Inv [a] (with_quit s true k)) by (destruct A as [X1 X2 X3 X4 X5 X6 X7 X8]; constructor; auto).
    unfold set_quit, SafeBase.wp at 1. unfold value_true. eapply q_const; [apply at_start; exact A1|intros y []|]. intros w s2 H2 _ M _. left. exists k. split; [exact K|]. split; [exact (keeps_at _ _ _ _ _ H2)|exact M]. }
  assert (ER : xs <> [] -> (forall x z, xs = [x] -> data_at s x <> Some (DInt z)) -> wp new_error (fun r s' => exit_result s env xs s' r) s).
  { intros N1 N2. eapply q_error; [exact H|]. intros w s2 H2 C. right. split; [exact N1|]. split; [exact N2|]. split; [exact (keeps_at _ _ _ _ _ H2)|exact C]. }
  destruct xs as [|x [|y xs]].
  - apply wp_bind, wp_read. apply OK. now left.
  - apply wp_bind. eapply args_get; [exact A|exact L|exact E|exact H|now left|]. intros d D.
    destruct d; try (apply ER; [discriminate|]; intros x' z' [= <-]; rewrite D; discriminate). apply OK. right. eauto.
  - apply ER; [discriminate|]. intros; discriminate.
Qed.

(** ** Calls of builtins *)
Lemma trace_happened ev base s evs s' e : trace ev base s evs s' -> In e evs -> happens ev e.
Proof. intros T. induction T as [|s e' evs s' K E T IH]; cbn; [easy|]. intros [<-|J]; auto. Qed.
Lemma called p R fuel env v s x f s2 o s' : does p R -> calls_form fuel env v s x f s2 o s' -> data_at s2 f = Some (DBuiltin p) ->
  exists r, o = Some r /\
   ((exists evs xs d, args_run env v s2 1 evs xs (Some (r, d)) /\ result_is s' r (Some d)) \/
    exists evs xs s1 s3 p', args_run env v s2 1 evs xs None /\ data_at s1 f = Some (DBuiltin p') /\ (p' = p -> R s1 env xs s3 r) /\ result_is s' r (data_at s3 r)).
Proof.
  intros RD C D. destruct (eval_builtin_spec _ _ _ _ _ _ _ _ _ C p D) as (r & evs & od & A & B & E & F & _). exists r. split; [exact A|].
  destruct E as [evs xs r d AR|evs xs p1 a s1 r s3 p' AR D1 AG D3 NR|evs xs p1 a s1 r s3 s4 s5 AR D1 AG D3].
  - left. exists evs, xs, d. auto.
  - right. exists evs, xs, s1, s3, p1. split; [exact AR|]. split; [exact D1|]. split; [|exact F]. intros ->.
    destruct (trace_happened _ _ _ _ _ (Builtin p a env s1 r s3) B) as (n & EB); [right; apply in_or_app; right; now left|]. eapply RD; eauto.
  - right. exists evs, xs, s1, s3, p1. split; [exact AR|]. split; [exact D1|]. split; [|exact F]. intros ->.
    destruct (trace_happened _ _ _ _ _ (Builtin p a env s1 r s3) B) as (n & EB); [right; apply in_or_app; right; now left|]. eapply RD; eauto.
Qed.
