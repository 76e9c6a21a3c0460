(** find. *)
From Coq Require Import NArith ZArith Bool Lia Arith List String Sorted.
From Coq Require Import ZifyBool ZifyNat ZifyN.
From Verif Require Import Base ListLemmas Vec SpecText SpecStr OString OStringProofs HMap HMapProofs Heap SpecHeap GcProofs VmProofs ValueOps Env Copy Builtins Eval SafeBase SafeRead SafeLib SafeBuiltins SafeEval SpecTrace SpecSpecial SpecCall SpecDefine SpecEval SpecValue SpecReal SpecPrint SpecBuiltin SpecWrite SpecSearch TraceProofs SpecialProofs CallProofs CopyProofs DefineProofs CompareMono RealProofs PrintProofs BuiltinProofs WriteProofs ForProofs SearchProofs.
From Verif Require EnvProofs Printer SpecEnv.
Import ListNotations.
Notation wp := (SafeBase.wp true).
Notation Inv := (SafeBase.Inv true).
Local Open Scope N_scope.
Local Open Scope list_scope.

(** ** Positions in a text *)
Lemma positions_spec pat : pat <> [] -> forall t i, StronglySorted lt (positions_of i t pat) /\ forall j, In j (positions_of i t pat) <-> exists k, j = (i + k)%nat /\ occurs_at pat t k.
Proof.
  intros NE. induction t as [|c t IH]; intros i; cbn [positions_of].
  - split; [constructor|]. intros j. split; [easy|]. intros (k & _ & p & q & E & _). destruct p; [destruct pat; [congruence|discriminate]|discriminate].
  - destruct (IH (S i)) as (S1 & I1). assert (GE : Forall (lt i) (positions_of (S i) t pat)) by (apply Forall_forall; intros j J; apply I1 in J as (k & -> & _); lia).
    assert (HERE : check_match (c :: t) pat = true <-> occurs_at pat (c :: t) 0).
    { rewrite check_match_spec. split; [intros (r & E); exists [], r; auto|]. intros (p & q & E & L). destruct p; [eauto|discriminate]. }
    assert (LATER : forall k, occurs_at pat (c :: t) (S k) <-> occurs_at pat t k).
    { intros k. split; intros (p & q & E & L); [destruct p as [|c' p]; [discriminate|]; injection E as <- E; injection L as L; exists p, q; auto|]. exists (c :: p), q. cbn. split; congruence. }
    split.
    + destruct (check_match (c :: t) pat); cbn [app]; [now constructor|exact S1].
    + intros j. rewrite in_app_iff, I1. split.
      * intros [J|(k & -> & O)]; [|exists (S k); split; [lia|now apply LATER]]. destruct (check_match (c :: t) pat); [|destruct J]. destruct J as [<-|[]]. exists 0%nat. split; [lia|now apply HERE].
      * intros ([|k] & -> & O); [left|right; exists k; split; [lia|now apply LATER]]. apply HERE in O. rewrite O. left. lia.
Qed.
Lemma positions_all pat t : pat <> [] -> all_indices (occurs_at pat t) (positions_of 0 t pat).
Proof.
  intros NE. destruct (positions_spec pat NE t 0) as (S1 & I1). split; [exact S1|]. intros j. rewrite I1. split; [intros (k & -> & O); exact O|intros O; exists j; auto].
Qed.


(** ** The shape of a result *)
Inductive shape (ok : ref -> Prop) (s : vm) (x k : ref) (s' : vm) (r : ref) : Prop :=
| sh_old : r < nextId s -> (forall s2, find_one s x k s2 r) -> shape ok s x k s' r
| sh_leaf d : ok r -> data_at s' r = Some d -> (forall s2, makes s s2 r d -> find_one s x k s2 r) -> shape ok s x k s' r
| sh_ints ws ps : ok r -> data_at s' r = Some (DVec ws) -> Forall2 (fun w i => ok w /\ data_at s' w = Some (DInt (wrap32 (Z.of_nat i)))) ws ps ->
    (forall s2, makes_ints s s2 r ps -> find_one s x k s2 r) -> shape ok s x k s' r.
Lemma shape_kept (ok ok' : ref -> Prop) s x k s1 s2 r : shape ok s x k s1 r -> (forall z, ok z -> ok' z) -> (ok r -> data_at s2 r = data_at s1 r) ->
  (forall l z, ok r -> data_at s1 r = Some (DVec l) -> In z l -> ok z -> data_at s2 z = data_at s1 z) -> shape ok' s x k s2 r.
Proof.
  intros [L F|d O D F|ws ps O D W F] OK K1 K2.
  - now apply sh_old.
  - eapply sh_leaf; [auto| |exact F]. now rewrite K1.
  - eapply sh_ints; [auto|rewrite K1; eauto| |exact F]. specialize (K2 ws).
    assert (K3 : forall z, In z ws -> ok z -> data_at s2 z = data_at s1 z) by (intros; apply K2; auto). clear - W K3 OK.
    induction W as [|w i ws ps (O & D) W IH]; constructor; [split; [auto|]; rewrite K3; auto; now left|]. apply IH. intros z J. apply K3. now right.
Qed.
Lemma shape_found ok s x k s' r : shape ok s x k s' r -> (forall z, ok z -> nextId s <= z) -> find_one s x k s' r.
Proof.
  intros [L F|d O D F|ws ps O D W F] OK; [apply F|apply F; split; auto|]. apply F. exists ws. split; [split; auto|].
  eapply forall2_impl; [|exact W]. intros w i (OW & DW). eexists. split; [split; [auto|exact DW]|]. apply fits_wrap.
Qed.
Lemma denotes_local h h1 e t v : SpecEnv.denotes h1 e t v -> kept h h1 e -> SpecEnv.denotes h e t v.
Proof.
  induction 1 as [e b enc t v (c & L & E) B|e b e' t v (c & L & E) NB H IH]; intros K.
  - apply (SpecEnv.den_here _ _ b enc); [|exact B]. exists c. split; [|exact E]. rewrite <- L. symmetry. apply K. apply reach_here.
  - assert (L' : lookup h e = Some c) by (rewrite <- L; symmetry; apply K; apply reach_here). apply (SpecEnv.den_outer _ _ b e'); [exists c; auto|exact NB|]. apply IH.
    eapply kept_child; [exact K|exact L'|]. apply refers_iff. right. rewrite E. now right.
Qed.
Lemma unbound_local h h1 e t : SpecEnv.unbound h1 e t -> kept h h1 e -> SpecEnv.unbound h e t.
Proof.
  induction 1 as [e b t (c & L & E) B|e b e' t (c & L & E) NB H IH]; intros K.
  - apply (SpecEnv.unb_global _ _ b); [|exact B]. exists c. split; [|exact E]. rewrite <- L. symmetry. apply K. apply reach_here.
  - assert (L' : lookup h e = Some c) by (rewrite <- L; symmetry; apply K; apply reach_here). apply (SpecEnv.unb_outer _ _ b e'); [exists c; auto|exact NB|]. apply IH.
    eapply kept_child; [exact K|exact L'|]. apply refers_iff. right. rewrite E. now right.
Qed.
Lemma denotes_reach h e t v : SpecEnv.denotes h e t v -> reachable h [e] v.
Proof.
  induction 1 as [e b enc t v (c & L & E) (sym & B)|e b e' t v (c & L & E) NB H IH].
  - eapply re_step; [apply reach_here|exact L|]. apply refers_iff. right. rewrite E. left. eauto 8.
  - eapply reach_from; [exact L| |exact IH]. apply refers_iff. right. rewrite E. now right.
Qed.

Section Find.
Context (a : ref) (s : vm) (c : cell) (xs : list ref) (A : Inv [a] s) (L : lookup (all s) a = Some c) (E : cdata c = DVec xs) (n : nat).
Context (x k : ref) (IX : In x xs) (IK : In k xs).
Notation from s1 := (shape (fun z => nextId s1 <= z) s x k).
Lemma leaf_shape s1 d : Inv [a] s1 -> (forall y, ~ dref d y) -> nextId s <= nextId s1 -> (forall r s2, makes s s2 r d -> find_one s x k s2 r) -> wp (alloc d) (fun r s' => from s1 s' r) s1.
Proof. intros A1 ND NX K. eapply q_alloc; [exact (at_start true true [a] s1 A1)|intros y J; now apply ND in J|]. intros r s' _ _ (M1 & M2) _ _. eapply sh_leaf; eauto. Qed.
Lemma err_shape s1 : Inv [a] s1 -> (forall r s2, complains s s2 r -> find_one s x k s2 r) -> wp new_error (fun r s' => from s1 s' r) s1.
Proof. intros A1 K. eapply q_error; [exact (at_start true true [a] s1 A1)|]. intros r s' _ (d & (M1 & M2) & ER). eapply sh_leaf; [exact M1|exact M2|]. intros s2 M. apply K. exists d. auto. Qed.
Lemma ints_shape s1 ps : Inv [a] s1 -> (forall r s2, makes_ints s s2 r ps -> find_one s x k s2 r) -> wp (new_ints ps) (fun r s' => from s1 s' r) s1.
Proof.
  intros A1 K. unfold new_ints. pose proof (at_start true true [a] s1 A1) as H. apply wp_bind. eapply q_alloc; [exact H|intros y []|]. clear H. intros r s2 H _ M _ NP.
  apply wp_bind. eapply q_push_all; [exact H|has|]. clear H. intros s3 H E3.
  eapply wp_mono; [apply (fresh_tail [a] s1 (fun i => DInt (wrap32 (Z.of_nat i))) ps r s3)|].
  - intros i y [].
  - destruct M as (M & _). split; auto.
  - eapply at_weaken; [exact H|easy].
  - destruct M as (_ & M). rewrite <- M. apply data_same. congruence.
  - intros r' s' (ws & (M1 & M2) & F). eapply sh_ints; [exact M1|exact M2| |apply K]. clear - F. induction F as [|i w ps ws (N & D) F IH]; constructor; auto.
Qed.
Lemma bind_ext2 {X Y} (m : M X) (f g : X -> M Y) st : (forall v s', f v s' = g v s') -> bind m f st = bind m g st.
Proof. intros K. unfold bind. destruct (m st) as [[v s']| | | | |]; cbn; auto. Qed.
(** The indices of the elements equal to [k]. *)
Lemma nth_skipn {Y} (l : list Y) : forall i j, nth_error (skipn i l) j = nth_error l (i + j).
Proof. induction l as [|y l IH]; intros [|i] j; cbn; auto. now destruct j. Qed.
Lemma skipn_next {Y} (l : list Y) : forall i y t, skipn i l = y :: t -> skipn (S i) l = t.
Proof. induction l as [|z l IH]; intros [|i] y t; cbn; try discriminate; [intros [= _ <-]; reflexivity|]. intros K. exact (IH i y t K). Qed.
Lemma sorted_snoc l i : StronglySorted lt l -> (forall j, In j l -> (j < i)%nat) -> StronglySorted lt (l ++ [i]).
Proof.
  induction 1 as [|j l S IH F]; intros K; cbn [app]; [repeat constructor|]. constructor; [apply IH; intros q J; apply K; now right|].
  apply Forall_app. split; [exact F|]. constructor; [apply K; now left|constructor].
Qed.
Context (s1 : vm) (pre0 : list ref) (G0 : ref -> Prop) (H0 : At true [a] s pre0 G0 s1).
Lemma kept_now s2 pre y : At true [a] s1 pre (fun _ => False) s2 -> reach s y -> kept (all s) (all s2) y.
Proof. intros H R. eapply kept_trans; [eapply kept_stack; [exact H0|exact R]|]. eapply kept_stack; [exact H|]. eapply at_reach; [exact H0|reflexivity|exact R]. Qed.
Lemma same_now s2 pre y z m : At true [a] s1 pre (fun _ => False) s2 -> reach s y -> reach s z -> vcompare m (all s2) y z = vcompare m (all s) y z.
Proof. intros H R1 R2. apply vcompare_local; eapply kept_now; eauto. Qed.
Lemma elements_shape r l e : data_at s x = Some (DVec l) -> data_at s k = Some e -> mine true [a] s1 r -> forall t i ps ws s2, skipn i l = t -> At true [a] s1 [r] (fun _ => False) s2 -> data_at s2 r = Some (DVec ws) ->
  Forall2 (fun w i => nextId s1 <= w /\ w <> r /\ data_at s2 w = Some (DInt (wrap32 (Z.of_nat i)))) ws ps -> StronglySorted lt ps -> (forall j, In j ps <-> (j < i)%nat /\ exists y, nth_error l j = Some y /\ same s y k) ->
  wp (find_elements n r k i t ;;; pop r ;;; ret r) (fun r s' => from s1 s' r) s2.
Proof.
  intros DX DK MR. induction t as [|y t IH]; intros i ps ws s2 SK H D F SO I; cbn [find_elements].
  - apply wp_bind, wp_ret, wp_bind. eapply at_pop; [exact H|]. intros s3 H3 E3. apply wp_ret. eapply (sh_ints _ _ _ _ _ _ ws ps); [now apply MR|rewrite <- D; apply data_same; congruence| |].
    + eapply forall2_impl; [|exact F]. intros w j (W1 & _ & W2). split; [exact W1|]. rewrite <- W2. apply data_same. congruence.
    + intros s4 M. assert (LI : (List.length l <= i)%nat) by (apply (f_equal (@List.length ref)) in SK; rewrite skipn_length in SK; cbn in SK; lia).
      exists (DVec l), e. split; [exact DX|]. split; [exact DK|]. exists ps. split; [|exact M]. split; [exact SO|]. intros j. rewrite I. split; [tauto|]. intros (y & NY & SY). split; [|eauto].
      assert (j < List.length l)%nat by (apply nth_error_Some; congruence). lia.
  - assert (NI : nth_error l i = Some y). { rewrite <- (Nat.add_0_r i), <- nth_skipn, SK. reflexivity. }
    pose proof (skipn_next _ _ _ _ SK) as SK'.
    assert (RX : reach s x) by (eapply args_reach; eauto). assert (RK : reach s k) by (eapply args_reach; eauto).
    assert (RY : reach s y). { unfold data_at in DX. destruct (lookup (all s) x) as [cx|] eqn:LX; [|discriminate]. injection DX as DX. eapply re_step; [exact RX|exact LX|]. apply refers_iff. right. rewrite DX. now apply nth_error_In in NI. }
    apply (wp_eq _ (b <- heap_op (fun h => vequal n h y k) ;; ((if (b : bool) then q <- alloc (DInt (wrap32 (Z.of_nat i))) ;; vec_push r q else ret tt) ;;; (find_elements n r k (S i) t ;;; pop r ;;; ret r)))).
    { rewrite bind_assoc. apply bind_ext2. intros b s3. exact (bind_assoc _ _ _ _). }
    apply wp_bind, wp_heap; [discriminate|]. intros b EB. unfold vequal in EB. destruct (vcompare n (all s2) y k) as [z| | | | |] eqn:EC; try discriminate. cbn [obind] in EB. injection EB as <-. rewrite (same_now s2 [r] y k n H RY RK) in EC.
    assert (SM : (z =? 0)%Z = true <-> same s y k). { split; [intros ->%Z.eqb_eq; now exists n|]. intros (n' & E'). rewrite (vcompare_det _ _ _ _ _ _ _ EC E'). reflexivity. }
    apply wp_bind. destruct (z =? 0)%Z eqn:EZ.
    + apply wp_bind. eapply q_alloc; [exact H|easy|]. intros q s3 H3 A3 (Q1 & Q2) QN NP.
      assert (RR : reach s2 r) by (apply re_root; rewrite (a_stack _ _ _ _ _ _ _ H); now left). assert (RL : r < nextId s2) by (eapply (reach_lt true); [apply H|exact RR]).
      assert (DR3 : data_at s3 r = Some (DVec ws)) by (rewrite <- D; eapply q_data; [exact A3|exact RR]).
      assert (CR : exists cr, lookup (all s2) r = Some cr /\ cdata cr = DVec ws) by (unfold data_at in D; destruct (lookup (all s2) r) as [cr|]; [|discriminate]; exists cr; split; [reflexivity|now injection D]). destruct CR as (cr & LR & ER).
      assert (F3 : Forall2 (fun w i => nextId s1 <= w /\ w <> r /\ data_at s3 w = Some (DInt (wrap32 (Z.of_nat i)))) ws ps).
      { assert (FW : forall w, In w ws -> data_at s3 w = data_at s2 w) by (intros w J; eapply q_data; [exact A3|]; eapply re_step; [exact RR|exact LR|]; apply refers_iff; right; now rewrite ER).
        clear - F FW. induction F as [|w i ws ps (W1 & W2 & W3) F IH]; constructor; [rewrite FW by (now left); auto|]. apply IH. intros v J. apply FW. now right. }
      eapply (r_vec_push true true [a] s1 r q [r]); [exact H3|has|exact MR|apply (a_good _ _ _ _ _ _ _ H3); reflexivity|].
      intros s5 H5 O5 V5. apply (IH (S i) (ps ++ [i]) (ws ++ [q])).
      * exact SK'.
      * eapply at_weaken; [exact H5|easy].
      * assert (L3 : lookup (all s3) r = Some cr) by (rewrite (a_same _ _ _ _ _ _ _ A3); auto). destruct (V5 cr ws L3 ER) as (c' & L5 & E5). unfold data_at. rewrite L5. cbn. now rewrite E5.
      * assert (O6 : forall w, w <> r -> data_at s5 w = data_at s3 w) by (intros w N; unfold data_at; now rewrite O5). apply Forall2_app.
        -- eapply forall2_impl; [|exact F3]. intros w j (W1 & W2 & W3). rewrite O6 by exact W2. auto.
        -- constructor; [|constructor]. split; [exact Q1|]. assert (q <> r) by lia. rewrite O6 by assumption. auto.
      * apply sorted_snoc; [exact SO|]. intros j J. now apply I.
      * intros j. rewrite in_app_iff, I. split.
        -- intros [(J1 & J2)|[<-|[]]]; [split; [lia|exact J2]|]. split; [lia|]. exists y. split; [exact NI|now apply SM].
        -- intros (J1 & J2). destruct (Nat.eq_dec j i) as [->|NJ]; [right; now left|left; split; [lia|exact J2]].
    + apply wp_ret. apply (IH (S i) ps ws s2 SK' H D F SO). intros j. rewrite I. split.
      * intros (J1 & J2). split; [lia|exact J2].
      * intros (J1 & J2). destruct (Nat.eq_dec j i) as [->|NJ]; [|split; [lia|exact J2]]. destruct J2 as (y' & NY & SY). rewrite NI in NY. injection NY as <-. apply SM in SY. discriminate.
Qed.
Lemma find_from_shape : wp (find_from n x k) (fun r s' => from s1 s' r) s1.
Proof.
  assert (A1 : Inv [a] s1) by apply H0. pose proof (a_next _ _ _ _ _ _ _ H0) as NX. pose proof (at_start true true [a] s1 A1) as H.
  assert (RX : reach s x) by (eapply args_reach; eauto). assert (RK : reach s k) by (eapply args_reach; eauto).
  unfold find_from. apply wp_bind. eapply args_get; [exact A|exact L|exact E|exact H0|exact IX|]. intros d D. apply wp_bind. eapply args_get; [exact A|exact L|exact E|exact H0|exact IK|]. intros e DE.
  assert (TX : forall t pat o none, d = DStr t \/ d = DSym t -> pattern e pat -> (pat <> [] -> o = Some (positions_of 0 t pat)) -> (pat = [] -> o = None /\ wp none (fun r s' => from s1 s' r) s1) -> wp (ints_or o none) (fun r s' => from s1 s' r) s1).
  { intros t pat o none DT PT K1 K2. destruct pat as [|p q] eqn:EP; [destruct (K2 eq_refl) as (-> & W); exact W|]. rewrite <- EP in *. rewrite (K1 ltac:(rewrite EP; discriminate)). cbn [ints_or]. apply ints_shape; [exact A1|].
    intros r s2 M. exists d, e. split; [exact D|]. split; [exact DE|]. assert (NE : pat <> []) by (rewrite EP; discriminate). destruct DT as [-> | ->]; left; exists pat; split; auto; split; auto; eexists; (split; [apply positions_all; exact NE|exact M]). }
  assert (FS : forall t pat, pat <> [] -> find_string t pat = Some (positions_of 0 t pat)) by (intros t [|p q] NE; [congruence|reflexivity]).
  assert (IT : forall z, pattern (DInt z) (signed_decimal z)) by (intros z; constructor; apply signed_decimal_text).
  destruct d as [ |db|dz|df|dt|dt|dt|dmsg dline|q|mm|q max|q|db denc|df|df|dp|dp|dv]; try (apply err_shape; [exact A1|]; intros r s2 C; eexists _, e; split; [exact D|]; split; [exact DE|exact C]).
  - destruct e as [ |eb|ez|ef|et|et|et|emsg eline|el|em|el emax|el|eb eenc|ef|ef|ep|ep|ev]; try apply wp_unmodelled;
      try (apply err_shape; [exact A1|]; intros r s2 C; eexists _, _; split; [exact D|]; split; [exact DE|]; right; right; split; [intros F; exact F|split; [intros [F|F]; exact F|exact C]]).
    + eapply TX; [now left|apply IT|intros NE; now apply FS|]. intros ->. split; [reflexivity|apply wp_abort].
    + apply wp_bind, wp_lift; [intros; apply nd_g_text|]. intros u EG. eapply TX; [now left|apply pat_real, g_text_spec; exact EG|intros NE; now apply FS|]. intros ->. split; [reflexivity|apply wp_abort].
    + eapply (TX dt et); [now left|constructor|intros NE; now apply FS|]. intros ->. split; [reflexivity|]. 
      eapply q_alloc; [exact H|intros y []|]. intros r s2 _ _ (M1 & M2) _ _. eapply (sh_ints _ _ _ _ _ _ [] []); [exact M1|exact M2|constructor|]. intros s3 M. eexists _, _. split; [exact D|]. split; [exact DE|]. right. left. auto.
    + destruct et as [|ch et]; [apply wp_abort|]. eapply (TX dt [ch]); [now left|constructor|reflexivity|discriminate].
    + eapply (TX dt et); [now left|constructor|intros NE; now apply FS|]. intros ->. split; [reflexivity|apply wp_abort].
  - destruct e as [ |eb|ez|ef|et|et|et|emsg eline|el|em|el emax|el|eb eenc|ef|ef|ep|ep|ev]; try apply wp_unmodelled;
      try (apply err_shape; [exact A1|]; intros r s2 C; eexists _, _; split; [exact D|]; split; [exact DE|]; right; split; [intros F; exact F|split; [intros [F|F]; exact F|exact C]]).
    + eapply TX; [now right|apply IT|intros NE; now apply FS|]. intros ->. split; [reflexivity|apply wp_abort].
    + apply wp_bind, wp_lift; [intros; apply nd_g_text|]. intros u EG. eapply TX; [now right|apply pat_real, g_text_spec; exact EG|intros NE; now apply FS|]. intros ->. split; [reflexivity|apply wp_abort].
    + eapply (TX dt et); [now right|constructor|intros NE; now apply FS|]. intros ->. split; [reflexivity|apply wp_abort].
    + destruct et as [|ch et]; [apply wp_abort|]. eapply (TX dt [ch]); [now right|constructor|reflexivity|discriminate].
    + eapply (TX dt et); [now right|constructor|intros NE; now apply FS|]. intros ->. split; [reflexivity|apply wp_abort].
  - apply wp_bind. eapply q_alloc; [exact H|intros y []|]. clear H. intros r s2 H _ M _ NP. apply wp_bind. eapply q_push_all; [exact H|has|]. clear H. intros s3 H E3.
    eapply (elements_shape r q e D DE) with (i := 0%nat) (ps := []) (ws := []); [destruct M as (M & _); split; auto|reflexivity|eapply at_weaken; [exact H|easy]|destruct M as (_ & M); rewrite <- M; apply data_same; congruence|constructor|constructor|].
    intros j. split; [easy|intros (F & _); lia].
  - apply wp_bind. unfold hash_of. apply wp_heap; [discriminate|]. intros hk EH. apply wp_bind. unfold vmap_find. apply wp_heap; [discriminate|]. intros o EO.
    assert (KEY : forall b f, In f (nth b (buckets mm) []) -> In f (List.concat (buckets mm))).
    { intros b f J. destruct (Nat.lt_ge_cases b (List.length (buckets mm))) as [LT|GE]; [|rewrite nth_overflow in J by exact GE; destruct J]. apply in_concat. eexists. split; [apply nth_In; exact LT|exact J]. }
    assert (RM : forall f, In f (List.concat (buckets mm)) -> reach s (ekey f) /\ forall v, In v (evals f) -> reach s v).
    { intros f J. unfold data_at in D. destruct (lookup (all s) x) as [cx|] eqn:LX; [|discriminate]. injection D as D. split; [|intros v JV]; (eapply re_step; [exact RX|exact LX|]; apply refers_iff; right; rewrite D; exists f; auto). }
    assert (CL : forall f m0, In f (List.concat (buckets mm)) -> vcompare m0 (all s1) k (ekey f) = vcompare m0 (all s) k (ekey f)).
    { intros f m0 J. apply vcompare_local; eapply kept_stack; try exact H0; [exact RK|now apply RM]. }
    destruct o as [f|].
    + destruct (find_equal _ _ _ EO) as (J & C0). apply KEY in J. apply wp_lift; [intros; apply nd_single|]. intros v EV.
      assert (VV : evals f = [v]) by (unfold single in EV; destruct (evals f) as [|? [|]]; congruence).
      apply sh_old; [eapply (reach_lt true); [exact A|]; apply (RM f J); rewrite VV; now left|]. intros s2. eexists _, e. split; [exact D|]. split; [exact DE|]. left. exists f. split; [|exact VV]. split; [exact J|]. exists n. now rewrite <- CL.
    + unfold value_nil. eapply q_const; [exact H|intros y []|]. intros r s2 _ _ (M1 & M2) _. eapply sh_leaf; [exact M1|exact M2|]. intros s3 M. eexists _, e. split; [exact D|]. split; [exact DE|]. right. split; [|exact M].
      exists n, hk. split; [rewrite <- EH; unfold vhash; rewrite (kept_stack _ _ _ _ _ _ H0 RK k (reach_here _ _)); reflexivity|].
      intros f J. destruct (find_all_differ _ _ EO f J) as (z & EZ & NZ). exists z. split; [|exact NZ]. rewrite <- CL; [exact EZ|]. now apply KEY in J.
  - destruct e as [ |eb|ez|ef|et|et|et|emsg eline|el|em|el emax|el|eb eenc|ef|ef|ep|ep|ev]; try apply wp_unmodelled.
    apply wp_bind. unfold env_get. apply wp_heap; [discriminate|]. intros o EO. apply EnvProofs.env_find_sound in EO. pose proof (kept_stack _ _ _ _ _ _ H0 RX) as KX. destruct o as [v|].
    + apply wp_ret. pose proof (denotes_local _ _ _ _ _ EO KX) as DV. apply sh_old; [eapply (reach_lt true); [exact A|]; eapply reach_roots; [exact RX|now apply denotes_reach in DV]|]. intros s2. eexists _, _. split; [exact D|]. split; [exact DE|]. exists et. auto.
    + pose proof (unbound_local _ _ _ _ EO KX) as DV. unfold value_nil. eapply q_const; [exact H|intros y []|]. intros r s2 _ _ (M1 & M2) _. eapply sh_leaf; [exact M1|exact M2|]. intros s3 M. eexists _, _. split; [exact D|]. split; [exact DE|]. exists et. auto.
Qed.
End Find.

(** ** Several keys *)
Section FindAll.
Context (a env : ref) (s : vm) (c : cell) (xs : list ref) (A : Inv [a] s) (L : lookup (all s) a = Some c) (E : cdata c = DVec xs) (n : nat).
Context (x : ref) (IX : In x xs).
Lemma find_loop r pre : mine true [a] s r -> In r pre -> forall l done ws s1, incl l xs -> At true [a] s pre (fun _ => False) s1 -> data_at s1 r = Some (DVec ws) ->
  Forall2 (fun k w => shape (fun z => nextId s <= z /\ z <> r) s x k s1 w) done ws ->
  wp (iterM (fun k => v <- find_from n x k ;; vec_push r v) l) (fun _ s' => exists ws', At true [a] s pre (fun _ => False) s' /\ data_at s' r = Some (DVec ws') /\
    Forall2 (fun k w => shape (fun z => nextId s <= z /\ z <> r) s x k s' w) (done ++ l) ws') s1.
Proof.
  intros MR IR. induction l as [|k l IH]; intros done ws s1 IL H D F; cbn [iterM].
  - apply wp_ret. exists ws. rewrite app_nil_r. auto.
  - assert (RX : reach s1 x) by (eapply at_reach; [exact H|reflexivity|eapply args_reach; eauto]). assert (RK : reach s1 k) by (eapply at_reach; [exact H|reflexivity|eapply args_reach; eauto; apply IL; now left]).
    assert (RR : reach s1 r) by (apply re_root; rewrite (a_stack _ _ _ _ _ _ _ H); apply in_or_app; auto). assert (RL : r < nextId s1) by (eapply (reach_lt true); [apply H|exact RR]).
    pose proof (a_next _ _ _ _ _ _ _ H) as NX.
    apply wp_bind, wp_bind. eapply wp_mono; [apply wp_and; [apply (find_from_ok true n [a] s1 x k); [apply H|exact RX|exact RK]|apply (find_from_shape a s c xs A L E n x k IX (IL k (or_introl eq_refl)) s1 pre _ H)]|].
    intros v s2 (A2 & SH). assert (H2 : At true [a] s pre (eq v) s2) by (eapply (at_call true); [exact H|exact A2|auto]).
    assert (CR : exists cr, lookup (all s1) r = Some cr /\ cdata cr = DVec ws) by (unfold data_at in D; destruct (lookup (all s1) r) as [cr|]; [|discriminate]; exists cr; split; [reflexivity|now injection D]). destruct CR as (cr & LR & ER).
    assert (RW : forall w, In w ws -> reach s1 w) by (intros w J; eapply re_step; [exact RR|exact LR|]; apply refers_iff; right; now rewrite ER).
    assert (F2 : Forall2 (fun k w => shape (fun z => nextId s <= z /\ z <> r) s x k s2 w) done ws).
    { clear - F A2 RW. induction F as [|k w done ws SW F IH]; constructor; [|apply IH; intros v' J; apply RW; now right]. assert (RW0 : reach s1 w) by (apply RW; now left).
      eapply shape_kept; [exact SW|auto|intros _; eapply q_data; eauto|]. intros l z _ DW J _. eapply q_data; [exact A2|]. unfold data_at in DW. destruct (lookup (all s1) w) as [cw|] eqn:LW; [|discriminate]. injection DW as DW.
      eapply re_step; [exact RW0|exact LW|]. apply refers_iff. right. now rewrite DW. }
    eapply (r_vec_push true true [a] s r v pre); [exact H2|right; left; exact IR|exact MR|apply (a_good _ _ _ _ _ _ _ H2); reflexivity|].
    intros s5 H5 O5 V5. assert (O6 : forall w, w <> r -> data_at s5 w = data_at s2 w) by (intros w N; unfold data_at; now rewrite O5).
    eapply wp_mono; [apply (IH (done ++ [k]) (ws ++ [v]) s5)|].
    + intros z J. apply IL. now right.
    + eapply at_weaken; [exact H5|easy].
    + assert (L3 : lookup (all s2) r = Some cr) by (rewrite (a_same _ _ _ _ _ _ _ A2); auto). destruct (V5 cr ws L3 ER) as (c' & L5 & E5). unfold data_at. rewrite L5. cbn. now rewrite E5.
    + apply Forall2_app.
      * eapply forall2_impl; [|exact F2]. intros k0 w SW. eapply shape_kept; [exact SW|auto| |]; [intros (_ & N); now apply O6|intros l0 z _ _ _ (_ & N); now apply O6].
      * constructor; [|constructor]. eapply shape_kept; [exact SH| | |]; [intros z N; cbv beta in N; split; lia|intros N; cbv beta in N; apply O6; lia|intros l0 z _ _ _ N; cbv beta in N; apply O6; lia].
    + intros u s6 K. rewrite <- app_assoc in K. exact K.
Qed.
End FindAll.
Lemma find_reader : reader BiFind find_result.
Proof.
  apply reader_intro; [easy|]. intros n m a env xs s c A IE L E. cbn [builtin_call]. unfold b_find. pose proof (args_start a s A) as H.
  apply wp_bind. eapply q_push_all; [exact H|right; right; left; apply (i_priv _ _ _ A); now left|]. clear H. intros s1 H E1.
  apply wp_bind. eapply q_push_all; [exact H|right; right; left; exact IE|]. clear H. intros s2 H E2.
  apply wp_bind. eapply args_vec; [exact L|exact E|exact H|]. unfold find_result.
  assert (ER : wp (pop env ;;; pop a ;;; new_error) (fun r s' => complains s s' r) s2).
  { apply wp_bind. eapply at_pop; [exact H|]. clear H. intros s3 H _. apply wp_bind. eapply at_pop; [exact H|]. clear H. intros s4 H _. eapply q_error; [exact H|auto]. }
  pose proof (a_next _ _ _ _ _ _ _ H) as NX.
  destruct xs as [|x [|k [|k2 t]]]; try exact ER; clear ER.
  - assert (IX : In x [x; k]) by (now left). assert (IK : In k [x; k]) by (now right; left).
    assert (RX : reach s2 x) by (eapply at_reach; [exact H|reflexivity|eapply args_reach; eauto]). assert (RK : reach s2 k) by (eapply at_reach; [exact H|reflexivity|eapply args_reach; eauto]).
    apply wp_bind. eapply wp_mono; [apply wp_and; [apply (find_from_ok true n [a] s2 x k); [apply H|exact RX|exact RK]|apply (find_from_shape a s c [x; k] A L E n x k IX IK s2 _ _ H)]|].
    intros r s3 (A3 & SH). assert (H3 : At true [a] s [env; a] (eq r) s3) by (eapply (at_call true); [exact H|exact A3|auto]).
    apply wp_bind. eapply at_pop; [exact H3|]. intros s4 H4 E4. apply wp_bind. eapply at_pop; [exact H4|]. intros s5 H5 E5. apply wp_ret.
    apply (shape_found (fun z => nextId s2 <= z)); [|intros z N; cbv beta in N; lia]. eapply shape_kept; [exact SH|auto| |]; intros; apply data_same; congruence.
  - apply wp_bind. eapply q_alloc; [exact H|intros y []|]. clear H. intros r s3 H _ (M & DM) RN NP.
    apply wp_bind. eapply q_push_all; [exact H|has|]. clear H. intros s4 H E4.
    apply wp_bind. eapply wp_mono; [eapply (find_loop a s c (x :: k :: k2 :: t) A L E n x (or_introl eq_refl) r [r; env; a]) with (done := []) (ws := [])|].
    + split; auto.
    + now left.
    + intros z J. now right.
    + eapply at_weaken; [exact H|easy].
    + rewrite <- DM. apply data_same. congruence.
    + constructor.
    + cbn [app]. intros u s5 (ws & H5 & D5 & F). apply wp_bind. eapply at_pop; [exact H5|]. intros s6 H6 E6. apply wp_bind. eapply at_pop; [exact H6|]. intros s7 H7 E7. apply wp_bind. eapply at_pop; [exact H7|]. intros s8 H8 E8. apply wp_ret.
      assert (DS : forall z, data_at s8 z = data_at s5 z) by (intros z; apply data_same; congruence).
      exists ws. split; [split; [exact M|now rewrite DS]|]. eapply forall2_impl; [|exact F]. intros k' w SH. eapply shape_found with (ok := fun z => nextId s <= z /\ z <> r); [|intros z N; apply N].
      eapply shape_kept; [exact SH|auto| |]; intros; apply DS.
Qed.
