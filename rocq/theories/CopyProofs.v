(** Proofs about SpecCopy.v. *)
From Coq Require Import NArith ZArith Bool Lia Arith List Permutation.
From Coq Require Import ZifyBool ZifyNat ZifyN.
From Verif Require Import Base OString HMap HMapProofs Heap SpecHeap GcProofs VmProofs ValueOps Env Copy Builtins SafeBase SafeRead SafeLib SafeBuiltins SpecTrace TraceProofs SpecCopy.
Import ListNotations.
Local Open Scope N_scope.

Scheme copied_ind1 := Minimality for copied Sort Prop
  with copied_ind2 := Minimality for copied_data Sort Prop
  with copied_ind3 := Minimality for copied_doc Sort Prop
  with copied_ind4 := Minimality for copied_all Sort Prop
  with copied_ind5 := Minimality for copied_pairs Sort Prop.
Combined Scheme copied_mutual from copied_ind1, copied_ind2, copied_ind3, copied_ind4, copied_ind5.

Lemma reach_from h r c y x : lookup h r = Some c -> refers c y -> reachable h [y] x -> reachable h [r] x.
Proof.
  intros L F R. induction R as [x [->|[]]|z c' x R IH L' F']; [|eapply re_step; eauto].
  eapply re_step; [apply re_root; now left|exact L|exact F].
Qed.
Lemma reach_here h r : reachable h [r] r. Proof. apply re_root. now left. Qed.
Lemma reach_roots h roots y x : reachable h roots y -> reachable h [y] x -> reachable h roots x.
Proof. intros A R. induction R as [x [->|[]]|z c' x R IH L' F']; [exact A|eapply re_step; eauto]. Qed.
(** What is reachable from [r] is the same in [k]. *)
Definition kept (h k : heap) (r : ref) : Prop := forall x, reachable h [r] x -> lookup k x = lookup h x.
Lemma kept_child h k r c y : kept h k r -> lookup h r = Some c -> refers c y -> kept h k y.
Proof. intros K L F x R. apply K. eapply reach_from; eauto. Qed.
Lemma kept_reach h k r x : kept h k r -> reachable k [r] x -> reachable h [r] x.
Proof.
  intros K R. induction R as [x [->|[]]|z c x R IH L F]; [apply reach_here|]. eapply re_step; [exact IH| |exact F]. rewrite <- K; auto.
Qed.
Lemma kept_reach' h k r x : kept h k r -> reachable h [r] x -> reachable k [r] x.
Proof.
  intros K R. induction R as [x [->|[]]|z c x R IH L F]; [apply reach_here|]. eapply re_step; [exact IH| |exact F]. rewrite K; auto.
Qed.
Lemma kept_trans h k l r : kept h k r -> kept k l r -> kept h l r.
Proof. intros A B x R. rewrite B; [now apply A|]. now apply (kept_reach' h). Qed.
Lemma kept_stack P s pre G s' r : At true P s pre G s' -> reach s r -> kept (all s) (all s') r.
Proof. intros H R x Rx. apply (a_same _ _ _ _ _ _ _ H). right. split; [reflexivity|]. eapply reach_roots; eauto. Qed.
Lemma kept_sym h k r : kept h k r -> kept k h r.
Proof. intros K x R. symmetry. apply K. now apply (kept_reach h k). Qed.
Lemma kept_update h x c r : ~ reachable h [r] x -> kept h (update h x c) r.
Proof. intros N y R. rewrite lookup_update. destruct (N.eqb_spec x y) as [->|]; [contradiction|reflexivity]. Qed.

Definition eref (es : list (element ref ref)) (y : ref) : Prop := exists e, In e es /\ (y = ekey e \/ In y (evals e)).
Lemma copied_kept h h1 k k1 :
  (forall r w, copied h h1 r w -> kept h k r -> kept h1 k1 w -> copied k k1 r w) /\
  (forall d d', copied_data h h1 d d' -> (forall y, dref d y -> kept h k y) -> (forall y, dref d' y -> kept h1 k1 y) -> copied_data k k1 d d') /\
  (forall d d', copied_doc h h1 d d' -> (forall y, d = Some y -> kept h k y) -> (forall y, d' = Some y -> kept h1 k1 y) -> copied_doc k k1 d d') /\
  (forall l l', copied_all h h1 l l' -> (forall y, In y l -> kept h k y) -> (forall y, In y l' -> kept h1 k1 y) -> copied_all k k1 l l') /\
  (forall l l', copied_pairs h h1 l l' -> (forall y, eref l y -> kept h k y) -> (forall y, eref l' y -> kept h1 k1 y) -> copied_pairs k k1 l l').
Proof.
  apply copied_mutual.
  - intros r c w c' L L' _ ID _ IO K K'. econstructor.
    + rewrite K; [exact L|apply reach_here].
    + rewrite K'; [exact L'|apply reach_here].
    + apply ID; intros y R; eapply kept_child; eauto; apply refers_iff; auto.
    + apply IO; intros y R; eapply kept_child; eauto; apply refers_iff; auto.
  - intros d PL _ _. now apply cd_partless.
  - intros l l' _ IH K K'. apply cd_vec. auto.
  - intros l mx l' _ IH K K'. apply cd_queue. auto.
  - intros l l' _ IH K K'. apply cd_list. auto.
  - intros m m' es _ IH PM K K'. apply (cd_map _ _ m m' es); [|exact PM]. apply IH; [exact K|].
    intros y (e & I & R). apply K'. exists e. split; [eapply Permutation_in; eauto|exact R].
  - intros _ _. constructor.
  - intros d d' _ IH K K'. constructor. auto.
  - intros _ _. constructor.
  - intros r l w l' _ IH _ IHl K K'. constructor; [apply IH|apply IHl]; cbn in *; auto.
  - intros _ _. constructor.
  - intros e v l e' v' l' E E' _ IK _ IV _ IL K K'.
    econstructor; [exact E|exact E'|apply IK; [apply K|apply K']|apply IV; [apply K|apply K']|apply IL; intros y (z & I & R); [apply K|apply K']; exists z; cbn; auto].
    + exists e. cbn. auto.
    + exists e'. cbn. auto.
    + exists e. rewrite E. cbn. auto.
    + exists e'. rewrite E'. cbn. auto.
Qed.
Lemma copied_app h h' l1 l1' l2 l2' : copied_all h h' l1 l1' -> copied_all h h' l2 l2' -> copied_all h h' (l1 ++ l2) (l1' ++ l2').
Proof. intros A B. induction A; cbn; [exact B|constructor; auto]. Qed.
Lemma copied_pairs_app h h' l1 l1' l2 l2' : copied_pairs h h' l1 l1' -> copied_pairs h h' l2 l2' -> copied_pairs h h' (l1 ++ l2) (l1' ++ l2').
Proof. intros A B. induction A; cbn; [exact B|econstructor; eauto]. Qed.

(** ** A new key of a hash map *)
Lemma map_put_perm m hk (k v : ref) m' : (0 < length (buckets m))%nat -> map_put (fun _ _ => false) m hk k v = Ret m' ->
  Permutation (concat (buckets m')) (mkElem hk k [v] :: concat (buckets m)) /\ (0 < length (buckets m'))%nat.
Proof.
  intros L. unfold map_put. destruct (map_get (fun _ _ : ref => false) m hk k) eqn:EG.
  { exfalso. unfold map_get in EG. revert EG. generalize (nth (bucket_index hk (length (buckets m))) (buckets m) []). clear. induction l; cbn; congruence. }
  clear EG. set (i := bucket_index hk (length (buckets m))).
  assert (Hi : (i < length (buckets m))%nat) by (now apply bucket_index_lt).
  destruct (bucket_split (buckets m) i Hi) as (bp & bq & Ebs & Lp & Hset). rewrite Hset. set (b := nth i (buckets m) []) in *.
  set (m1 := mkMap _ _ _).
  assert (Hperm1 : Permutation (concat (buckets m1)) (mkElem hk k [v] :: concat (buckets m))).
  { cbn [m1 buckets]. rewrite Ebs, !concat_mid, <- app_assoc. cbn [app]. rewrite !app_assoc. symmetry. apply Permutation_middle. }
  assert (L1 : length (buckets m1) = length (buckets m)) by (cbn [m1 buckets]; rewrite Ebs, !app_length; reflexivity).
  destruct (Nat.leb (3 * length (buckets m1)) (4 * inUse m1)).
  - unfold map_rehash. set (m0 := mkMap (repeat [] (2 * length (buckets m1))) 0 0).
    assert (L0 : length (buckets m0) = (2 * length (buckets m1))%nat) by (cbn [m0 buckets]; apply repeat_length).
    assert (Hplr : placed (buckets m0)) by apply placed_repeat.
    destruct (rehash_fold_ok (concat (buckets m1)) m0) as (R1 & R2 & R3 & R4 & R5); [lia|exact Hplr|]. cbn zeta in *. set (m2 := fold_left rehash_insert (concat (buckets m1)) m0) in *. clearbody m2.
    match goal with |- context [Nat.ltb ?a ?b] => destruct (Nat.ltb a b); [|discriminate] end. intros [= <-].
    split; [|lia]. rewrite R3. cbn [m0 buckets]. rewrite concat_repeat_nil, app_nil_r. exact Hperm1.
  - intros [= <-]. split; [exact Hperm1|rewrite L1; exact L].
Qed.

(** ** Atoms compare by what they hold *)
Lemma vcompare_atoms h k a b a' b' ca cb ca' cb' n n' : lookup h a = Some ca -> lookup h b = Some cb -> lookup k a' = Some ca' -> lookup k b' = Some cb' ->
  cdata ca' = cdata ca -> cdata cb' = cdata cb -> is_atom h a -> is_atom h b -> a <> b -> a' <> b' ->
  vcompare (S n) h a b = vcompare (S n') k a' b'.
Proof.
  intros L1 L2 L3 L4 E1 E2 (c1 & A1 & A2) (c2 & B1 & B2) N1 N2. rewrite L1 in A1. injection A1 as <-. rewrite L2 in B1. injection B1 as <-.
  cbn [vcompare]. destruct (N.eqb_spec a b); [contradiction|]. destruct (N.eqb_spec a' b'); [contradiction|]. rewrite L1, L2, L3, L4, E1, E2.
  destruct (cdata ca); try contradiction; destruct (cdata cb); try contradiction; reflexivity.
Qed.
Lemma plain_keys_kept h k m : (forall e, In e (concat (buckets m)) -> lookup k (ekey e) = lookup h (ekey e)) -> plain_keys h m -> plain_keys k m.
Proof.
  intros K (A & B). split.
  - intros e I. destruct (A e I) as (c & L & C). exists c. now rewrite K.
  - revert A B K. induction (concat (buckets m)) as [|e l IH]; intros A B K; [constructor|]. inversion B as [|? ? B1 B2]; subst. constructor.
    + rewrite Forall_forall in *. intros e' I n V. destruct n; [discriminate|].
      destruct (A e (or_introl eq_refl)) as (c & L & C). destruct (A e' (or_intror I)) as (c' & L' & C').
      destruct (N.eq_dec (ekey e') (ekey e)) as [Q|Q]; [apply (B1 e' I 1%nat); rewrite Q; cbn; now rewrite N.eqb_refl|].
      apply (B1 e' I 1%nat). rewrite <- V. apply (vcompare_atoms h k _ _ _ _ c' c c' c 0 n); auto; try (rewrite K; cbn; auto); [exists c'; auto|exists c; auto].
    + apply IH; auto; intros; [apply A|apply K]; now right.
Qed.
Lemma plain_maps_kept h k r : kept h k r -> plain_maps h r -> plain_maps k r.
Proof.
  intros K PM x c m R L E. assert (R' : reachable h [r] x) by (now apply (kept_reach h k)). assert (L' : lookup h x = Some c) by (now rewrite <- K).
  apply (plain_keys_kept h); [|eapply PM; eauto]. intros e I. apply K. eapply re_step; [exact R'|exact L'|]. apply refers_iff. right. rewrite E. exists e. auto.
Qed.
Lemma plain_maps_child h r c y : plain_maps h r -> lookup h r = Some c -> refers c y -> plain_maps h y.
Proof. intros PM L F x c' m R. apply PM. eapply reach_from; eauto. Qed.
Lemma reach_inv h r c x : lookup h r = Some c -> reachable h [r] x -> x = r \/ exists y, refers c y /\ reachable h [y] x.
Proof.
  intros L R. induction R as [x [->|[]]|z c' x R IH L' F]; [auto|]. right. destruct IH as [->|(y & F' & R')].
  - rewrite L in L'. injection L' as <-. exists x. split; [exact F|apply reach_here].
  - exists y. split; [exact F'|]. eapply re_step; eauto.
Qed.
Lemma reach_inv_none h r x : lookup h r = None -> reachable h [r] x -> x = r.
Proof. intros L R. induction R as [x [->|[]]|z c' x R IH L' F]; [auto|]. subst. congruence. Qed.

(** ** Copying *)
Lemma put_eq s x c d : lookup (all s) x = Some c -> put x d s = Ret (tt, with_all s (update (all s) x (mkCell d (cdoc c) (cdocvec c) (cmark c) (caddr c)))).
Proof. intros L. unfold put, bind, get_cell. rewrite L. cbn. unfold put_cell. now rewrite L. Qed.
Lemma set_docs_eq s x c d dv : lookup (all s) x = Some c -> set_docs x d dv s = Ret (tt, with_all s (update (all s) x (mkCell (cdata c) d dv (cmark c) (caddr c)))).
Proof. intros L. unfold set_docs, bind, get_cell. rewrite L. cbn. unfold put_cell. now rewrite L. Qed.
Lemma wp_is {X} (m : M X) x s1 (Q : X -> vm -> Prop) s : m s = Ret (x, s1) -> Q x s1 -> wp m Q s.
Proof. unfold SafeBase.wp. now intros ->. Qed.

Lemma at_push P s0 r pre G (Q : unit -> vm -> Prop) s : At true P s0 pre G s -> SafeBase.has true s0 pre G r ->
  (forall s', At true P s0 (r :: pre) G s' -> all s' = all s -> stack s' = r :: stack s -> nextId s' = nextId s -> Q tt s') -> wp (push r) Q s.
Proof.
  intros A R K. assert (W : At true P s0 (r :: pre) G (with_stack s (r :: stack s))).
  { exact (r_push true true P s0 r pre G (fun _ s' => At true P s0 (r :: pre) G s') s A R (fun s' H' => H')). }
  unfold SafeBase.wp, push. apply K; auto.
Qed.
Lemma at_pop P s0 r pre G (Q : unit -> vm -> Prop) s : At true P s0 (r :: pre) G s ->
  (forall s', At true P s0 pre (fun x => (x = r /\ ~ In r P) \/ G x) s' -> all s' = all s -> Q tt s') -> wp (pop r) Q s.
Proof.
  intros A K. pose proof (r_pop true true P s0 r pre G (fun _ s' => At true P s0 pre (fun x => (x = r /\ ~ In r P) \/ G x) s') s A (fun s' H' => H')) as W.
  unfold SafeBase.wp, pop in *. destruct (stack s) as [|x st]; [exact W|]. destruct (x =? r); [|exact W]. apply K; [exact W|reflexivity].
Qed.
Definition has_buckets (d : data) : Prop := match d with DMap m => (0 < length (buckets m))%nat | _ => True end.
Definition copy_result (P : list ref) (s : vm) (r x : ref) (s' : vm) : Prop :=
  At true P s [] (eq x) s' /\ nextId s <= x /\ copied (all s) (all s') r x /\ (forall y, reachable (all s') [x] y -> nextId s <= y) /\
  (exists c, lookup (all s') x = Some c /\ (forall y z, refers c y -> reachable (all s') [y] z -> x < z) /\ has_buckets (cdata c)).

Section CopyStep.
Context (f : nat) (IH : forall P s r, Inv P s -> reach s r -> plain_maps (all s) r -> wp (copy f r) (copy_result P s r) s).
Context (P : list ref) (s : vm).

(** Copying a part, in the middle of copying. *)
Lemma copy_part y pre G (Q : ref -> vm -> Prop) s3 : At true P s pre G s3 -> reach s y -> plain_maps (all s) y ->
  (forall y' s4, At true P s pre (eq y') s4 -> (forall x, In x (stack s3) -> kept (all s3) (all s4) x) -> copied (all s) (all s4) y y' ->
     (forall z, reachable (all s4) [y'] z -> nextId s3 <= z) -> Q y' s4) -> wp (copy f y) Q s3.
Proof.
  intros H RY PM K. pose proof (kept_stack _ _ _ _ _ _ H RY) as KY.
  eapply wp_mono; [apply (IH P s3 y); [apply H|eapply at_reach; eauto|eapply plain_maps_kept; eauto]|].
  intros y' s4 (A & NX & C & FR & _). apply K.
  - exact (at_call true true true P s pre G s3 _ s4 H A (fun e => e)).
  - intros x IX. eapply kept_stack; [exact A|]. now apply re_root.
  - destruct (copied_kept (all s3) (all s4) (all s) (all s4)) as (T & _). apply T; [exact C|now apply kept_sym|easy].
  - exact FR.
Qed.
Lemma stack_lt pre G s3 x : At true P s pre G s3 -> In x (stack s3) -> x < nextId s3.
Proof using. clear IH. intros H I. now apply (i_stack _ _ _ (a_inv _ _ _ _ _ _ _ H)). Qed.

(** The value under construction. *)
Definition building (x : ref) (d : data) (doc : option ref) (s3 : vm) : Prop :=
  exists cx, lookup (all s3) x = Some cx /\ cdata cx = d /\ cdoc cx = doc /\ (forall y z, refers cx y -> reachable (all s3) [y] z -> x < z).
Lemma building_kept x d doc s3 s4 : building x d doc s3 -> kept (all s3) (all s4) x -> building x d doc s4.
Proof using. clear IH.
  intros (cx & L & E & O & F) K. exists cx. split; [rewrite K; [exact L|apply reach_here]|]. split; [exact E|]. split; [exact O|].
  intros y z R RZ. apply (F y z R). eapply kept_reach; [|exact RZ]. eapply kept_child; eauto.
Qed.
Lemma building_ref x d doc s3 y : building x d doc s3 -> dref d y \/ doc = Some y -> (forall z, reachable (all s3) [y] z -> x < z) /\ exists cx, lookup (all s3) x = Some cx /\ refers cx y.
Proof using. clear IH. intros (cx & L & <- & <- & F) R. assert (RF : refers cx y) by (apply refers_iff; tauto). split; [eauto|]. exists cx. auto. Qed.
Lemma beyond_kept x y (h : heap) c : (forall z, reachable h [y] z -> x < z) -> kept h (update h x c) y.
Proof using. clear IH. intros F. apply kept_update. intros R. apply F in R. lia. Qed.
Lemma building_all x d doc s3 s4 l l' : building x d doc s3 -> kept (all s3) (all s4) x -> (forall y, In y l' -> dref d y) ->
  copied_all (all s) (all s3) l l' -> copied_all (all s) (all s4) l l'.
Proof using. clear IH.
  intros B K I C. destruct (copied_kept (all s) (all s3) (all s) (all s4)) as (_ & _ & _ & T & _). apply T; [exact C|easy|].
  intros y J. destruct (building_ref _ _ _ _ y B (or_introl (I y J))) as (_ & cx & L & R). eapply kept_child; eauto.
Qed.

(** One element more. *)
Definition is_seq (ps : ref -> ref -> M unit) (mk : list ref -> data) : Prop :=
  (forall l y, dref (mk l) y <-> In y l) /\
  forall x c l y s, lookup (all s) x = Some c -> cdata c = mk l -> ps x y s = put x (mk (l ++ [y])) s.
Lemma is_seq_vec : is_seq seq_push DVec.
Proof using. clear IH. split; [easy|]. intros x c l y s0 L E. unfold seq_push, get, bind, get_cell at 1. rewrite L. cbn. now rewrite E. Qed.
Lemma is_seq_push : is_seq vec_push DVec.
Proof using. clear IH. split; [easy|]. intros x c l y s0 L E. unfold vec_push, get, bind, get_cell at 1. rewrite L. cbn. now rewrite E. Qed.
Lemma is_seq_list : is_seq seq_push DList.
Proof using. clear IH. split; [easy|]. intros x c l y s0 L E. unfold seq_push, get, bind, get_cell at 1. rewrite L. cbn. now rewrite E. Qed.
Lemma is_seq_queue : is_seq seq_push (fun l => DQueue l None).
Proof using. clear IH. split; [easy|]. intros x c l y s0 L E. unfold seq_push, get, bind, get_cell at 1. rewrite L. cbn. rewrite E. reflexivity. Qed.

Lemma building_doc x d doc od s3 s4 : building x d doc s3 -> kept (all s3) (all s4) x -> copied_doc (all s) (all s3) od doc -> copied_doc (all s) (all s4) od doc.
Proof using. clear IH.
  intros B K C. destruct (copied_kept (all s) (all s3) (all s) (all s4)) as (_ & _ & T & _). apply T; [exact C|easy|].
  intros y J. destruct (building_ref _ _ _ _ y B (or_intror J)) as (_ & cx & L & R). eapply kept_child; eauto.
Qed.
(** [od] is the documentation whose copy the value already has. *)
Definition seq_so_far (mk : list ref -> data) (x : ref) (od : option ref) (done : list ref) (s3 : vm) : Prop :=
  At true P s [x] (fun _ => False) s3 /\ exists l' doc, building x (mk l') doc s3 /\ copied_all (all s) (all s3) done l' /\ copied_doc (all s) (all s3) od doc.
Lemma copy_seq ps mk x od : is_seq ps mk -> nextId s <= x -> ~ In x P -> forall l done s3,
  (forall y, In y l -> reach s y /\ plain_maps (all s) y) -> seq_so_far mk x od done s3 ->
  wp (iterM (fun y => y' <- copy f y ;; ps x y') l) (fun _ s' => seq_so_far mk x od (done ++ l) s') s3.
Proof.
  intros (MD & MP) OX NX. induction l as [|y l IHl]; intros done s3 PL (H & l' & doc & B & C & CO); cbn [iterM].
  - apply wp_ret. rewrite app_nil_r. split; [exact H|eauto 6].
  - destruct (PL y (or_introl eq_refl)) as (RY & PY). apply wp_bind.
    apply (wp_mono true _ (fun _ s' => seq_so_far mk x od (done ++ [y]) s')).
    2:{ intros _ s4 S4. rewrite (app_assoc done [y] l : done ++ y :: l = _). apply IHl; [intros; apply PL; now right|exact S4]. }
    assert (IX : In x (stack s3)) by (rewrite (a_stack _ _ _ _ _ _ _ H); now left). pose proof (stack_lt _ _ _ _ H IX) as LX.
    apply wp_bind. apply (copy_part y [x] _ _ s3 H); [exact RY|exact PY|].
    intros y' s4 H4 K4 CY FY. specialize (K4 x IX). assert (FY' : forall z, reachable (all s4) [y'] z -> x < z) by (intros z R; apply FY in R; lia). clear FY. rename FY' into FY. pose proof (building_kept _ _ _ _ _ B K4) as B4. pose proof B4 as (cx & L & E & O & F).
    assert (GY : good P s4 y') by (apply (a_good _ _ _ _ _ _ _ H4); reflexivity).
    pose proof (building_all _ _ _ _ _ done l' B K4 (fun y J => proj2 (MD l' y) J) C) as C4.
    pose proof (building_doc _ _ _ _ _ _ B K4 CO) as CO4.
    assert (W : wp (put x (mk (l' ++ [y']))) (fun _ s' => At true P s [x] (fun _ => False) s') s4).
    { eapply (r_put true true P s x _ [x] _ _ s4 H4); [has|split; auto| |discriminate|discriminate|].
      - intros z J. apply MD in J. apply in_app_or in J as [J|[<-|[]]]; [|exact GY]. eapply at_dref; [exact H4|exact L|]. rewrite E. now apply MD.
      - intros s5 H5 _ _. eapply at_weaken; [exact H5|easy]. }
    unfold SafeBase.wp in W |- *. rewrite (MP x cx l' y' s4 L E). rewrite (put_eq s4 x cx _ L) in *. split; [exact W|].
    set (c5 := mkCell (mk (l' ++ [y'])) (cdoc cx) (cdocvec cx) (cmark cx) (caddr cx)).
    assert (KE : forall z, In z (l' ++ [y']) -> forall u, reachable (all s4) [z] u -> x < u).
    { intros z J u R. apply in_app_or in J as [J|[<-|[]]]; [|now apply FY]. eapply F; [|exact R]. apply refers_iff. right. rewrite E. now apply MD. }
    assert (KD : forall z, doc = Some z -> forall u, reachable (all s4) [z] u -> x < u) by (intros z J u R; apply (F z u); [apply refers_iff; left; congruence|exact R]).
    exists (l' ++ [y']), doc. split; [|split].
    + exists c5. cbn [all with_all]. split; [rewrite lookup_update, N.eqb_refl, L; reflexivity|]. split; [reflexivity|]. split; [exact O|].
      intros z u R RU. apply refers_iff in R as [R|R].
      { cbn in R. rewrite O in R. apply (KD z R). apply (kept_reach (all s4) (update (all s4) x c5)); [|exact RU]. apply beyond_kept. exact (KD z R). }
      apply MD in R. apply (KE z R). apply (kept_reach (all s4) (update (all s4) x c5)); [|exact RU]. apply beyond_kept. exact (KE z R).
    + cbn [all with_all]. destruct (copied_kept (all s) (all s4) (all s) (update (all s4) x c5)) as (_ & _ & _ & T & _).
      apply T; [apply copied_app; [exact C4|repeat constructor; exact CY]|easy|]. intros z J. apply beyond_kept. exact (KE z J).
    + cbn [all with_all]. destruct (copied_kept (all s) (all s4) (all s) (update (all s4) x c5)) as (_ & _ & T & _).
      apply T; [exact CO4|easy|]. intros z J. apply beyond_kept. exact (KD z J).
Qed.
(** One key more. *)
Lemma pairs_in h h' l l' e' : copied_pairs h h' l l' -> In e' l' -> exists e, In e l /\ copied h h' (ekey e) (ekey e').
Proof using. clear IH.
  intros C. induction C as [|e v l1 e1 v1 l1' E E' CK CV C IHC]; intros I; [destruct I|]. destruct I as [<-|I]; [exists e; cbn; auto|].
  destruct (IHC I) as (e0 & J & K). exists e0. cbn. auto.
Qed.
Lemma ordpairs_mid {A} (R : A -> A -> Prop) l e l' x : ForallOrdPairs R (l ++ e :: l') -> In x l -> R x e.
Proof using. clear IH.
  induction l as [|y l IHl]; intros F I; [destruct I|]. inversion F as [|? ? F1 F2]; subst. destruct I as [<-|I]; [|auto].
  rewrite Forall_forall in F1. apply F1. apply in_or_app. right. now left.
Qed.
Lemma find_o_none cmp k b o : find_o cmp k b = Ret o -> (forall e, In e b -> cmp k (ekey e) <> Ret 0%Z) -> o = None.
Proof using. clear IH.
  induction b as [|e b IHb]; cbn; intros E N; [congruence|]. destruct (cmp k (ekey e)) as [z| | | | |] eqn:EC; cbn in E; try discriminate.
  destruct (Z.eqb_spec z 0); [subst; now elim (N e (or_introl eq_refl))|]. apply IHb; auto.
Qed.
Lemma copied_atom h h' r w c : copied h h' r w -> lookup h r = Some c -> is_atom h r -> exists c', lookup h' w = Some c' /\ cdata c' = cdata c.
Proof using. clear IH.
  intros C L (c0 & L0 & A). rewrite L in L0. injection L0 as <-. inversion C as [? c1 ? c' L1 L2 D _]; subst. rewrite L in L1. injection L1 as <-.
  exists c'. split; [exact L2|]. inversion D; subst; auto; match goal with K : _ = cdata c |- _ => rewrite <- K in A end; contradiction.
Qed.
Definition map_so_far (x : ref) (od : option ref) (done : list (element ref ref)) (s3 : vm) : Prop :=
  At true P s [x] (fun _ => False) s3 /\ exists m' es doc, building x (DMap m') doc s3 /\ (0 < length (buckets m'))%nat /\
    copied_pairs (all s) (all s3) done es /\ Permutation es (concat (buckets m')) /\ copied_doc (all s) (all s3) od doc.
Lemma eref_perm es es' y : Permutation es es' -> eref es y -> eref es' y.
Proof using. clear IH. intros PE (e & I & R). exists e. split; [eapply Permutation_in; eauto|exact R]. Qed.
Lemma building_pairs x m' doc s3 s4 l es : building x (DMap m') doc s3 -> kept (all s3) (all s4) x -> Permutation es (concat (buckets m')) ->
  copied_pairs (all s) (all s3) l es -> copied_pairs (all s) (all s4) l es.
Proof using. clear IH.
  intros B K I C. destruct (copied_kept (all s) (all s3) (all s) (all s4)) as (_ & _ & _ & _ & T). apply T; [exact C|easy|].
  intros y J. destruct (building_ref _ _ _ _ y B (or_introl (eref_perm _ _ _ I J))) as (_ & cx & L & R). eapply kept_child; eauto.
Qed.
Definition plain_list (es : list (element ref ref)) : Prop :=
  (forall e, In e es -> is_atom (all s) (ekey e)) /\ ForallOrdPairs (fun e1 e2 => forall n, vcompare n (all s) (ekey e2) (ekey e1) <> Ret 0%Z) es.
Lemma copy_map x od els : nextId s <= x -> ~ In x P -> plain_list els -> forall l done s3, els = done ++ l ->
  (forall y, eref l y -> reach s y /\ plain_maps (all s) y) -> map_so_far x od done s3 ->
  wp (iterM (fun e : element ref ref =>
        v <- lift (single e) ;;
        k' <- copy f (ekey e) ;; push k' ;;;
        v' <- copy f v ;; push v' ;;;
        hk <- hash_of k' ;; m' <- map_of x ;; m2 <- vmap_put f m' hk k' v' ;;
        put x (DMap m2) ;;; pop v' ;;; pop k') l) (fun _ s' => map_so_far x od (done ++ l) s') s3.
Proof.
  intros OX NX (PK1 & PK2). induction l as [|e l IHl]; intros done s3 EM PL (H & m' & es & doc & B & LB & C & PE & CO); cbn [iterM].
  - apply wp_ret. rewrite app_nil_r. split; [exact H|eauto 9].
  - apply wp_bind. apply (wp_mono true _ (fun _ s' => map_so_far x od (done ++ [e]) s')).
    2:{ intros _ s4 S4. rewrite (app_assoc done [e] l : done ++ e :: l = _). apply IHl; [now rewrite <- app_assoc| |exact S4].
        intros y (z & I & R). apply PL. exists z. cbn. auto. }
    apply wp_bind, wp_lift; [discriminate|]. intros v SV. assert (EV : evals e = [v]) by (unfold single in SV; destruct (evals e) as [|? [|]]; congruence).
    destruct (PL (ekey e)) as (RK & PK). { exists e. cbn. auto. }
    destruct (PL v) as (RV & PV). { exists e. rewrite EV. cbn. auto. }
    assert (IX : In x (stack s3)) by (rewrite (a_stack _ _ _ _ _ _ _ H); now left). pose proof (stack_lt _ _ _ _ H IX) as LX.
    apply wp_bind. apply (copy_part (ekey e) [x] _ _ s3 H); [exact RK|exact PK|]. intros k' s4 H4 K4 CK FK. specialize (K4 x IX).
    pose proof (building_kept _ _ _ _ _ B K4) as B4. pose proof (building_pairs _ _ _ _ _ _ _ B K4 PE C) as C4. pose proof (building_doc _ _ _ _ _ _ B K4 CO) as CO4.
    assert (NK : nextId s3 <= k') by (apply FK, reach_here).
    assert (OLD : forall e', In e' es -> ekey e' < k').
    { intros e' I. destruct (pairs_in _ _ _ _ _ C I) as (e0 & _ & C0). inversion C0 as [? ? ? c' _ L0 _ _]; subst. apply (lookup_lt true P s3) in L0; [lia|apply H]. }
    clear B C CO H K4. apply wp_bind, (at_push P s k' [x] _ _ _ H4); [has|]. clear H4. intros s5 H5 A5 S5 N5.
    apply wp_bind. apply (copy_part v [k'; x] _ _ s5 H5); [exact RV|exact PV|]. intros v' s6 H6 K6 CV FV.
    assert (IX5 : In x (stack s5)) by (rewrite (a_stack _ _ _ _ _ _ _ H5); cbn; auto).
    assert (IK5 : In k' (stack s5)) by (rewrite (a_stack _ _ _ _ _ _ _ H5); cbn; auto).
    pose proof (K6 x IX5) as KX. pose proof (K6 k' IK5) as KK. rewrite A5 in KX, KK. clear K6.
    assert (LX5 : x < nextId s5) by exact (stack_lt _ _ _ _ H5 IX5).
    pose proof (building_kept _ _ _ _ _ B4 KX) as B6. pose proof (building_pairs _ _ _ _ _ _ _ B4 KX PE C4) as C6. pose proof (building_doc _ _ _ _ _ _ B4 KX CO4) as CO6.
    assert (CK6 : copied (all s) (all s6) (ekey e) k').
    { destruct (copied_kept (all s) (all s4) (all s) (all s6)) as (T & _). apply T; [exact CK|easy|exact KK]. }
    assert (FK6 : forall z, reachable (all s6) [k'] z -> x < z) by (intros z R; apply (kept_reach _ _ _ _ KK) in R; apply FK in R; lia).
    assert (FV6 : forall z, reachable (all s6) [v'] z -> x < z) by (intros z R; apply FV in R; lia). clear FK FV B4 C4 CO4 CK KK KX H5.
    apply wp_bind, (at_push P s v' [k'; x] _ _ _ H6); [has|]. clear H6 IX5 IK5. intros s7 H7 A7 S7 N7. unfold building in B6. rewrite <- A7 in B6, C6, CO6, CK6, FK6, FV6, CV. clear A7 A5.
    apply wp_bind, wp_heap; [discriminate|]. intros hk _. pose proof B6 as (cx & L & E & O & F).
    apply wp_bind. eapply wp_is; [unfold map_of, get, bind, get_cell; rewrite L; cbn; rewrite E; reflexivity|].
    apply wp_bind. unfold vmap_put. apply wp_bind. unfold vmap_find. apply wp_heap; [discriminate|]. intros o FO.
    apply find_o_none in FO.
    2:{ intros e' I VC. assert (I' : In e' (concat (buckets m'))).
        { apply in_concat. destruct (nth_in_or_default (bucket_index hk (length (buckets m'))) (buckets m') []) as [J|J]; [eauto|rewrite J in I; destruct I]. }
        apply (Permutation_in _ (Permutation_sym PE)) in I'. destruct (pairs_in _ _ _ _ _ C6 I') as (e0 & I0 & C0).
        assert (A0 : is_atom (all s) (ekey e0)) by (apply PK1; rewrite EM; apply in_or_app; auto).
        assert (AE : is_atom (all s) (ekey e)) by (apply PK1; rewrite EM; apply in_or_app; cbn; auto).
        rewrite EM in PK2. pose proof (ordpairs_mid _ _ _ _ _ PK2 I0) as ND. cbv beta in ND.
        destruct A0 as (c0 & L0 & A0'). destruct AE as (ce & LE & AE').
        destruct (copied_atom _ _ _ _ c0 C0 L0) as (c0' & L0' & E0); [exists c0; auto|]. destruct (copied_atom _ _ _ _ ce CK6 LE) as (ce' & LE' & EE); [exists ce; auto|].
        destruct f as [|n]; [discriminate VC|]. apply (ND 1%nat). rewrite <- VC.
        apply (vcompare_atoms (all s) (all s7) _ _ _ _ ce c0 ce' c0' 0 n); auto; [exists ce; auto|exists c0; auto| |].
        - intros Q. apply (ND 1%nat). rewrite Q. cbn. now rewrite N.eqb_refl.
        - apply OLD in I'. lia. }
    subst o. apply wp_lift; [discriminate|]. intros m2 MP. apply map_put_perm in MP as (PM2 & LB2); [|exact LB].
    set (es2 := es ++ [mkElem hk k' [v']]). assert (PE2 : Permutation es2 (concat (buckets m2))).
    { unfold es2. rewrite PM2. rewrite <- Permutation_cons_append. now constructor. }
    assert (GK : good P s7 k') by (eapply at_good; [exact H7|has|right; intros J; apply (i_priv _ _ _ (a_inv0 _ _ _ _ _ _ _ H7)) in J; apply (i_stack _ _ _ (a_inv0 _ _ _ _ _ _ _ H7)) in J; destruct J; lia]).
    assert (GV : good P s7 v') by (apply (a_good _ _ _ _ _ _ _ H7); reflexivity).
    assert (W : wp (put x (DMap m2)) (fun _ s' => At true P s [v'; k'; x] (fun _ => False) s') s7).
    { eapply (r_put true true P s x _ [v'; k'; x] _ _ s7 H7); [has|split; auto| |discriminate|discriminate|].
      - intros z J. apply (eref_perm _ _ _ (Permutation_sym PE2)) in J. destruct J as (e1 & J & R). apply in_app_or in J as [J|[<-|[]]].
        + eapply at_dref; [exact H7|exact L|]. rewrite E. apply (eref_perm _ _ _ PE). exists e1. auto.
        + cbn in R. destruct R as [->|[<-|[]]]; assumption.
      - intros s8 H8 _ _. eapply at_weaken; [exact H8|easy]. }
    apply wp_bind. unfold SafeBase.wp in W. rewrite (put_eq s7 x cx _ L) in W. eapply wp_is; [apply (put_eq s7 x cx _ L)|].
    set (c8 := mkCell (DMap m2) (cdoc cx) (cdocvec cx) (cmark cx) (caddr cx)) in *.
    apply wp_bind, (at_pop P s v' [k'; x] _ _ _ W). clear W. intros s9 H9 A9. apply (at_pop P s k' [x] _ _ _ H9). clear H9. intros s10 H10 A10.
    assert (A8 : all s10 = update (all s7) x c8) by (rewrite A10, A9; reflexivity). clear A10 A9.
    split; [eapply at_weaken; [exact H10|easy]|]. exists m2, es2, doc.
    assert (KD : forall z, doc = Some z -> forall u, reachable (all s7) [z] u -> x < u) by (intros z J u R; apply (F z u); [apply refers_iff; left; congruence|exact R]).
    assert (KE : forall z, eref es2 z -> forall u, reachable (all s7) [z] u -> x < u).
    { intros z (e1 & J & R) u RU. apply in_app_or in J as [J|[<-|[]]].
      - eapply F; [|exact RU]. apply refers_iff. right. rewrite E. apply (eref_perm _ _ _ PE). exists e1. auto.
      - cbn in R. destruct R as [->|[<-|[]]]; auto. }
    rewrite A8. split; [|split; [exact LB2|split; [|split; [exact PE2|]]]].
    + exists c8. rewrite A8. split; [rewrite lookup_update, N.eqb_refl, L; reflexivity|]. split; [reflexivity|]. split; [exact O|].
      intros z u R RU. apply refers_iff in R as [R|R].
      { cbn in R. rewrite O in R. apply (KD z R). apply (kept_reach (all s7) (update (all s7) x c8)); [|exact RU]. apply beyond_kept. exact (KD z R). }
      apply (eref_perm _ _ _ (Permutation_sym PE2)) in R.
      apply (KE z R). apply (kept_reach (all s7) (update (all s7) x c8)); [|exact RU]. apply beyond_kept. exact (KE z R).
    + destruct (copied_kept (all s) (all s7) (all s) (update (all s7) x c8)) as (_ & _ & _ & _ & T).
      apply T; [apply copied_pairs_app; [exact C6|]|easy|intros z J; apply beyond_kept; exact (KE z J)].
      econstructor; [exact EV|reflexivity|exact CK6|exact CV|constructor].
    + destruct (copied_kept (all s) (all s7) (all s) (update (all s7) x c8)) as (_ & _ & T & _).
      apply T; [exact CO6|easy|]. intros z J. apply beyond_kept. exact (KD z J).
Qed.
End CopyStep.

Lemma alloc_building x d s1 : (forall y, ~ dref d y) -> (exists a, lookup (all s1) x = Some (mkCell d None None false a)) -> building x d None s1.
Proof.
  intros ND (a & L). eexists. split; [exact L|]. split; [reflexivity|]. split; [reflexivity|].
  intros y z R. apply refers_iff in R as [R|R]; cbn in R; [discriminate|now apply ND in R].
Qed.
Lemma map_new_empty : concat (buckets (@map_new ref ref)) = [] /\ (0 < length (buckets (@map_new ref ref)))%nat.
Proof. split; [apply concat_repeat_nil|]. unfold map_new. cbn [buckets]. rewrite repeat_length. apply Nat.ltb_lt. reflexivity. Qed.
Definition body_done (P : list ref) (s : vm) (d : data) (doc : option ref) (x : ref) (s3 : vm) : Prop :=
  At true P s [x] (fun _ => False) s3 /\ exists d' doc', building x d' doc' s3 /\ copied_data (all s) (all s3) d d' /\ copied_doc (all s) (all s3) doc doc' /\ has_buckets d'.
Lemma body_update P s d doc x s3 cx c' s4 : At true P s [x] (fun _ => False) s4 -> lookup (all s3) x = Some cx -> all s4 = update (all s3) x c' ->
  (forall y z, refers c' y -> reachable (all s3) [y] z -> x < z) -> copied_data (all s) (all s3) d (cdata c') -> copied_doc (all s) (all s3) doc (cdoc c') -> has_buckets (cdata c') ->
  body_done P s d doc x s4.
Proof.
  intros H L A F CD CO HB. split; [exact H|]. exists (cdata c'), (cdoc c').
  destruct (copied_kept (all s) (all s3) (all s) (all s4)) as (_ & T1 & T2 & _).
  assert (KE : forall y, refers c' y -> kept (all s3) (all s4) y) by (intros y R; rewrite A; apply beyond_kept; intros z; now apply F).
  split; [|split; [apply T1|split; [apply T2|exact HB]]; auto; try easy; intros y R; apply KE, refers_iff; auto].
  exists c'. split; [rewrite A, lookup_update, N.eqb_refl, L; reflexivity|]. split; [reflexivity|]. split; [reflexivity|].
  intros y z R RZ. apply (F y z R). apply (kept_reach _ (all s4)); auto.
Qed.
Theorem copy_spec : forall f P s r, Inv P s -> reach s r -> plain_maps (all s) r -> wp (copy f r) (copy_result P s r) s.
Proof.
  induction f as [|f IH]; intros P s r A RR PM; cbn [copy]; [apply wp_nofuel|].
  pose proof (at_start true true P s A) as H.
  apply wp_bind, wp_get; [discriminate|]. intros c L.
  assert (W : match cdata c with DEnv _ _ | DFun _ | DMac _ => False | _ => True end ->
    wp (x <- alloc (empty_like (cdata c)) ;; push x ;;;
          d <- get r ;;
          match d with
          | DVec l | DQueue l _ | DList l => iterM (fun y => y' <- copy f y ;; seq_push x y') l
          | DMap m =>
              iterM (fun e : element ref ref =>
                       v <- lift (single e) ;;
                       k' <- copy f (ekey e) ;; push k' ;;;
                       v' <- copy f v ;; push v' ;;;
                       hk <- hash_of k' ;; m' <- map_of x ;; m2 <- vmap_put f m' hk k' v' ;;
                       put x (DMap m2) ;;; pop v' ;;; pop k')
                    (List.concat (buckets m))
          | _ => ret tt
          end ;;;
          c <- get_cell r ;;
          match cdoc c with
          | Some d => d' <- copy f d ;; c <- get_cell x ;; set_docs x (Some d') (cdocvec c)
          | None => ret tt
          end ;;;
          c <- get_cell r ;;
          match cdocvec c with
          | Some d => d' <- copy f d ;; c <- get_cell x ;; set_docs x (cdoc c) (Some d')
          | None => ret tt
          end ;;;
          pop x ;;; ret x) (copy_result P s r) s).
  { intros NE. apply wp_bind, (r_alloc true true P s _ [] _ _ _ H).
    { intros x R. now apply empty_like_ref in R. }
    { discriminate. }
    clear H. intros x s1 H AL MX. assert (NX : ~ In x P) by apply MX. assert (OX : nextId s <= x) by (now apply MX).
    assert (B : building x (empty_like (cdata c)) None s1).
    { apply alloc_building; [intros y R; now apply empty_like_ref in R|apply (al_cell _ _ _ _ _ _ AL)]. }
    apply wp_bind, (at_push P s x [] _ _ _ H); [has|]. clear H. intros s2 H A2 S2 N2. assert (B2 : building x (empty_like (cdata c)) None s2) by (unfold building; rewrite A2; exact B).
    clear B A2 S2 N2 AL s1.
    assert (LR : forall s3 G, At true P s [x] G s3 -> lookup (all s3) r = Some c) by (intros s3 G H3; rewrite (a_same _ _ _ _ _ _ _ H3); auto).
    apply wp_bind. eapply wp_is. { unfold get, bind, get_cell. rewrite (LR _ _ H). reflexivity. }
    assert (CH : forall y, refers c y -> reach s y /\ plain_maps (all s) y).
    { intros y R. split; [eapply re_step; eauto|eapply plain_maps_child; eauto]. }
    assert (H' : At true P s [x] (fun _ => False) s2) by (eapply at_weaken; [exact H|easy]). clear H.
    apply wp_bind. apply (wp_mono true _ (fun _ s' => body_done P s (cdata c) None x s')).
    { assert (SQ : forall mk l, is_seq seq_push mk -> empty_like (cdata c) = mk [] -> (forall y, In y l -> refers c y) ->
        (forall h l', copied_all (all s) h l l' -> copied_data (all s) h (cdata c) (mk l')) -> (forall l, has_buckets (mk l)) ->
        wp (iterM (fun y => y' <- copy f y ;; seq_push x y') l) (fun _ s' => body_done P s (cdata c) None x s') s2).
      { intros mk l SE EE IR CC HB. eapply wp_mono.
        - apply (copy_seq f IH P s seq_push mk x None SE OX NX l [] s2); [intros y I; apply CH, IR, I|].
          split; [exact H'|]. exists [], None. rewrite <- EE. split; [exact B2|split; constructor].
        - cbv beta. cbn [app]. intros _ s3 (H3 & l' & doc & B3 & C3 & CO3). inversion CO3; subst doc. split; [exact H3|]. exists (mk l'), None. split; [exact B3|]. split; [now apply CC|split; [constructor|apply HB]]. }
      cbn [fst snd]. assert (RF : forall y, dref (cdata c) y -> refers c y) by (intros y R; apply refers_iff; auto).
      destruct (cdata c) as [| | | | | | | |l|m|l max|l| | | | | |] eqn:E; try contradiction;
        try (apply wp_ret; split; [exact H'|]; eexists; exists None; split; [exact B2|split; [now apply cd_partless|split; [constructor|exact I]]]).
      - apply (SQ DVec l is_seq_vec eq_refl); [exact RF|intros h l' C; now constructor|easy].
      - destruct map_new_empty as (ME & ML). eapply wp_mono.
        + apply (copy_map f IH P s x None (concat (buckets m)) OX NX) with (done := []) (l := concat (buckets m)); [|reflexivity| |].
          * apply (PM r c m); [apply reach_here|exact L|exact E].
          * intros y R. apply CH. apply RF. exact R.
          * split; [exact H'|]. exists map_new, [], None. split; [exact B2|]. split; [exact ML|]. split; [constructor|]. split; [now rewrite ME|constructor].
        + cbv beta. cbn [app]. intros _ s3 (H3 & m' & es & doc & B3 & HB & C3 & PE & CO3). inversion CO3; subst doc. split; [exact H3|]. exists (DMap m'), None. split; [exact B3|]. split; [now apply (cd_map _ _ m m' es)|split; [constructor|exact HB]].
      - apply (SQ (fun l => DQueue l None) l is_seq_queue eq_refl); [exact RF|intros h l' C; now constructor|easy].
      - apply (SQ DList l is_seq_list eq_refl); [exact RF|intros h l' C; now constructor|easy]. }
    clear H' B2 s2. intros _ s3 (H3 & d' & doc' & B3 & CD & CO & HB).
    assert (doc' = None) by (inversion CO; reflexivity). subst doc'. clear CO.
    apply wp_bind. eapply wp_is. { unfold get_cell. rewrite (LR _ _ H3). reflexivity. }
    apply wp_bind. apply (wp_mono true _ (fun _ s' => body_done P s (cdata c) (cdoc c) x s')).
    { destruct (cdoc c) as [d|] eqn:ED.
      2:{ apply wp_ret. split; [exact H3|]. exists d', None. split; [exact B3|split; [exact CD|split; [constructor|exact HB]]]. }
      destruct (CH d) as (RD & PD). { apply refers_iff. auto. }
      assert (IX : In x (stack s3)) by (rewrite (a_stack _ _ _ _ _ _ _ H3); now left). pose proof (stack_lt P s _ _ _ _ H3 IX) as LX.
      apply wp_bind. apply (copy_part f IH P s d [x] _ _ s3 H3 RD PD). intros y' s4 H4 K4 CY FY. specialize (K4 x IX).
      pose proof (building_kept _ _ _ _ _ B3 K4) as (cx & L4 & E4 & O4 & F4).
      assert (CD4 : copied_data (all s) (all s4) (cdata c) (cdata cx)).
      { rewrite E4. destruct (copied_kept (all s) (all s3) (all s) (all s4)) as (_ & T & _). apply T; [exact CD|easy|].
        intros y R. destruct (building_ref _ _ _ _ y B3 (or_introl R)) as (_ & cx' & L' & R'). eapply kept_child; eauto. }
      apply wp_bind. eapply wp_is. { unfold get_cell. rewrite L4. reflexivity. }
      assert (W : wp (set_docs x (Some y') (cdocvec cx)) (fun _ s' => At true P s [x] (fun _ => False) s') s4).
      { apply (r_set_docs true true P s x _ _ [x] _ _ _ H4); [has|exact MX| | |discriminate|].
        - intros y [= <-]. now apply (a_good _ _ _ _ _ _ _ H4).
        - intros y V. eapply at_docvec; eauto.
        - intros s5 H5 _ _. eapply at_weaken; [exact H5|easy]. }
      unfold SafeBase.wp in W. rewrite (set_docs_eq s4 x cx _ _ L4) in W. eapply wp_is; [apply (set_docs_eq s4 x cx _ _ L4)|].
      eapply (body_update P s _ _ x s4 cx); [exact W|exact L4|reflexivity| |exact CD4|constructor; exact CY|cbn [cdata]; rewrite E4; exact HB].
      intros y z R RZ. apply refers_iff in R as [R|R]; cbn in R.
      - injection R as <-. apply FY in RZ. lia.
      - apply (F4 y z); [apply refers_iff; auto|exact RZ]. }
    clear B3 CD HB H3 d' s3. intros _ s3 (H3 & d' & doc' & B3 & CD & CO & HB).
    apply wp_bind. eapply wp_is. { unfold get_cell. rewrite (LR _ _ H3). reflexivity. }
    apply wp_bind. apply (wp_mono true _ (fun _ s' => body_done P s (cdata c) (cdoc c) x s')).
    { destruct (cdocvec c) as [d|] eqn:ED; [|apply wp_ret; split; [exact H3|eauto 7]].
      assert (IX : In x (stack s3)) by (rewrite (a_stack _ _ _ _ _ _ _ H3); now left).
      apply wp_bind. eapply wp_mono; [apply (copy_ok true f P s3 d); [apply H3|now left]|]. intros y' s4 (A4 & _).
      pose proof (kept_stack _ _ _ _ _ x A4 (re_root _ _ _ IX)) as K4.
      pose proof (at_call true true true P s _ _ s3 _ s4 H3 A4 (fun e => e)) as H4.
      pose proof (building_kept _ _ _ _ _ B3 K4) as (cx & L4 & E4 & O4 & F4).
      assert (KE : forall y, dref d' y \/ doc' = Some y -> kept (all s3) (all s4) y).
      { intros y R. destruct (building_ref _ _ _ _ y B3 R) as (_ & cx' & L' & R'). eapply kept_child; eauto. }
      destruct (copied_kept (all s) (all s3) (all s) (all s4)) as (_ & T1 & T2 & _).
      assert (CD4 : copied_data (all s) (all s4) (cdata c) (cdata cx)) by (rewrite E4; apply T1; [exact CD|easy|auto]).
      assert (CO4 : copied_doc (all s) (all s4) (cdoc c) (cdoc cx)) by (rewrite O4; apply T2; [exact CO|easy|auto]).
      apply wp_bind. eapply wp_is. { unfold get_cell. rewrite L4. reflexivity. }
      assert (W : wp (set_docs x (cdoc cx) (Some y')) (fun _ s' => At true P s [x] (fun _ => False) s') s4).
      { apply (r_set_docs true true P s x _ _ [x] _ _ _ H4); [has|exact MX| | |discriminate|].
        - intros y V. eapply at_doc; eauto.
        - intros y [= <-]. destruct (a_good _ _ _ _ _ _ _ H4 y' eq_refl) as (? & ? & _). auto.
        - intros s5 H5 _ _. eapply at_weaken; [exact H5|easy]. }
      unfold SafeBase.wp in W. rewrite (set_docs_eq s4 x cx _ _ L4) in W. eapply wp_is; [apply (set_docs_eq s4 x cx _ _ L4)|].
      eapply (body_update P s _ _ x s4 cx); [exact W|exact L4|reflexivity| |exact CD4|exact CO4|cbn [cdata]; rewrite E4; exact HB].
      intros y z R RZ. apply (F4 y z); [|exact RZ]. apply refers_iff in R as [R|R]; cbn in R; apply refers_iff; auto. }
    clear B3 CD CO HB H3 d' doc' s3. intros _ s3 (H3 & d' & doc' & (cx & L3 & E3 & O3 & F3) & CD & CO & HB).
    apply wp_bind, (at_pop P s x [] _ _ _ H3). clear H3. intros s4 H4 A4. apply wp_ret.
    split; [eapply at_eq; [exact H4|]; left; split; [reflexivity|exact NX]|]. split; [exact OX|]. rewrite A4. split.
    - econstructor; [exact L|exact L3|rewrite E3; exact CD|rewrite O3; exact CO].
    - split; [intros y R; destruct (reach_inv _ _ _ _ L3 R) as [->|(z & F & RZ)]; [exact OX|]; apply (F3 z y) in F; [lia|exact RZ]|]. exists cx. rewrite E3. auto. }
  destruct (cdata c); try apply wp_undef; apply W; exact I.
Qed.
