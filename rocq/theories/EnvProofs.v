(** Facts about environments (Env.v). *)
From Coq Require Import List NArith ZArith Bool Lia Arith.
From Coq Require Import ZifyBool ZifyNat ZifyN.
From Verif Require Import Base HMap Heap SpecHeap GcProofs VmProofs ValueOps Env SpecEnv.
Import ListNotations.
Local Open Scope N_scope.

(** ** Steps that return *)
Lemma get_cell_ret r s c s' : get_cell r s = Ret (c, s') <-> lookup (all s) r = Some c /\ s' = s.
Proof. unfold get_cell. destruct (lookup (all s) r); split; [intros [= <- <-]|intros ([= <-] & ->)|discriminate|intros ([=] & _)]; auto. Qed.
Lemma get_ret r s d s' : get r s = Ret (d, s') <-> exists c, lookup (all s) r = Some c /\ d = cdata c /\ s' = s.
Proof.
  unfold get, bind, get_cell. destruct (lookup (all s) r) as [c|]; cbn; split.
  - intros [= <- <-]. eauto.
  - intros (c' & [= <-] & -> & ->). reflexivity.
  - discriminate.
  - intros (c' & [=] & _).
Qed.
Lemma vec_of_ret r s l s' : vec_of r s = Ret (l, s') <-> exists c, lookup (all s) r = Some c /\ cdata c = DVec l /\ s' = s.
Proof.
  unfold vec_of, get, bind, get_cell. destruct (lookup (all s) r) as [c|]; cbn; split; try discriminate; try (intros (c' & [=] & _); fail).
  - intros H. destruct (cdata c) eqn:E; try discriminate. injection H as <- <-. eauto.
  - intros (c' & [= <-] & -> & ->). reflexivity.
Qed.
Lemma put_ret r d s u s' : put r d s = Ret (u, s') <->
  exists c, lookup (all s) r = Some c /\ s' = with_all s (update (all s) r (mkCell d (cdoc c) (cdocvec c) (cmark c) (caddr c))).
Proof.
  unfold put, bind, get_cell, put_cell. destruct u. destruct (lookup (all s) r) as [c|] eqn:E; cbn; split; try discriminate; try (intros (c' & [=] & _); fail).
  - rewrite E. intros [= <-]. eauto.
  - intros (c' & [= <-] & ->). now rewrite E.
Qed.

Lemma text_eqb_spec a b : reflect (a = b) (text_eqb a b).
Proof. unfold text_eqb. destruct (list_eq_dec N.eq_dec a b); constructor; assumption. Qed.

(** ** Allocation *)
Record alloc_effect (s : vm) (d : data) (r : ref) (s' : vm) : Prop := {
  ae_ids : ids_ok s';
  ae_stack : stack s' = stack s;
  ae_fresh : nextId s <= r;
  ae_next : nextId s' = r + 1;
  ae_cell : exists a, lookup (all s') r = Some (mkCell d None None false a);
  ae_kept : forall x c, reachable (all s) (stack s) x -> lookup (all s) x = Some c -> lookup (all s') x = Some c;
  ae_old : forall x c, x <> r -> lookup (all s') x = Some c -> lookup (all s) x = Some c;
  ae_misc : genv s' = genv s /\ fret s' = fret s /\ quit s' = quit s /\ exitCode s' = exitCode s /\ readably s' = readably s /\ output s' = output s
}.
Lemma maybe_gc_effect s u s' : ids_ok s -> maybe_gc s = Ret (u, s') ->
  ids_ok s' /\ stack s' = stack s /\ nextId s' = nextId s
  /\ (forall x, reachable (all s) (stack s) x -> lookup (all s') x = lookup (all s) x)
  /\ (forall x c, lookup (all s') x = Some c -> lookup (all s) x = Some c)
  /\ genv s' = genv s /\ fret s' = fret s /\ quit s' = quit s /\ exitCode s' = exitCode s /\ readably s' = readably s /\ output s' = output s.
Proof.
  intros I E. pose proof (maybe_gc_ids _ _ _ I E) as (A & B & C). unfold maybe_gc in E.
  destruct ((gcLimit s <=? numAlloc s) && negb (preventGc s))%bool.
  - apply obind_ret in E as ([u1 s1] & E & K). injection K as <- <-. unfold do_gc in E. apply obind_ret in E as (h & E & K). injection K as <- <-.
    pose proof (gc_spec _ _ _ (proj1 I) E) as (_ & K & _ & L). cbn. repeat split; auto.
    + apply A. + apply A. + apply A.
    + intros x R. destruct (K x R) as (c & -> & ->). reflexivity.
    + intros x c Lx. now apply L in Lx.
  - injection E as <- <-. cbn. repeat split; auto; apply I.
Qed.
Lemma fresh_effect s s1 d r s' : ids_ok s -> maybe_gc s = Ret (tt, s1) -> fresh d s1 = Ret (r, s') -> alloc_effect s d r s'.
Proof.
  intros I E F. pose proof (maybe_gc_effect _ _ _ I E) as (A & B & C & K & O & M).
  destruct (fresh_ids _ _ _ _ A F) as (A2 & -> & N2 & S2 & L2 & O2 & L0).
  assert (M2 : genv s' = genv s1 /\ fret s' = fret s1 /\ quit s' = quit s1 /\ exitCode s' = exitCode s1 /\ readably s' = readably s1 /\ output s' = output s1).
  { unfold fresh in F. destruct (nextId s1 =? two64 - 1); [discriminate|]. injection F as <-. auto 9. }
  constructor; auto; try lia.
  - congruence.
  - eauto.
  - intros x c R L. rewrite <- (K x R) in L. destruct (N.eq_dec x (nextId s1)) as [->|NE]; [congruence|]. now rewrite O2.
  - intros x c NE L. apply O. now rewrite O2 in L.
  - intuition congruence.
Qed.
Lemma alloc_ret d s r s' : ids_ok s -> alloc d s = Ret (r, s') -> alloc_effect s d r s'.
Proof. intros I E. unfold alloc in E. apply bind_ret in E as ([] & s1 & E1 & E2). eapply fresh_effect; eauto. Qed.
Lemma new_error_ret s r s' : ids_ok s -> new_error s = Ret (r, s') -> exists m, alloc_effect s (DErr m 0) r s'.
Proof. intros I E. unfold new_error in E. apply bind_ret in E as ([] & s1 & E1 & E2). eexists. eapply fresh_effect; eauto. Qed.

(** ** Lookup *)
Lemma find_binding_bound t b sym v : find_binding t b = Some (sym, v) -> In (t, (sym, v)) b.
Proof.
  unfold find_binding. match goal with |- context [List.find ?p b] => destruct (List.find p b) as [[t' [k' v']]|] eqn:F end; cbn; [|discriminate]. intros [= -> ->].
  apply find_some in F as (I & E). cbn [fst] in E. match type of E with context [list_eq_dec ?a ?b ?c] => destruct (list_eq_dec a b c); [cbn in *; now subst|discriminate E] end.
Qed.
Lemma find_binding_none t b : find_binding t b = None <-> forall x, ~ bound b t x.
Proof.
  unfold find_binding. split.
  - intros H x (k & I). match goal with H : context [List.find ?p b] |- _ => destruct (List.find p b) eqn:F; [discriminate|] end. apply (find_none _ _ F) in I. cbn [fst] in I.
    match type of I with context [list_eq_dec ?a ?b ?c] => destruct (list_eq_dec a b c); [discriminate I|congruence] end.
  - intros H. match goal with |- context [List.find ?p b] => destruct (List.find p b) as [[t' [k' v']]|] eqn:F end; [|reflexivity]. exfalso.
    apply find_some in F as (I & E). cbn [fst] in E. match type of E with context [list_eq_dec ?a ?b ?c] => destruct (list_eq_dec a b c); [cbn in *; subst|discriminate E] end. apply (H v'). eexists; eauto.
Qed.
Lemma nodup_bound b t v sym : NoDup (map fst b) -> bound b t v -> find_binding t b = Some (sym, v) \/ exists k, find_binding t b = Some (k, v).
Proof.
  intros ND (k & I). right. exists k. unfold find_binding. match goal with |- context [List.find ?p b] => destruct (List.find p b) as [[t' [k' v']]|] eqn:F end.
  - apply find_some in F as (I' & E). cbn [fst] in E. match type of E with context [list_eq_dec ?a ?b ?c] => destruct (list_eq_dec a b c); [cbn in *; subst|discriminate E] end. cbn. f_equal.
    clear E. induction b as [|[t0 p] b IH]; [easy|]. cbn in *. inversion ND as [|? ? NI ND']; subst.
    destruct I as [I|I], I' as [I'|I']; try congruence; auto.
    + injection I as -> ->. elim NI. apply in_map_iff. exists (t, (k', v')). auto.
    + injection I' as -> ->. elim NI. apply in_map_iff. exists (t, (k, v)). auto.
  - apply (find_none _ _ F) in I. cbn [fst] in I. match type of I with context [list_eq_dec ?a ?b ?c] => destruct (list_eq_dec a b c); [discriminate I|congruence] end.
Qed.
Lemma is_env_fun h e b enc b' enc' : is_env h e b enc -> is_env h e b' enc' -> b = b' /\ enc = enc'.
Proof. intros (c & L & E) (c' & L' & E'). rewrite L in L'. injection L' as <-. rewrite E in E'. injection E' as <- <-. auto. Qed.

Lemma env_find_sound h t : forall fuel e o, env_find fuel h e t = Ret o ->
  match o with Some v => denotes h e t v | None => unbound h e t end.
Proof.
  induction fuel as [|f IH]; intros e o; cbn [env_find]; [discriminate|].
  destruct (lookup h e) as [c|] eqn:L; [|discriminate]. destruct (cdata c) eqn:E; try discriminate.
  destruct (find_binding t b) as [[k v]|] eqn:F.
  - intros [= <-]. apply find_binding_bound in F. apply (den_here _ _ b enclosing); [exists c; auto|exists k; auto].
  - pose proof (proj1 (find_binding_none t b) F) as NB. destruct enclosing as [e'|].
    + intros H. apply IH in H. destruct o; [apply (den_outer _ _ b e')|apply (unb_outer _ _ b e')]; auto; exists c; auto.
    + intros [= <-]. apply (unb_global _ _ b); auto. exists c. auto.
Qed.
Lemma env_find_mono h t : forall n e o, env_find n h e t = Ret o -> forall m, (n <= m)%nat -> env_find m h e t = Ret o.
Proof.
  induction n as [|n IH]; intros e o; cbn [env_find]; [discriminate|]. intros H [|m] LE; [lia|]. cbn [env_find].
  destruct (lookup h e); [|discriminate]. destruct (cdata c); try discriminate. destruct (find_binding t b) as [[? ?]|]; auto.
  destruct enclosing; auto. apply IH; [auto|lia].
Qed.
(** A lookup that ends with some fuel ends with one that visits no environment
    twice. *)
Lemma env_find_short h t : forall n e o, env_find n h e t = Ret o ->
  exists l, NoDup l /\ (forall x, In x l -> lookup h x <> None) /\ env_find (length l) h e t = Ret o.
Proof.
  intros n. induction n as [n IH] using lt_wf_ind. intros e o H.
  destruct n as [|n]; [discriminate|].
  assert (K : forall m, (m <= S n)%nat -> forall e1, env_find m h e1 t = Ret o ->
     (forall j, (j < m)%nat -> env_find j h e1 t <> Ret o) ->
     exists l, NoDup l /\ length l = m /\ (forall x, In x l -> lookup h x <> None /\ exists j, (1 <= j <= m)%nat /\ env_find j h x t = Ret o /\ forall i, (i < j)%nat -> env_find i h x t <> Ret o)).
  { clear. induction m as [|m IHm]; intros LE e1 H MIN; [discriminate|].
    pose proof H as H0. cbn [env_find] in H. destruct (lookup h e1) as [c|] eqn:L; [|discriminate]. destruct (cdata c) as [ | | | | | | | | | | | |b enc| | | | |] eqn:EC; try discriminate.
    assert (LAST : m = O -> exists l, NoDup l /\ length l = S m /\ (forall x, In x l -> lookup h x <> None /\ exists j, (1 <= j <= S m)%nat /\ env_find j h x t = Ret o /\ forall i, (i < j)%nat -> env_find i h x t <> Ret o)).
    { intros ->. exists [e1]. split; [repeat constructor; easy|]. split; [reflexivity|]. intros x [<-|[]]. split; [congruence|]. exists 1%nat. repeat split; auto. }
    destruct m as [|m]; [auto|].
    destruct (find_binding t b) as [[k v]|] eqn:F.
    - exfalso. apply (MIN 1%nat); [lia|]. cbn [env_find]. now rewrite L, EC, F.
    - destruct enc as [e'|].
      + assert (MIN' : forall j, (j < S m)%nat -> env_find j h e' t <> Ret o).
        { intros j LJ H1. apply (MIN (S j)); [lia|]. cbn [env_find]. now rewrite L, EC, F. }
        destruct (IHm ltac:(lia) e' H MIN') as (l & ND & LN & AL).
        exists (e1 :: l). split; [|split; [cbn; lia|]].
        * constructor; [|exact ND]. intros I. destruct (AL e1 I) as (_ & j & J1 & J2 & _). apply (MIN j); [lia|exact J2].
        * intros x [<-|I]; [split; [congruence|]; exists (S (S m)); repeat split; auto; lia|].
          destruct (AL x I) as (A1 & j & J1 & J2 & J3). split; [auto|]. exists j. repeat split; auto; lia.
      + exfalso. apply (MIN 1%nat); [lia|]. cbn [env_find]. now rewrite L, EC, F. }
  (* the least fuel *)
  assert (LEAST : exists m, (m <= S n)%nat /\ env_find m h e t = Ret o /\ forall j, (j < m)%nat -> env_find j h e t <> Ret o).
  { clear -H. induction n as [|n IHn].
    - exists 1%nat. split; [lia|]. split; [exact H|]. intros [|j] LJ; [discriminate|lia].
    - destruct (env_find (S n) h e t) as [o'| | | | |] eqn:E'.
      + assert (o' = o). { pose proof (env_find_mono _ _ _ _ _ E' (S (S n)) ltac:(lia)). congruence. } subst o'.
        destruct (IHn eq_refl) as (m & A & B & C). exists m. repeat split; auto.
      + exists (S (S n)). repeat split; auto. intros j LJ HJ. assert (env_find (S n) h e t = Ret o) by (eapply env_find_mono; eauto; lia). congruence.
      + exists (S (S n)). repeat split; auto. intros j LJ HJ. assert (env_find (S n) h e t = Ret o) by (eapply env_find_mono; eauto; lia). congruence.
      + exists (S (S n)). repeat split; auto. intros j LJ HJ. assert (env_find (S n) h e t = Ret o) by (eapply env_find_mono; eauto; lia). congruence.
      + exists (S (S n)). repeat split; auto. intros j LJ HJ. assert (env_find (S n) h e t = Ret o) by (eapply env_find_mono; eauto; lia). congruence.
      + exists (S (S n)). repeat split; auto. intros j LJ HJ. assert (env_find (S n) h e t = Ret o) by (eapply env_find_mono; eauto; lia). congruence. }
  destruct LEAST as (m & LE & HM & MIN). destruct (K m LE e HM MIN) as (l & ND & LN & AL).
  exists l. split; [exact ND|]. split; [intros x I; now apply AL|]. now rewrite LN.
Qed.
Lemma live_count h l : NoDup l -> (forall x, In x l -> lookup h x <> None) -> (length l <= length h)%nat.
Proof.
  intros ND L. rewrite <- (map_length fst h). apply NoDup_incl_length; [exact ND|]. intros x I. specialize (L x I).
  clear -L. induction h as [|[i c] h IH]; cbn in *; [easy|]. destruct (N.eqb_spec i x); [auto|right; auto].
Qed.
Lemma env_find_enough h t n e o : env_find n h e t = Ret o -> env_find (S (length h)) h e t = Ret o.
Proof.
  intros H. destruct (env_find_short _ _ _ _ _ H) as (l & ND & L & E). apply (env_find_mono _ _ _ _ _ E).
  pose proof (live_count h l ND L). lia.
Qed.
Lemma denotes_find h e t v : names_unique h -> denotes h e t v -> exists n, env_find n h e t = Ret (Some v).
Proof.
  intros NU H. induction H as [e b enc t v EN BD|e b e' t v EN NB H (n & IH)].
  - exists 1%nat. destruct EN as (c & L & E). cbn [env_find]. rewrite L, E.
    destruct (nodup_bound b t v 0 (NU e b enc (ex_intro _ c (conj L E))) BD) as [->|(k & ->)]; reflexivity.
  - exists (S n). destruct EN as (c & L & E). cbn [env_find]. rewrite L, E. rewrite (proj2 (find_binding_none t b) NB). exact IH.
Qed.
Lemma unbound_find h e t : unbound h e t -> exists n, env_find n h e t = Ret None.
Proof.
  intros H. induction H as [e b t EN NB|e b e' t EN NB H (n & IH)]; destruct EN as (c & L & E).
  - exists 1%nat. cbn [env_find]. now rewrite L, E, (proj2 (find_binding_none t b) NB).
  - exists (S n). cbn [env_find]. now rewrite L, E, (proj2 (find_binding_none t b) NB).
Qed.
Lemma env_get_iff e t s o s' : names_unique (all s) ->
  (env_get e t s = Ret (o, s') <-> s' = s /\ match o with Some v => denotes (all s) e t v | None => unbound (all s) e t end).
Proof.
  intros NU. unfold env_get, heap_op. split.
  - destruct (env_find (S (length (all s))) (all s) e t) eqn:E; cbn; try discriminate. intros [= <- <-]. split; [reflexivity|].
    now apply env_find_sound in E.
  - intros (-> & H). assert (X : exists n, env_find n (all s) e t = Ret o).
    { destruct o; [now apply denotes_find|now apply unbound_find]. }
    destruct X as (n & X). apply env_find_enough in X. now rewrite X.
Qed.

(** ** Binding *)
Lemma rebind_bound t kv b t' v : bound (rebind t kv b) t' v <-> (t' = t /\ v = snd kv) \/ (t' <> t /\ bound b t' v).
Proof.
  unfold bound, rebind. split.
  - intros (k & I). apply in_app_iff in I as [I|[I|[]]].
    + apply filter_In in I as (I & E). cbn in E. destruct (text_eqb_spec t' t); [discriminate|]. right. eauto.
    + injection I as <- E. left. rewrite E. auto.
  - intros [(-> & ->)|(NE & k & I)].
    + exists (fst kv). apply in_app_iff. right. left. now destruct kv.
    + exists k. apply in_app_iff. left. apply filter_In. split; [exact I|]. cbn. destruct (text_eqb_spec t' t); [contradiction|reflexivity].
Qed.
Lemma rebind_nodup t kv b : NoDup (map fst b) -> NoDup (map fst (rebind t kv b)).
Proof.
  intros ND. unfold rebind. rewrite map_app. cbn. apply NoDup_snoc; [now apply NoDup_map_filter|].
  intros I. apply in_map_iff in I as ([t' p] & E & I). cbn in E. subst t'. apply filter_In in I as (_ & E). cbn in E.
  destruct (text_eqb_spec t t); [discriminate|contradiction].
Qed.
(** What env_set does. *)
Lemma env_set_ret e k v s u s' : env_set e k v s = Ret (u, s') ->
  exists ck t ce b enc, lookup (all s) k = Some ck /\ cdata ck = DSym t /\ lookup (all s) e = Some ce /\ cdata ce = DEnv b enc
  /\ s' = with_all s (update (all s) e (mkCell (DEnv (rebind t (k, v) b) enc) (cdoc ce) (cdocvec ce) (cmark ce) (caddr ce))).
Proof.
  unfold env_set. intros H. apply bind_ret in H as (kd & s1 & E1 & H). apply get_ret in E1 as (ck & L1 & -> & ->).
  destruct (cdata ck) as [ | | | | | |t| | | | | | | | | | |] eqn:E; try discriminate.
  apply bind_ret in H as (d & s1 & E2 & H). apply get_ret in E2 as (ce & L2 & -> & ->).
  destruct (cdata ce) as [ | | | | | | | | | | | |b enc| | | | |] eqn:E2; try discriminate.
  apply put_ret in H as (c & L & ->). rewrite L2 in L. injection L as <-. eauto 12.
Qed.
Lemma env_set_is_env e k v s s' u : env_set e k v s = Ret (u, s') -> forall x b enc, is_env (all s') x b enc <->
   (x <> e /\ is_env (all s) x b enc) \/
   (x = e /\ exists t b0 ck, lookup (all s) k = Some ck /\ cdata ck = DSym t /\ is_env (all s) e b0 enc /\ b = rebind t (k, v) b0).
Proof.
  intros H x b enc. apply env_set_ret in H as (ck & t & ce & b0 & enc0 & L1 & E1 & L2 & E2 & ->). unfold is_env. cbn.
  split.
  - intros (c & L & E). rewrite lookup_update in L. destruct (N.eqb_spec e x) as [->|NE]; [|left; split; [auto|eauto]].
    rewrite L2 in L. cbn in L. injection L as <-. cbn in E. injection E as <- <-. right. split; [reflexivity|]. exists t, b0, ck. repeat split; eauto.
  - intros [(NE & c & L & E)|(-> & t' & b1 & ck' & A & B & (c & L & E) & ->)].
    + exists c. rewrite lookup_update. destruct (N.eqb_spec e x); [congruence|auto].
    + rewrite L1 in A. injection A as <-. rewrite E1 in B. injection B as <-. rewrite L2 in L. injection L as <-. rewrite E2 in E. injection E as <- <-.
      eexists. rewrite lookup_update, N.eqb_refl, L2. cbn. split; reflexivity.
Qed.

(** Looking up in a heap that differs in one environment. *)
Lemma denotes_ext h h' e0 (SAME : forall x b enc, x <> e0 -> (is_env h x b enc <-> is_env h' x b enc)) :
  forall e t v, ~ encloses h e e0 -> denotes h e t v -> denotes h' e t v.
Proof.
  intros e t v NE H. induction H as [e b enc t v EN BD|e b e' t v EN NB H IH].
  - apply (den_here _ _ b enc); [|exact BD]. apply SAME; [|exact EN]. intros ->. apply NE. constructor.
  - apply (den_outer _ _ b e'); [|exact NB|].
    + apply SAME; [|exact EN]. intros ->. apply NE. constructor.
    + apply IH. intros X. apply NE. eapply enc_step; eauto.
Qed.
Lemma unbound_ext h h' e0 (SAME : forall x b enc, x <> e0 -> (is_env h x b enc <-> is_env h' x b enc)) :
  forall e t, ~ encloses h e e0 -> unbound h e t -> unbound h' e t.
Proof.
  intros e t NE H. induction H as [e b t EN NB|e b e' t EN NB H IH].
  - apply (unb_global _ _ b); [|exact NB]. apply SAME; [|exact EN]. intros ->. apply NE. constructor.
  - apply (unb_outer _ _ b e'); [|exact NB|].
    + apply SAME; [|exact EN]. intros ->. apply NE. constructor.
    + apply IH. intros X. apply NE. eapply enc_step; eauto.
Qed.
Lemma encloses_ext h h' (SAME : forall x, (exists b enc, is_env h' x b enc) -> exists b enc, is_env h x b enc)
  (ENC : forall x b enc b' enc', is_env h x b enc -> is_env h' x b' enc' -> enc = enc') :
  forall e e', encloses h' e e' -> encloses h e e'.
Proof.
  intros e e' H. induction H as [e|e b e1 e' EN H IH]; [constructor|].
  destruct (SAME e (ex_intro _ b (ex_intro _ _ EN))) as (b1 & enc1 & E1). rewrite (ENC _ _ _ _ _ E1 EN) in E1. eapply enc_step; eauto.
Qed.
(** One environment changed, but not at the name [t]. *)
Lemma denotes_other h h' t
  (SAME : forall x b enc, is_env h x b enc -> exists b', is_env h' x b' enc /\ forall v, bound b' t v <-> bound b t v) :
  forall e v, denotes h e t v -> denotes h' e t v.
Proof.
  intros e v H. induction H as [e b enc t v EN BD|e b e' t v EN NB H IH]; destruct (SAME _ _ _ EN) as (b1 & E1 & B1).
  - apply (den_here _ _ b1 enc); auto. now apply B1.
  - apply (den_outer _ _ b1 e'); auto. intros x X. apply (NB x). now apply B1.
Qed.
Lemma unbound_other h h' t
  (SAME : forall x b enc, is_env h x b enc -> exists b', is_env h' x b' enc /\ forall v, bound b' t v <-> bound b t v) :
  forall e, unbound h e t -> unbound h' e t.
Proof.
  intros e H. induction H as [e b t EN NB|e b e' t EN NB H IH]; destruct (SAME _ _ _ EN) as (b1 & E1 & B1).
  - apply (unb_global _ _ b1); auto. intros x X. apply (NB x). now apply B1.
  - apply (unb_outer _ _ b1 e'); auto. intros x X. apply (NB x). now apply B1.
Qed.
Lemma env_set_cells e k v s u s' : env_set e k v s = Ret (u, s') ->
  (forall x, x <> e -> lookup (all s') x = lookup (all s) x)
  /\ stack s' = stack s /\ nextId s' = nextId s /\ genv s' = genv s
  /\ (forall x t c, lookup (all s) x = Some c -> cdata c = DSym t -> lookup (all s') x = Some c).
Proof.
  intros H. apply env_set_ret in H as (ck & t & ce & b & enc & L1 & E1 & L2 & E2 & ->). cbn.
  assert (O : forall x, x <> e -> lookup (update (all s) e (mkCell (DEnv (rebind t (k, v) b) enc) (cdoc ce) (cdocvec ce) (cmark ce) (caddr ce))) x = lookup (all s) x).
  { intros x NE. rewrite lookup_update. destruct (N.eqb_spec e x); congruence. }
  repeat split; auto. intros x t' c L E. rewrite O; [exact L|]. intros ->. rewrite L2 in L. injection L as <-. congruence.
Qed.
Lemma env_set_total e k v s : (exists t c, lookup (all s) k = Some c /\ cdata c = DSym t) -> (exists b enc, is_env (all s) e b enc) ->
  exists s', env_set e k v s = Ret (tt, s').
Proof.
  intros (t & c & L & E) (b & enc & ce & L2 & E2). eexists.
  assert (K : env_set e k v s = put e (DEnv (rebind t (k, v) b) enc) s).
  { unfold env_set, get, bind, get_cell. rewrite L. cbn. rewrite E, L2. cbn. rewrite E2. reflexivity. }
  rewrite K. apply put_ret. eauto.
Qed.
Lemma env_set_ids e k v s u s' : ids_ok s -> env_set e k v s = Ret (u, s') -> ids_ok s'.
Proof.
  intros ((T & U) & B) H. apply env_set_ret in H as (ck & t & ce & b & enc & L1 & E1 & L2 & E2 & ->). split; cbn.
  - apply update_tidy; [split; auto|]. cbn. apply (tidy_lookup (all s) e ce); [split; auto|exact L2].
  - intros r c I. apply update_in in I as [I|(-> & _ & _)]; [eauto|]. apply (lookup_in _ _ _ T) in L2. eauto.
Qed.

(** ** Extending an environment with arguments *)
Lemma vec_of_at r s l : vector_at (all s) r l -> vec_of r s = Ret (l, s).
Proof. intros (c & L & E). apply vec_of_ret. eauto. Qed.
Lemma names_ret fs ns s : Forall2 (symbol_at (all s)) fs ns -> mapM formal_name fs s = Ret (ns, s).
Proof.
  intros H. induction H as [|f t fs ns (c & L & E) H IH]; [reflexivity|].
  cbn [mapM]. unfold bind at 1. assert (X : formal_name f s = Ret (t, s)).
  { unfold formal_name, bind. assert (Y : get f s = Ret (DSym t, s)) by (apply get_ret; eauto). now rewrite Y. }
  rewrite X. cbn [obind fst snd]. unfold bind. now rewrite IH.
Qed.
Lemma count_plain ns : plain ns -> forall nd nn na, count_formals ns nd nn na =
  match nd with O => (O, (nn + length ns)%nat, na) | _ => (nd, nn, (na + length ns)%nat) end.
Proof.
  induction ns as [|t ns IH]; intros NI nd nn na; cbn [count_formals length].
  - rewrite !Nat.add_0_r. now destruct nd.
  - assert (NE : text_eqb t dots = false). { destruct (text_eqb_spec t dots) as [->|]; [|reflexivity]. elim NI. now left. }
    assert (NI' : plain ns) by (intros I; apply NI; now right).
    rewrite NE. destruct nd; rewrite (IH NI'); repeat (apply f_equal2; try lia).
Qed.
Lemma count_app a b nd nn na : count_formals (a ++ b) nd nn na =
  let '(nd', nn', na') := count_formals a nd nn na in count_formals b nd' nn' na'.
Proof.
  revert nd nn na. induction a as [|t a IH]; intros; [reflexivity|]. cbn [app count_formals]. destruct (text_eqb t dots); [apply IH|]. destruct nd; apply IH.
Qed.
Lemma count_dots_pos ns : forall nd nn na nd' nn' na', count_formals ns (S nd) nn na = (nd', nn', na') ->
  nn' = nn /\ (S nd <= nd')%nat /\ (na <= na')%nat /\ ((nd' = S nd /\ na' = na) -> ns = []).
Proof.
  induction ns as [|t ns IH]; intros nd nn na nd' nn' na'; cbn [count_formals].
  - intros [= <- <- <-]. auto.
  - destruct (text_eqb t dots); intros H; apply IH in H as (A & B & C & D).
    + repeat split; auto; try lia.
    + repeat split; auto; try lia.
Qed.
Lemma split_dots ns : plain ns \/ exists pre post, ns = pre ++ dots :: post /\ plain pre.
Proof.
  induction ns as [|t ns [IH|(pre & post & -> & P)]].
  - left. easy.
  - destruct (text_eqb_spec t dots) as [->|NE].
    + right. exists [], ns. split; [reflexivity|easy].
    + left. intros [E|I]; [exact (NE E)|auto].
  - destruct (text_eqb_spec t dots) as [->|NE].
    + right. exists [], (pre ++ dots :: post). split; [reflexivity|easy].
    + right. exists (t :: pre), post. split; [reflexivity|]. intros [E|I]; [exact (NE E)|auto].
Qed.

Record bound_each (e : ref) (s : vm) (ts : list text) (xs : list ref) (s' : vm) : Prop := {
  be_ids : ids_ok s -> ids_ok s';
  be_stack : stack s' = stack s;
  be_other : forall r, r <> e -> lookup (all s') r = lookup (all s) r;
  be_env : forall b enc, is_env (all s) e b enc -> exists b', is_env (all s') e b' enc /\ (NoDup (map fst b) -> NoDup (map fst b')) /\
     (forall t v, ~ In t ts -> (bound b' t v <-> bound b t v)) /\
     (NoDup ts -> forall i t x, nth_error ts i = Some t -> nth_error xs i = Some x -> forall v, bound b' t v <-> v = x)
}.
Lemma bind_each_ret e : forall fs ts xs s, Forall2 (symbol_at (all s)) fs ts -> length fs = length xs -> (exists b enc, is_env (all s) e b enc) ->
  exists s', bind_each e fs xs s = Ret (tt, s') /\ bound_each e s ts xs s'.
Proof.
  intros fs. induction fs as [|f fs IH]; intros ts xs s H L (b & enc & EN).
  - inversion H; subst. exists s. split; [destruct xs; reflexivity|]. constructor; auto. intros b0 enc0 E0. exists b0. split; [exact E0|].
    split; [auto|]. split; [tauto|]. intros _ [|i] t x; discriminate.
  - inversion H as [|f0 t fs0 ts0 SY H']; subst. destruct xs as [|x xs]; [discriminate|].
    destruct SY as (c & LF & EF).
    destruct (env_set_total e f x s) as (s1 & ES); [eauto|eauto|].
    pose proof (env_set_cells _ _ _ _ _ _ ES) as (O1 & ST1 & N1 & G1 & SY1).
    destruct (IH ts0 xs s1) as (s' & E' & B').
    + clear -H' SY1. induction H' as [|f t fs ts (c & L & E) H IH]; constructor; auto. exists c. split; [|exact E]. eapply SY1; eauto.
    + cbn in L. lia.
    + exists (rebind t (f, x) b), enc. apply (env_set_is_env _ _ _ _ _ _ ES). right. split; [reflexivity|]. exists t, b, c. auto.
    + exists s'. split; [cbn [bind_each]; unfold bind; rewrite ES; exact E'|]. destruct B' as [B1 B2 B3 B4]. constructor.
      * intros I. apply B1. eapply env_set_ids; eauto.
      * congruence.
      * intros r NE. rewrite B3 by exact NE. auto.
      * intros b0 enc0 E0. destruct (is_env_fun _ _ _ _ _ _ EN E0) as (<- & <-).
        destruct (B4 (rebind t (f, x) b) enc) as (b' & EB & ND & OT & IN).
        { apply (env_set_is_env _ _ _ _ _ _ ES). right. split; [reflexivity|]. exists t, b, c. auto. }
        exists b'. split; [exact EB|]. split; [intros K; apply ND; now apply rebind_nodup|]. split.
        -- intros t' v NI. rewrite OT by (intros I; apply NI; now right). rewrite rebind_bound.
           split; [intros [(-> & _)|(_ & K)]; [elim NI; now left|exact K]|]. intros K. right. split; [|exact K]. intros ->. apply NI. now left.
        -- intros NDT [|i] t' x' E1 E2 v; inversion NDT as [|? ? NI ND']; subst.
           ++ cbn in E1, E2. injection E1 as <-. injection E2 as <-. rewrite OT by exact NI. rewrite rebind_bound. cbn. tauto.
           ++ cbn in E1, E2. eapply IN; eauto.
Qed.
(** Allocating something that is not an environment changes no meaning. *)
Lemma alloc_denotes s d r s' e t v : alloc_effect s d r s' -> (forall b enc, d <> DEnv b enc) -> reachable (all s) (stack s) e ->
  (denotes (all s') e t v <-> denotes (all s) e t v).
Proof.
  intros AE NE RE.
  assert (BK : forall x b enc, is_env (all s') x b enc -> is_env (all s) x b enc).
  { intros x b enc (c & L & E). destruct (N.eq_dec x r) as [->|NX].
    - destruct (ae_cell _ _ _ _ AE) as (a & L'). rewrite L' in L. injection L as <-. cbn in E. elim (NE b enc E).
    - exists c. split; [|exact E]. eapply ae_old; eauto. }
  assert (FW : forall x b enc, reachable (all s) (stack s) x -> is_env (all s) x b enc -> is_env (all s') x b enc).
  { intros x b enc R (c & L & E). exists c. split; [|exact E]. eapply ae_kept; eauto. }
  split.
  - intros H. clear RE. induction H as [e b enc t v EN BD|e b e' t v EN NB H IH].
    + apply (den_here _ _ b enc); auto.
    + apply (den_outer _ _ b e'); auto.
  - intros H. induction H as [e b enc t v EN BD|e b e' t v EN NB H IH].
    + apply (den_here _ _ b enc); auto.
    + apply (den_outer _ _ b e'); auto. apply IH. destruct EN as (c & L & E). apply (re_step _ _ e c); auto. eapply r_enc; eauto.
Qed.
Lemma bind_ok {X Y} (m : M X) (k : X -> M Y) s x s1 : m s = Ret (x, s1) -> bind m k s = k x s1.
Proof. unfold bind. now intros ->. Qed.
Lemma Forall2_firstn {A B} (R : A -> B -> Prop) n : forall l l', Forall2 R l l' -> Forall2 R (firstn n l) (firstn n l').
Proof. induction n as [|n IH]; intros l l' H; [constructor|]. destruct H; cbn; constructor; auto. Qed.
Lemma Forall2_nth {A B} (R : A -> B -> Prop) l l' : Forall2 R l l' -> forall i b, nth_error l' i = Some b -> exists a, nth_error l i = Some a /\ R a b.
Proof.
  induction 1 as [|a b l l' H F IH]; intros [|i] x E; try discriminate; cbn in *.
  - injection E as <-. eauto.
  - eauto.
Qed.
Lemma Forall2_len {A B} (R : A -> B -> Prop) l l' : Forall2 R l l' -> length l = length l'.
Proof. induction 1; cbn; congruence. Qed.

Ltac lits := change (Nat.ltb 1 0) with false in *; change (Nat.ltb 1 1) with false in *; change (Nat.ltb 0 0) with false in *; change (Nat.ltb 0 1) with true in *;
  change (Nat.eqb 0 0) with true in *; change (Nat.eqb 1 0) with false in *; change (Nat.eqb 1 1) with true in *; cbn [andb negb Nat.add] in *.
(** ** A plain list of formals *)
Lemma extend_plain e formals args fs ns xs s b enc :
  vector_at (all s) formals fs -> vector_at (all s) args xs -> Forall2 (symbol_at (all s)) fs ns -> plain ns -> is_env (all s) e b enc ->
  length xs = length ns ->
  exists s', env_extend e formals args s = Ret (None, s') /\ bound_each e s ns xs s'.
Proof.
  intros VF VA SY PL EN LEN. pose proof (Forall2_len _ _ _ SY) as LF.
  destruct (bind_each_ret e fs ns xs s SY ltac:(congruence) (ex_intro _ b (ex_intro _ enc EN))) as (s' & BE & EF).
  exists s'. split; [|exact EF]. unfold env_extend.
  rewrite (bind_ok _ _ _ _ _ (vec_of_at _ _ _ VF)), (bind_ok _ _ _ _ _ (vec_of_at _ _ _ VA)), (bind_ok _ _ _ _ _ (names_ret _ _ _ SY)).
  cbv zeta. rewrite (count_plain ns PL). lits. rewrite <- LF, Nat.eqb_refl. cbn [negb].
  rewrite Nat.sub_0_r. replace (Nat.ltb (length xs) (length fs)) with false by (symmetry; apply Nat.ltb_ge; lia).
  rewrite firstn_all. replace (firstn (length fs) xs) with xs by (rewrite LF, <- LEN; now rewrite firstn_all).
  rewrite (bind_ok _ _ _ _ _ BE). replace (skipn (length fs) xs) with (@nil ref) by (rewrite LF, <- LEN; now rewrite skipn_all). reflexivity.
Qed.

(** ** Formals that end in "..." *)
Lemma count_rest pre rest : plain (pre ++ [rest]) -> count_formals (pre ++ [rest; dots]) 0 0 0 = (1%nat, S (length pre), O).
Proof.
  intros PL. change (pre ++ [rest; dots]) with (pre ++ [rest] ++ [dots]). rewrite app_assoc, count_app, (count_plain _ PL).
  rewrite app_length. cbn [length Nat.add count_formals]. destruct (text_eqb_spec dots dots); [|contradiction]. now rewrite Nat.add_1_r.
Qed.
Lemma extend_rest e formals args fs ns pre rest xs s b enc o s' :
  vector_at (all s) formals fs -> vector_at (all s) args xs -> Forall2 (symbol_at (all s)) fs ns -> with_rest ns pre rest -> is_env (all s) e b enc ->
  (length pre <= length xs)%nat -> ids_ok s -> In e (stack s) ->
  env_extend e formals args s = Ret (o, s') ->
  o = None /\ exists s1 s2 f v, bound_each e s pre (firstn (length pre) xs) s1 /\ symbol_at (all s) f rest /\
    alloc_effect s1 (DVec (skipn (length pre) xs)) v s2 /\ env_set e f v s2 = Ret (tt, s').
Proof.
  intros VF VA SY (-> & PL) EN LEN I IE H. pose proof (Forall2_len _ _ _ SY) as LF. rewrite app_length in LF. cbn [length] in LF.
  assert (SY1 : Forall2 (symbol_at (all s)) (firstn (length pre) fs) pre).
  { apply (Forall2_firstn _ (length pre)) in SY. rewrite firstn_app, firstn_all, Nat.sub_diag in SY. cbn in SY. now rewrite app_nil_r in SY. }
  destruct (bind_each_ret e (firstn (length pre) fs) pre (firstn (length pre) xs) s SY1) as (s1 & BE & EF); [rewrite !firstn_length; lia|eauto|].
  unfold env_extend in H.
  rewrite (bind_ok _ _ _ _ _ (vec_of_at _ _ _ VF)), (bind_ok _ _ _ _ _ (vec_of_at _ _ _ VA)), (bind_ok _ _ _ _ _ (names_ret _ _ _ SY)) in H.
  cbv zeta in H. rewrite (count_rest pre rest PL : count_formals (pre ++ [rest; ellipsis]) 0 0 0 = _) in H.
  lits. change (Nat.eqb (S (length pre)) 0) with false in H. cbn [Nat.sub] in H. rewrite Nat.sub_0_r in H.
  replace (length fs - 2)%nat with (length pre) in H by lia.
  replace (Nat.ltb (length xs) (length pre)) with false in H by (symmetry; apply Nat.ltb_ge; lia).
  rewrite (bind_ok _ _ _ _ _ BE) in H.
  destruct (Forall2_nth _ _ _ SY (length pre) rest) as (f & NF & SF).
  { rewrite nth_error_app2, Nat.sub_diag by lia. reflexivity. }
  rewrite NF in H.
  assert (K : (f0 <- need (Some f) ;; v <- alloc (DVec (skipn (length pre) xs)) ;; env_set e f0 v ;;; ret (@None ref)) s1 = Ret (o, s') ->
    o = None /\ exists s2 v, alloc_effect s1 (DVec (skipn (length pre) xs)) v s2 /\ env_set e f v s2 = Ret (tt, s')).
  { clear H. intros H. apply bind_ret in H as (f0 & s2 & E1 & H). injection E1 as <- <-. apply bind_ret in H as (v & s2 & E2 & H).
    apply bind_ret in H as ([] & s3 & E3 & H). injection H as <- <-. split; [reflexivity|]. exists s2, v. split; [|exact E3].
    apply alloc_ret; [|exact E2]. now apply (be_ids _ _ _ _ _ EF). }
  assert (K2 : o = None /\ exists s2 v, alloc_effect s1 (DVec (skipn (length pre) xs)) v s2 /\ env_set e f v s2 = Ret (tt, s')).
  { destruct (skipn (length pre) xs) as [|x l]; [apply K; exact H|]. cbn [negb] in H. apply K; exact H. }
  destruct K2 as (-> & s2 & v & A & B). split; [reflexivity|]. exists s1, s2, f, v. auto.
Qed.

(** ** Everything else is refused *)
Lemma extend_refuses e formals args fs ns xs s b enc o s' :
  vector_at (all s) formals fs -> vector_at (all s) args xs -> Forall2 (symbol_at (all s)) fs ns -> is_env (all s) e b enc -> ids_ok s ->
  ~ accepts ns (length xs) -> env_extend e formals args s = Ret (o, s') -> exists r, o = Some r /\ error_at (all s') r.
Proof.
  intros VF VA SY EN I NA H. pose proof (Forall2_len _ _ _ SY) as LF.
  assert (FAIL : forall s1, ids_ok s1 -> (r <- new_error ;; ret (Some r)) s1 = Ret (o, s') -> exists r, o = Some r /\ error_at (all s') r).
  { clear H. intros s1 I1 H. apply bind_ret in H as (r & s2 & E & H). injection H as <- <-. apply new_error_ret in E as (m & AE); [|exact I1].
    exists r. split; [reflexivity|]. destruct (ae_cell _ _ _ _ AE) as (a & L). exists (mkCell (DErr m 0) None None false a), m, 0. auto. }
  unfold env_extend in H.
  rewrite (bind_ok _ _ _ _ _ (vec_of_at _ _ _ VF)), (bind_ok _ _ _ _ _ (vec_of_at _ _ _ VA)), (bind_ok _ _ _ _ _ (names_ret _ _ _ SY)) in H.
  cbv zeta in H. destruct (split_dots ns) as [PL|(pre & post & -> & PL)].
  - rewrite (count_plain ns PL) in H. lits. rewrite <- LF, Nat.eqb_refl in H. cbn [negb] in H. rewrite Nat.sub_0_r in H.
    destruct (Nat.ltb_spec (length xs) (length fs)); [now apply FAIL in H|].
    apply bind_ret in H as ([] & s1 & BE & H).
    destruct (bind_each_ret e (firstn (length fs) fs) (firstn (length fs) ns) (firstn (length fs) xs) s) as (s1' & BE' & EF).
    + now apply Forall2_firstn. + rewrite !firstn_length. lia. + eauto.
    + rewrite BE in BE'. injection BE' as <-.
      destruct (skipn (length fs) xs) eqn:SK.
      * exfalso. apply NA. left. split; [exact PL|]. pose proof (skipn_length (length fs) xs) as SL. rewrite SK in SL. cbn in SL. lia.
      * cbn [negb Nat.eqb] in H. apply FAIL in H; [exact H|]. now apply (be_ids _ _ _ _ _ EF).
  - rewrite count_app, (count_plain pre PL) in H. cbn [Nat.add count_formals] in H. destruct (text_eqb_spec dots dots); [|contradiction].
    destruct (count_formals post 1 (length pre) 0) as [[nd nn] na] eqn:CP. pose proof (count_dots_pos _ _ _ _ _ _ _ CP) as (-> & ND & NN & EQ).
    destruct (Nat.ltb_spec 1 nd); [now apply FAIL in H|]. destruct (Nat.ltb_spec 0 na); [now apply FAIL in H|].
    assert (nd = 1%nat) by lia. assert (na = O) by lia. subst nd na. specialize (EQ (conj eq_refl eq_refl)). subst post.
    lits. destruct (rev pre) as [|rest pr] eqn:RV.
    + assert (pre = []). { rewrite <- (rev_involutive pre), RV. reflexivity. } subst pre. cbn in H. discriminate.
    + assert (EP : pre = rev pr ++ [rest]). { rewrite <- (rev_involutive pre), RV. reflexivity. } subst pre. clear RV.
      rewrite !app_length in *. cbn [length] in *.
      replace (Nat.eqb (length (rev pr) + 1) 0) with false in H by (symmetry; apply Nat.eqb_neq; lia).
      replace (length fs - 2)%nat with (length (rev pr)) in H by lia.
      destruct (Nat.ltb_spec (length xs) (length (rev pr))); [now apply FAIL in H|].
      exfalso. apply NA. right. exists (rev pr), rest. split; [|lia]. split; [|exact PL]. rewrite <- app_assoc. reflexivity.
Qed.

(** Values refer to values made before only. *)
Definition refs_old (s : vm) : Prop := forall r c x, lookup (all s) r = Some c -> refers c x -> x < nextId s.
Lemma alloc_denotes_old s d r s' e t v : alloc_effect s d r s' -> refs_old s -> e < nextId s -> reachable (all s) (stack s) e ->
  (denotes (all s') e t v <-> denotes (all s) e t v).
Proof.
  intros AE RO LT RE.
  assert (BK : forall x b enc, x < nextId s -> is_env (all s') x b enc -> is_env (all s) x b enc).
  { intros x b enc L1 (c & L & E). exists c. split; [|exact E]. eapply ae_old; eauto. pose proof (ae_fresh _ _ _ _ AE). lia. }
  assert (FW : forall x b enc, reachable (all s) (stack s) x -> is_env (all s) x b enc -> is_env (all s') x b enc).
  { intros x b enc R (c & L & E). exists c. split; [|exact E]. eapply ae_kept; eauto. }
  split.
  - intros H. clear RE. induction H as [e b enc t v EN BD|e b e' t v EN NB H IH].
    + apply (den_here _ _ b enc); auto.
    + apply (den_outer _ _ b e'); auto. apply IH. destruct (BK e b _ LT EN) as (c & L & E). apply (RO e c); auto. eapply r_enc; eauto.
  - intros H. clear LT. induction H as [e b enc t v EN BD|e b e' t v EN NB H IH].
    + apply (den_here _ _ b enc); auto.
    + apply (den_outer _ _ b e'); auto. apply IH. destruct EN as (c & L & E). apply (re_step _ _ e c); auto. eapply r_enc; eauto.
Qed.
