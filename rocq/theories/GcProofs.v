From Coq Require Import List NArith ZArith Bool Lia Arith.
From Coq Require Import ZifyBool ZifyNat ZifyN.
From Verif Require Import Base HMap Heap SpecHeap.
Import ListNotations.

Definition unmark (h : heap) : heap := map (fun rc => (fst rc, set_mark (snd rc) false)) h.
Definition marked (h : heap) (r : ref) : Prop := exists c, lookup h r = Some c /\ cmark c = true.
Definition count_unmarked (h : heap) : nat := length (filter (fun rc => negb (cmark (snd rc))) h).

Lemma lookup_unmark h r : lookup (unmark h) r = option_map (fun c => set_mark c false) (lookup h r).
Proof. induction h as [|[i c] h IH]; cbn; [reflexivity|]. destruct (N.eqb i r); cbn; auto. Qed.
Lemma lookup_update h r c x : lookup (update h r c) x = if N.eqb r x then option_map (fun _ => c) (lookup h x) else lookup h x.
Proof.
  induction h as [|[i c0] h IH]; cbn.
  - now destruct (N.eqb r x).
  - destruct (N.eqb i r) eqn:E1; cbn; destruct (N.eqb i x) eqn:E2; cbn.
    + apply N.eqb_eq in E1, E2. subst. now rewrite N.eqb_refl.
    + apply N.eqb_eq in E1. subst. now rewrite E2.
    + destruct (N.eqb r x) eqn:E3; [|reflexivity]. apply N.eqb_eq in E2, E3. subst. now rewrite N.eqb_refl in E1.
    + exact IH.
Qed.
Lemma unmark_mark h r c : lookup h r = Some c -> unmark (update h r (set_mark c true)) = unmark h.
Proof.
  induction h as [|[i c0] h IH]; cbn; [discriminate|]. destruct (N.eqb i r) eqn:E; cbn.
  - intros H. injection H as ->. reflexivity.
  - intros H. f_equal. now apply IH.
Qed.
Lemma count_mark h r c : lookup h r = Some c -> cmark c = false ->
  S (count_unmarked (update h r (set_mark c true))) = count_unmarked h.
Proof.
  unfold count_unmarked. induction h as [|[i c0] h IH]; cbn; [discriminate|]. destruct (N.eqb i r) eqn:E; cbn.
  - intros H M. injection H as ->. rewrite M. reflexivity.
  - intros H M. specialize (IH H M). destruct (cmark c0); cbn; lia.
Qed.
Lemma children_set_mark c b : children (set_mark c b) = children c.
Proof. reflexivity. Qed.
Lemma refers_set_mark c b x : refers (set_mark c b) x <-> refers c x.
Proof.
  split; intros H; inversion H; subst; cbn in *;
    [eapply r_doc|eapply r_vec|eapply r_queue|eapply r_list|eapply r_key|eapply r_val|eapply r_name|eapply r_bound
    |eapply r_enc|eapply r_formals|eapply r_body|eapply r_denv
    |eapply r_doc|eapply r_vec|eapply r_queue|eapply r_list|eapply r_key|eapply r_val|eapply r_name|eapply r_bound
    |eapply r_enc|eapply r_formals|eapply r_body|eapply r_denv]; cbn; eauto.
Qed.
Lemma set_mark_id c : cmark c = false -> set_mark c false = c.
Proof. destruct c; cbn. now intros ->. Qed.

(** Same values, marks aside. *)
Lemma unmark_lookup h h' r c' : unmark h' = unmark h -> lookup h' r = Some c' ->
  exists c, lookup h r = Some c /\ set_mark c false = set_mark c' false.
Proof.
  intros E L. pose proof (lookup_unmark h' r) as H1. rewrite L, E, lookup_unmark in H1. cbn in H1.
  destruct (lookup h r) as [c|]; cbn in H1; [|discriminate]. exists c. split; congruence.
Qed.

Lemma children_refers c ch : children c = Ret ch -> forall x, In x ch <-> refers c x.
Proof.
  unfold children. intros H x.
  assert (D : forall l ch, obind (Ret l) (fun l => Ret ((match cdoc c with Some d => [d] | None => [] end) ++ l)) = Ret ch ->
     (In x ch <-> cdoc c = Some x \/ In x l)).
  { cbn. intros l ch' E. injection E as <-. rewrite in_app_iff. destruct (cdoc c) as [d|]; cbn; intuition congruence. }
  destruct (cdata c) as [ | | | | | | | |l|m|l q|l|b enc|f|f| | |] eqn:ED;
    try (apply D in H; rewrite H; clear H D; cbn; split;
         [intros [G|[]]; now apply r_doc|intros G; inversion G; subst; try congruence; intuition (try congruence)]).
  - apply D in H; rewrite H. split; [intros [G|G]; [now apply r_doc|now apply (r_vec _ l)]|].
    intros G; inversion G; subst; try (left; congruence); right; intuition (try congruence).
  - destruct (map_children (concat (buckets m))) as [l| | | | |] eqn:EM; try discriminate.
    apply D in H; rewrite H; clear H D.
    assert (G : In x l <-> exists e, In e (concat (buckets m)) /\ (x = ekey e \/ In x (evals e))).
    { revert l EM. generalize (concat (buckets m)) as es. induction es as [|e es IH]; cbn; intros l EM.
      - injection EM as <-. cbn. split; [tauto|]. now intros (e & [] & _).
      - unfold single in EM. destruct (evals e) as [|v [|]] eqn:EV; try discriminate. cbn in EM.
        destruct (map_children es) as [l'| | | | |]; try discriminate. cbn in EM. injection EM as <-. cbn.
        rewrite (IH l' eq_refl). split.
        + intros [<-|[<-|(e' & I & Hx)]]; [exists e; rewrite ?EV; cbn; auto|exists e; rewrite EV; cbn; auto|exists e'; auto].
        + intros (e' & [->|I] & Hx); [rewrite EV in Hx; cbn in Hx; intuition|right; right; eauto]. }
    rewrite G. split.
    + intros [K|(e & I & K)]; [now apply r_doc|]. apply in_concat in I as (b & I1 & I2).
      destruct K as [->|K]; [now apply (r_key _ m b)|now apply (r_val _ m b e)].
    + intros K; inversion K; subst; try (left; congruence); right;
        match goal with A : cdata c = DMap _ |- _ => rewrite ED in A; injection A as <- | _ => intuition congruence end;
        (exists e; split; [apply in_concat; eauto|auto]).
  - apply D in H; rewrite H. split; [intros [G|G]; [now apply r_doc|now apply (r_queue _ l q)]|].
    intros G; inversion G; subst; try (left; congruence); right; intuition (try congruence).
  - apply D in H; rewrite H. split; [intros [G|G]; [now apply r_doc|now apply (r_list _ l)]|].
    intros G; inversion G; subst; try (left; congruence); right; intuition (try congruence).
  - apply D in H; rewrite H. split.
    + intros [G|G]; [now apply r_doc|]. apply in_app_iff in G as [G|G].
      * apply in_flat_map in G as ([t [k v]] & I & J). cbn in J. destruct J as [<-|[<-|[]]]; [now apply (r_name _ b enc t k v)|now apply (r_bound _ b enc t k v)].
      * destruct enc as [e|]; [|easy]. destruct G as [<-|[]]. now apply (r_enc _ b).
    + intros G; inversion G as [| | | | | |bs en t k v E I|bs en t k v E I|bs e E|f [E|E]|f [E|E]|f [E|E]]; subst; try (left; congruence); right; try congruence;
        rewrite ED in E; injection E; intros; subst; apply in_app_iff.
      * left. apply in_flat_map. exists (t, (x, v)). cbn. auto.
      * left. apply in_flat_map. exists (t, (k, x)). cbn. auto.
      * right. cbn. auto.
  - apply D in H; rewrite H. split.
    + intros [G|[<-|[<-|[<-|[]]]]]; [now apply r_doc|eapply r_formals; eauto|eapply r_body; eauto|eapply r_denv; eauto].
    + intros G; inversion G as [| | | | | | | | |f0 [E|E]|f0 [E|E]|f0 [E|E]]; subst; try (left; congruence); right; try congruence;
        rewrite ED in E; injection E as <-; cbn; auto.
  - apply D in H; rewrite H. split.
    + intros [G|[<-|[<-|[<-|[]]]]]; [now apply r_doc|eapply r_formals; eauto|eapply r_body; eauto|eapply r_denv; eauto].
    + intros G; inversion G as [| | | | | | | | |f0 [E|E]|f0 [E|E]|f0 [E|E]]; subst; try (left; congruence); right; try congruence;
        rewrite ED in E; injection E as <-; cbn; auto.
Qed.

Lemma children_ret c : single_valued c -> exists ch, children c = Ret ch.
Proof.
  intros S. unfold children. destruct (cdata c) as [ | | | | | | | |l|m|l q|l|b enc|f|f| | |] eqn:ED; cbn; eauto.
  assert (G : forall es, (forall e, In e es -> exists v, evals e = [v]) -> exists l, map_children es = Ret l).
  { induction es as [|e es IH]; cbn; intros H; [eauto|]. destruct (H e (or_introl eq_refl)) as (v & Ev).
    unfold single. rewrite Ev. cbn. destruct IH as (l & ->); [intros; apply H; auto|]. cbn. eauto. }
  destruct (G (concat (buckets m))) as (l & ->); [|cbn; eauto].
  intros e I. apply in_concat in I as (b & I1 & I2). now apply (S m b e).
Qed.
Lemma children_ret_single c ch : children c = Ret ch -> single_valued c.
Proof.
  unfold children. intros H m b e ED I1 I2. rewrite ED in H.
  assert (I : In e (concat (buckets m))) by (apply in_concat; eauto). clear I1 I2 ED.
  destruct (map_children (concat (buckets m))) as [l| | | | |] eqn:EM; try discriminate. clear H.
  revert l EM. induction (concat (buckets m)) as [|e0 es IH]; [easy|]; cbn; intros l EM.
  unfold single in EM. destruct (evals e0) as [|v [|]] eqn:EV; try discriminate. cbn in EM.
  destruct (map_children es) as [l'| | | | |]; try discriminate. destruct I as [->|I]; [eauto|]. now apply (IH I l').
Qed.
Lemma children_not_nofuel c : children c <> NoFuel /\ children c <> Undef.
Proof.
  unfold children. assert (G : forall es, map_children es <> NoFuel /\ map_children es <> Undef).
  { induction es as [|e es IH]; cbn; [split; discriminate|]. unfold single. destruct (evals e) as [|v [|]]; cbn; try (split; discriminate).
    destruct (map_children es); cbn; split; try discriminate; tauto. }
  destruct (cdata c) as [ | | | | | | | |l|m|l q|l|b enc|f|f| | |]; cbn; try (split; discriminate).
  specialize (G (concat (buckets m))). destruct (map_children (concat (buckets m))); cbn; split; try discriminate; tauto.
Qed.

(** Marking preserves contents, and only adds marks. *)
Definition grows (h h' : heap) : Prop :=
  unmark h' = unmark h /\ (forall r, marked h r -> marked h' r) /\ count_unmarked h' <= count_unmarked h.
Lemma grows_refl h : grows h h. Proof. repeat split; auto. Qed.
Lemma grows_trans a b c : grows a b -> grows b c -> grows a c.
Proof. intros (A1 & A2 & A3) (B1 & B2 & B3). repeat split; [congruence|auto|lia]. Qed.

Lemma reachable_more h l l' r : (forall x, In x l -> reachable h l' x) -> reachable h l r -> reachable h l' r.
Proof. intros H R. induction R as [r I|r c x R IH L P]; [auto|]. now apply (re_step _ _ r c). Qed.
Lemma reachable_unmark h h' l r : unmark h' = unmark h -> reachable h l r -> reachable h' l r.
Proof.
  intros E R. induction R as [r I|r c x R IH L P]; [now apply re_root|].
  destruct (unmark_lookup h' h r c (eq_sym E) L) as (c' & L' & S).
  apply (re_step _ _ r c'); auto. apply (refers_set_mark c' false). rewrite S. now apply refers_set_mark.
Qed.

(** What marking the values [l] achieves. *)
Definition mark_post (h : heap) (l : list ref) (h' : heap) : Prop :=
  grows h h' /\ (forall x, In x l -> marked h' x)
  /\ (forall y, marked h' y -> marked h y \/
        (reachable h l y /\ forall c, lookup h' y = Some c -> single_valued c /\ forall z, refers c z -> marked h' z)).

Lemma marked_mono_clause h' h'' y (G : grows h' h'') :
  marked h' y ->
  (forall c, lookup h' y = Some c -> single_valued c /\ forall z, refers c z -> marked h' z) ->
  forall c, lookup h'' y = Some c -> single_valued c /\ forall z, refers c z -> marked h'' z.
Proof.
  intros M H c L. destruct G as (G1 & G2 & _). destruct (unmark_lookup h' h'' y c G1 L) as (c1 & L1 & S).
  destruct (H c1 L1) as (Sv & K). split.
  - intros m b e E. apply (Sv m b e). assert (cdata c1 = cdata c) by (inversion S; auto). congruence.
  - intros z R. apply G2, K. apply (refers_set_mark c1 false). rewrite S. now apply refers_set_mark.
Qed.

Lemma mark_each_post m : (forall h r h', m h r = Ret h' -> mark_post h [r] h') ->
  forall l h h', mark_each m h l = Ret h' -> mark_post h l h'.
Proof.
  intros Hm. induction l as [|x l IH]; cbn; intros h h' E.
  - injection E as <-. split; [apply grows_refl|]. split; [easy|auto].
  - destruct (m h x) as [h1| | | | |] eqn:E1; try discriminate. cbn in E.
    destruct (Hm _ _ _ E1) as (G1 & R1 & C1). destruct (IH _ _ E) as (G2 & R2 & C2).
    split; [eapply grows_trans; eauto|]. split.
    + intros y [<-|I]; [apply G2, R1; now left|auto].
    + intros y M. destruct (C2 y M) as [M1|(R & K)].
      * destruct (C1 y M1) as [M0|(R & K)]; [auto|]. right. split.
        -- revert R. apply reachable_more. intros z [<-|[]]. apply re_root. now left.
        -- now apply (marked_mono_clause h1).
      * right. split; [|exact K].
        apply (reachable_unmark h1 h); [now symmetry; apply G1|].
        revert R. apply reachable_more. intros z I. apply re_root. now right.
Qed.

Lemma mark_spec fuel : forall h r h', mark fuel h r = Ret h' -> mark_post h [r] h'.
Proof.
  induction fuel as [|f IH]; cbn [mark]; intros h r h' E; [discriminate|].
  destruct (lookup h r) as [c|] eqn:L; [|discriminate]. destruct (cmark c) eqn:MK.
  - injection E as <-. split; [apply grows_refl|]. split; [|auto].
    intros x [<-|[]]. exists c. auto.
  - destruct (children c) as [ch| | | | |] eqn:EC; try discriminate. cbn in E.
    set (h1 := update h r (set_mark c true)) in *.
    assert (L1 : lookup h1 r = Some (set_mark c true)) by (unfold h1; rewrite lookup_update, N.eqb_refl, L; reflexivity).
    assert (G0 : grows h h1).
    { unfold h1. split; [now apply unmark_mark|]. split.
      - intros y (c' & L' & M'). destruct (N.eqb r y) eqn:EQ.
        + apply N.eqb_eq in EQ. subst y. rewrite L in L'. congruence.
        + exists c'. rewrite lookup_update, EQ. auto.
      - pose proof (count_mark h r c L MK). lia. }
    destruct (mark_each_post (mark f) IH _ _ _ E) as (G1 & R1 & C1).
    assert (G : grows h h') by (eapply grows_trans; eauto). split; [exact G|].
    assert (Mr : marked h' r) by (apply G1; exists (set_mark c true); auto). split.
    + intros x [<-|[]]. exact Mr.
    + intros y M. destruct (N.eq_dec y r) as [->|NE].
      * right. split; [apply re_root; now left|]. intros c' L'.
        destruct G as (U & _). destruct (unmark_lookup h h' r c' U L') as (c2 & L2 & S). rewrite L in L2. injection L2 as <-.
        assert (D : cdata c = cdata c') by (inversion S; auto). split.
        -- intros m b e Em. rewrite <- D in Em. now apply (children_ret_single c ch EC m b e).
        -- intros z R. apply R1. apply (children_refers c ch EC). apply (refers_set_mark c false). rewrite S. now apply refers_set_mark.
      * destruct (C1 y M) as [(c' & L' & M')|(R & K)].
        -- left. unfold h1 in L'. rewrite lookup_update in L'. rewrite (proj2 (N.eqb_neq r y) (not_eq_sym NE)) in L'. exists c'. auto.
        -- right. split; [|exact K].
           apply (reachable_unmark h1 h) in R; [|symmetry; apply G0].
           revert R. apply reachable_more. intros z I. apply (re_step _ _ r c); [apply re_root; now left|exact L|now apply (children_refers c ch EC)].
Qed.

(** Fuel: the depth is bounded by the number of unmarked values. *)
Lemma mark_fuel fuel : forall h r, count_unmarked h < fuel -> mark fuel h r <> NoFuel.
Proof.
  induction fuel as [|f IH]; cbn [mark]; intros h r L; [lia|].
  destruct (lookup h r) as [c|] eqn:Lk; [|discriminate]. destruct (cmark c) eqn:MK; [discriminate|].
  pose proof (children_not_nofuel c) as (N1 & _). destruct (children c) as [ch| | | | |]; cbn; try congruence.
  pose proof (count_mark h r c Lk MK) as CM.
  assert (G : forall l h1, count_unmarked h1 < f -> mark_each (mark f) h1 l <> NoFuel).
  { induction l as [|x l IHl]; cbn; intros h1 L1; [discriminate|].
    pose proof (IH h1 x L1) as I1. destruct (mark f h1 x) as [h2| | | | |] eqn:E2; cbn; try congruence.
    apply IHl. destruct (mark_spec _ _ _ _ E2) as ((_ & _ & C) & _). lia. }
  apply G. lia.
Qed.
Lemma count_le h : count_unmarked h <= length h.
Proof. unfold count_unmarked. induction h as [|a h IH]; cbn; [lia|]. destruct (cmark (snd a)); cbn; lia. Qed.

(** Progress: nothing reachable dangles, so marking succeeds. *)
Lemma mark_progress fuel : forall h r,
  (forall x, reachable h [r] x -> exists c, lookup h x = Some c /\ single_valued c) ->
  mark fuel h r = NoFuel \/ exists h', mark fuel h r = Ret h'.
Proof.
  induction fuel as [|f IH]; cbn [mark]; intros h r H; [auto|].
  destruct (H r) as (c & L & S); [apply re_root; now left|]. rewrite L.
  destruct (cmark c) eqn:MK; [eauto|]. destruct (children_ret c S) as (ch & EC). rewrite EC. cbn.
  assert (G : forall l h1, unmark h1 = unmark h -> (forall x, In x l -> reachable h [r] x) ->
     mark_each (mark f) h1 l = NoFuel \/ exists h', mark_each (mark f) h1 l = Ret h').
  { induction l as [|x l IHl]; cbn; intros h1 U I; [eauto|].
    destruct (IH h1 x) as [E|(h2 & E)].
    - intros y R. apply (reachable_unmark h1 h) in R; [|now symmetry].
      destruct (H y) as (c' & L' & S'). { revert R. apply reachable_more. intros z [<-|[]]. apply I. now left. }
      destruct (unmark_lookup h1 h y c' (eq_sym U) L') as (c1 & L1 & S1). exists c1. split; [exact L1|].
      intros m b e Em. apply (S' m b e). inversion S1. congruence.
    - left. now rewrite E.
    - rewrite E. cbn. apply IHl; [|intros; apply I; auto].
      destruct (mark_spec _ _ _ _ E) as ((U2 & _) & _). congruence. }
  apply G; [now apply unmark_mark|]. intros x I. apply (re_step _ _ r c); [apply re_root; now left|exact L|now apply (children_refers c ch EC)].
Qed.
Lemma mark_each_progress fuel l : forall h,
  (forall x, reachable h l x -> exists c, lookup h x = Some c /\ single_valued c) -> count_unmarked h < fuel ->
  exists h', mark_each (mark fuel) h l = Ret h'.
Proof.
  induction l as [|x l IH]; cbn; intros h H F; [eauto|].
  destruct (mark_progress fuel h x) as [E|(h1 & E)].
  - intros y R. apply H. revert R. apply reachable_more. intros z [<-|[]]. apply re_root. now left.
  - now elim (mark_fuel fuel h x F).
  - rewrite E. cbn. destruct (mark_spec _ _ _ _ E) as ((U & _ & C) & _). apply IH; [|lia].
    intros y R. apply (reachable_unmark h1 h) in R; [|now symmetry].
    destruct (H y) as (c' & L' & S'). { revert R. apply reachable_more. intros z I. apply re_root. now right. }
    destruct (unmark_lookup h1 h y c' (eq_sym U) L') as (c1 & L1 & S1). exists c1. split; [exact L1|].
    intros m b e Em. apply (S' m b e). inversion S1. congruence.
Qed.

(** Sweeping. *)
Lemma lookup_in h r c : NoDup (map fst h) -> (lookup h r = Some c <-> In (r, c) h).
Proof.
  induction h as [|[i c0] h IH]; cbn; intros ND; [split; [discriminate|easy]|]. inversion ND as [|? ? NI ND']; subst.
  destruct (N.eqb i r) eqn:E.
  - apply N.eqb_eq in E. subst. split; [intros H; injection H as ->; now left|].
    intros [H|H]; [congruence|]. elim NI. now apply (in_map fst) in H.
  - rewrite IH by exact ND'. split; [auto|]. intros [H|H]; [|exact H]. injection H as -> ->. now rewrite N.eqb_refl in E.
Qed.
Lemma unmark_ids h : map fst (unmark h) = map fst h.
Proof. unfold unmark. rewrite map_map. reflexivity. Qed.
Lemma lookup_sweep h r : NoDup (map fst h) ->
  lookup (sweep h) r = match lookup h r with Some c => if cmark c then Some (set_mark c false) else None | None => None end.
Proof.
  unfold sweep. induction h as [|[i c] h IH]; cbn; intros ND; [reflexivity|]. inversion ND as [|? ? NI ND']; subst.
  destruct (N.eqb i r) eqn:E.
  - apply N.eqb_eq in E. subst. destruct (cmark c) eqn:M; cbn; [now rewrite N.eqb_refl|].
    rewrite IH by exact ND'. destruct (lookup h r) as [c'|] eqn:L; [|reflexivity].
    apply lookup_in in L; [|exact ND']. apply (in_map fst) in L. contradiction.
  - destruct (cmark c); cbn; rewrite ?E; now apply IH.
Qed.

Lemma tidy_lookup h r c : tidy h -> lookup h r = Some c -> cmark c = false.
Proof. intros (ND & U) L. apply lookup_in in L; [|exact ND]. eauto. Qed.
Lemma tidy_unmarked h r : tidy h -> ~ marked h r.
Proof. intros T (c & L & M). rewrite (tidy_lookup h r c T L) in M. discriminate. Qed.
Lemma tidy_unmark h : tidy h -> unmark h = h.
Proof.
  intros (_ & U). unfold unmark. rewrite <- (map_id h) at 2. apply map_ext_in. intros [r c] I. cbn.
  now rewrite set_mark_id by eauto.
Qed.
Lemma NoDup_map_filter {A B} (g : A -> B) p l : NoDup (map g l) -> NoDup (map g (filter p l)).
Proof.
  induction l as [|a l IH]; cbn; intros H; [constructor|]. inversion H as [|? ? NI ND]; subst. destruct (p a); cbn; auto.
  constructor; auto. rewrite in_map_iff in *. intros (y & E & I). apply filter_In in I. apply NI. exists y. tauto.
Qed.
Lemma sweep_tidy h : NoDup (map fst h) -> tidy (sweep h).
Proof.
  intros ND. split.
  - unfold sweep. rewrite map_map. cbn. now apply NoDup_map_filter.
  - intros r c I. unfold sweep in I. apply in_map_iff in I as ([r' c'] & E & _). cbn in E. injection E as <- <-. reflexivity.
Qed.

(** The whole collection. *)
Lemma gc_spec h st h' : tidy h -> gc h st = Ret h' ->
  tidy h' /\ (forall r, reachable h st r -> exists c, lookup h r = Some c /\ lookup h' r = Some c)
  /\ (forall r, ~ reachable h st r -> lookup h' r = None)
  /\ (forall r c, lookup h' r = Some c -> reachable h st r /\ lookup h r = Some c /\ single_valued c).
Proof.
  intros T E. unfold gc in E. destruct (mark_each (mark (S (length h))) h (rev st)) as [h1| | | | |] eqn:E1; try discriminate.
  cbn in E. injection E as <-.
  destruct (mark_each_post _ (mark_spec _) _ _ _ E1) as ((U & _) & R & C).
  assert (U' : unmark h1 = h) by (rewrite U; now apply tidy_unmark).
  assert (ND1 : NoDup (map fst h1)) by (rewrite <- unmark_ids, U'; apply T).
  assert (MR : forall r, reachable h st r -> marked h1 r).
  { intros r RR. induction RR as [r I|r c x RR IH L P]; [apply R; now apply -> in_rev|].
    destruct IH as (c1 & L1 & M1). destruct (C r) as [M|(_ & K)]; [exists c1; auto|now apply tidy_unmarked in M|].
    destruct (unmark_lookup h h1 r c1 U L1) as (c2 & L2 & S). rewrite L in L2. injection L2 as <-.
    apply (K c1 L1). apply (refers_set_mark c1 false). rewrite <- S. now apply refers_set_mark. }
  assert (RM : forall r, marked h1 r -> reachable h st r /\ forall c, lookup h1 r = Some c -> single_valued c).
  { intros r M. destruct (C r M) as [M0|(RR & K)]; [now apply tidy_unmarked in M0|]. split; [|intros c L; now apply K].
    revert RR. apply reachable_more. intros x I. apply re_root. now apply in_rev. }
  assert (LK : forall r c, lookup h1 r = Some c -> lookup h r = Some (set_mark c false)).
  { intros r c L. pose proof (lookup_unmark h1 r) as H. rewrite U', L in H. exact H. }
  split; [now apply sweep_tidy|]. split; [|split].
  - intros r RR. destruct (MR r RR) as (c & L & M). exists (set_mark c false). split; [now apply LK|].
    rewrite lookup_sweep by exact ND1. now rewrite L, M.
  - intros r NR. rewrite lookup_sweep by exact ND1. destruct (lookup h1 r) as [c|] eqn:L; [|reflexivity].
    destruct (cmark c) eqn:M; [|reflexivity]. elim NR. apply RM. exists c. auto.
  - intros r c L. rewrite lookup_sweep in L by exact ND1. destruct (lookup h1 r) as [c1|] eqn:L1; [|discriminate].
    destruct (cmark c1) eqn:M; [|discriminate]. injection L as <-.
    destruct (RM r) as (RR & K); [exists c1; auto|]. split; [exact RR|]. split; [now apply LK|].
    intros m b e Em. apply (K c1 L1 m b e). exact Em.
Qed.

Lemma gc_progress h st : tidy h -> sound_roots h st -> exists h', gc h st = Ret h'.
Proof.
  intros T SR. unfold gc. destruct (mark_each_progress (S (length h)) (rev st) h) as (h1 & ->).
  - intros x R. apply SR. revert R. apply reachable_more. intros y I. apply re_root. now apply in_rev.
  - pose proof (count_le h). lia.
  - cbn. eauto.
Qed.
Lemma gc_ids h st h' : gc h st = Ret h' -> tidy h -> exists p, map fst h' = map fst (filter p h).
Proof.
  unfold gc. destruct (mark_each (mark (S (length h))) h (rev st)) as [h1| | | | |] eqn:E1; try discriminate.
  cbn. intros E T. injection E as <-. destruct (mark_each_post _ (mark_spec _) _ _ _ E1) as ((U & _) & _).
  exists (fun rc => match lookup h1 (fst rc) with Some c => cmark c | None => false end).
  unfold sweep. rewrite map_map. cbn.
  assert (ND1 : NoDup (map fst h1)) by (rewrite <- unmark_ids, U, unmark_ids; apply T).
  assert (G : forall p, map fst (filter (fun rc : ref * cell => p (fst rc)) h1) = filter p (map fst h1)).
  { intros p. clear. induction h1 as [|a l IH]; cbn; [reflexivity|]. destruct (p (fst a)); cbn; congruence. }
  assert (G' : forall p, map fst (filter (fun rc : ref * cell => p (fst rc)) h) = filter p (map fst h)).
  { intros p. clear. induction h as [|a l IH]; cbn; [reflexivity|]. destruct (p (fst a)); cbn; congruence. }
  rewrite (G' (fun r => match lookup h1 r with Some c => cmark c | None => false end)).
  assert (I1 : map fst h = map fst h1) by (rewrite <- (unmark_ids h1), U, unmark_ids; reflexivity). rewrite I1.
  rewrite <- G. f_equal. apply filter_ext_in. intros [r c] I. cbn.
  apply (lookup_in h1 r c ND1) in I. now rewrite I.
Qed.
