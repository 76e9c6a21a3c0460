(** The library procedures preserve the invariant: copying, environments and the
    mutators. *)
From Coq Require Import NArith ZArith Bool Lia Arith List.
From Coq Require Import ZifyBool ZifyNat ZifyN.
From Verif Require Import Base OString Semver HMap Heap SpecHeap GcProofs VmProofs ValueOps Env Copy Builtins Specials SafeBase SafeRead.
Import ListNotations.
Local Open Scope N_scope.

Section Safe.
Context (D : bool).
Notation wp := (wp D).
Notation Inv := (Inv D).
Notation At := (At D).
Notation good := (good D).

Lemma wp_iterM {X} (f : X -> M unit) (I : vm -> Prop) l s :
  (forall x s, In x l -> I s -> wp (f x) (fun _ s' => I s') s) -> I s -> wp (iterM f l) (fun _ s' => I s') s.
Proof.
  revert s. induction l as [|x l IH]; intros s F H; cbn [iterM]; [apply wp_ret; exact H|].
  apply wp_bind. eapply wp_mono; [apply F; [now left|exact H]|]. intros u s' H'. apply IH; [|exact H']. intros; apply F; [now right|assumption].
Qed.
(** Using the specification of a called procedure. *)
Lemma r_call q q' P s0 pre G {X} (m : M X) (GX : X -> ref -> Prop) (K : X -> vm -> Prop) (Q : X -> vm -> Prop) s :
  At q P s0 pre G s -> wp m (fun x s' => At q' P s [] (GX x) s' /\ K x s') s -> (q = true -> q' = true) ->
  (forall x s', At q P s0 pre (GX x) s' -> K x s' -> Q x s') -> wp m Q s.
Proof. intros H W QQ R. eapply wp_mono; [exact W|]. intros x s' (A & k). apply R; [|exact k]. eapply at_call; eauto. Qed.
Lemma inv_closed P s : Inv P s -> D = false -> closed (all s).
Proof. intros A E r c x L R. now apply (i_closed _ _ _ A E r c x). Qed.
Lemma at_closed q P s0 pre G s : At q P s0 pre G s -> D = false -> closed (all s).
Proof. intros A. eapply inv_closed. apply A. Qed.

Lemma good_push P s r x : good P s x -> good P (with_stack s r) x. Proof. auto. Qed.

(** What the invariant gives for the values a cell refers to. *)
Lemma at_dref q P s0 pre G s r c x : At q P s0 pre G s -> lookup (all s) r = Some c -> dref (cdata c) x -> good P s x.
Proof. intros H L R. eapply good_dref; eauto. apply H. Qed.
Lemma at_doc q P s0 pre G s r c x : At q P s0 pre G s -> lookup (all s) r = Some c -> cdoc c = Some x -> good P s x.
Proof. intros H L R. eapply good_child; eauto; [apply H|]. apply refers_iff. auto. Qed.
Lemma at_docvec q P s0 pre G s r c x : At q P s0 pre G s -> lookup (all s) r = Some c -> cdocvec c = Some x -> x < nextId s /\ ~ In x P.
Proof. intros H L R. apply (i_refs _ _ _ (a_inv _ _ _ _ _ _ _ H) r c x L). auto. Qed.
Lemma at_tame q P s0 pre G s r c : At q P s0 pre G s -> lookup (all s) r = Some c -> D = false -> tame (cdata c).
Proof. intros H L E. apply (i_tame _ _ _ (a_inv _ _ _ _ _ _ _ H) E r c L). Qed.
Lemma at_docvec_fun q P s0 pre G s r c x : At q P s0 pre G s -> lookup (all s) r = Some c -> cdocvec c = Some x -> D = false -> is_fun (cdata c).
Proof. intros H L V E. destruct (i_tame _ _ _ (a_inv _ _ _ _ _ _ _ H) E r c L) as (_ & [K|K]); [congruence|exact K]. Qed.
Lemma at_reach q P s0 pre G s x : At q P s0 pre G s -> q = true -> reach s0 x -> reach s x.
Proof. apply reach_lookup. Qed.
Lemma mine_in q P s0 pre G s r : At q P s0 pre G s -> mine q P s0 r -> ~ In r P. Proof. intros _ M. apply M. Qed.

Ltac has := solve [unfold has; cbn [In app]; auto 15].
(** One step of a procedure: the rule for its first operation. *)
Ltac step0 H :=
  match type of H with
  | SafeBase.At _ ?q ?P ?s0 ?pre ?G ?s =>
    match goal with
    | |- SafeBase.wp _ (bind _ _) _ _ => apply wp_bind; step0 H
    | |- SafeBase.wp _ (ret _) _ _ => apply wp_ret
    | |- SafeBase.wp _ abort _ _ => apply wp_abort
    | |- SafeBase.wp _ undef _ _ => apply wp_undef
    | |- SafeBase.wp _ nofuel _ _ => apply wp_nofuel
    | |- SafeBase.wp _ unmodelled _ _ => apply wp_unmodelled
    | |- SafeBase.wp _ (need _) _ _ => apply wp_need; intros ? ?
    | |- SafeBase.wp _ (push ?r) _ _ => apply (r_push D q P s0 r pre G _ s H); [try has|]; clear H; intros ? H
    | |- SafeBase.wp _ (pop ?r) _ _ => apply (r_pop D q P s0 r _ G _ s H); clear H; intros ? H
    | |- SafeBase.wp _ (get_cell ?r) _ _ => apply (r_get_cell D q P s0 r pre G _ s H); [try has|]; clear H; intros ? ? H
    | |- SafeBase.wp _ (get ?r) _ _ => apply (r_get D q P s0 r pre G _ s H); [try has|]; clear H; intros ? ? H
    | |- SafeBase.wp _ (get_at ?r ?a) _ _ => apply (r_get_at D q P s0 r a pre G _ s H); [try has|]; clear H; intros ? ? ? H
    | |- SafeBase.wp _ (vec_of ?r) _ _ => apply (r_vec_of D q P s0 r pre G _ s H); [try has|]; clear H; intros ? ? ? ? H
    | |- SafeBase.wp _ (arg ?r ?i) _ _ => apply (r_arg D q P s0 r i pre G _ s H); [try has|]; clear H; intros ? ? ? ? ? ? H
    | |- SafeBase.wp _ (nargs ?r) _ _ => apply (r_nargs D q P s0 r pre G _ s H); [try has|]; intros ? ? ? ?
    | |- SafeBase.wp _ (is_error ?r) _ _ => apply (r_is_error D q P s0 r pre G _ s H); [try has|]; intros ?
    | |- SafeBase.wp _ (sym_of ?r) _ _ => apply (r_sym_of D q P s0 r pre G _ s H); [try has|]; intros ?
    | |- SafeBase.wp _ (formal_name ?r) _ _ => apply (r_formal_name D q P s0 r pre G _ s H); [try has|]; intros ?
    | |- SafeBase.wp _ new_error _ _ => apply (r_new_error D q P s0 pre G _ s H); clear H; intros ? ? H
    | |- SafeBase.wp _ (read _) _ _ => apply wp_read
    end
  end.
Ltac step := match goal with H : SafeBase.At _ _ _ _ _ _ ?s |- SafeBase.wp _ _ _ ?s => step0 H end.

(** The end of a procedure. *)
Lemma at_done q P s0 G (G' : ref -> Prop) s : At q P s0 [] G s -> (forall x, G' x -> good P s x) -> At q P s0 [] G' s.
Proof. intros H W. exact (at_weaken _ _ _ _ _ _ _ _ H W). Qed.
Lemma at_eq q P s0 pre G s r : At q P s0 pre G s -> G r -> At q P s0 pre (eq r) s.
Proof. intros H R. apply (at_weaken _ _ _ _ _ _ _ _ H). intros x <-. now apply (a_good _ _ _ _ _ _ _ H). Qed.

(** ** Sequences *)
Lemma r_vec_push q P s0 v x pre G (Q : unit -> vm -> Prop) s : At q P s0 pre G s -> has q s0 pre G v -> mine q P s0 v -> good P s x ->
  (forall s', At q P s0 pre G s' -> (forall y, y <> v -> lookup (all s') y = lookup (all s) y) ->
     (forall c l, lookup (all s) v = Some c -> cdata c = DVec l -> exists c', lookup (all s') v = Some c' /\ cdata c' = DVec (l ++ [x])) -> Q tt s') ->
  wp (vec_push v x) Q s.
Proof.
  intros H V MI GX K. unfold vec_push. apply wp_bind, (r_get D q P s0 v pre G _ s H V). intros c L H'.
  destruct (cdata c) eqn:E; try apply wp_abort.
  apply (r_put D q P s0 v (DVec (l ++ [x])) pre G _ s H V MI).
  - intros y [I|[<-|[]]]%in_app_or; [|exact GX]. eapply at_dref; eauto. now rewrite E.
  - easy.
  - intros _ c' L' F. rewrite L in L'. injection L' as <-. now rewrite E in F.
  - intros s' H2 (c2 & L2 & E2) O. apply K; auto. intros c1 l1 L1 E1. exists c2. split; [auto|]. congruence.
Qed.
Lemma queue_push_in l max x y : In y (queue_push l max x) -> In y l \/ y = x.
Proof.
  unfold queue_push. intros I. assert (J : In y (l ++ [x])) by (destruct max; [now apply in_skipn in I|exact I]).
  apply in_app_or in J as [J|[<-|[]]]; auto.
Qed.
Lemma r_seq_push q P s0 v x pre G (Q : unit -> vm -> Prop) s : At q P s0 pre G s -> has q s0 pre G v -> mine q P s0 v -> good P s x ->
  (forall s', At q P s0 pre G s' -> Q tt s') -> wp (seq_push v x) Q s.
Proof.
  intros H V MI GX K. unfold seq_push. apply wp_bind, (r_get D q P s0 v pre G _ s H V). intros c L H'.
  destruct (cdata c) eqn:E; try apply wp_abort;
    (eapply (r_put D q P s0 v _ pre G _ s H V MI);
     [intros y I; cbn [dref] in I| easy | intros _ c' L' F; rewrite L in L'; injection L' as <-; now rewrite E in F | intros; apply K; assumption]).
  - apply in_app_or in I as [I|[<-|[]]]; [|exact GX]. eapply at_dref; eauto. now rewrite E.
  - apply queue_push_in in I as [I| ->]; [|exact GX]. eapply at_dref; eauto. now rewrite E.
  - apply in_app_or in I as [I|[<-|[]]]; [|exact GX]. eapply at_dref; eauto. now rewrite E.
Qed.

(** ** Maps *)
Lemma r_map_of q P s0 r pre G (Q : hmap ref ref -> vm -> Prop) s : At q P s0 pre G s -> has q s0 pre G r ->
  (forall c m, lookup (all s) r = Some c -> cdata c = DMap m -> Q m s) -> wp (map_of r) Q s.
Proof.
  intros H V K. unfold map_of. apply wp_bind, (r_get D q P s0 r pre G _ s H V). intros c L H'.
  destruct (cdata c) eqn:E; try apply wp_abort. apply wp_ret. eauto.
Qed.
Lemma map_alive_of P s r c m : Inv P s -> D = false -> lookup (all s) r = Some c -> cdata c = DMap m -> map_alive (all s) m.
Proof.
  intros A E L EM e I. split; [|intros v J]; apply (i_closed _ _ _ A E r c _ L), refers_iff; right; rewrite EM; exists e; auto.
Qed.
Lemma wp_hash P r (Q : N -> vm -> Prop) s : Inv P s -> (D = false -> live s r) -> (forall n, Q n s) -> wp (hash_of r) Q s.
Proof.
  intros A L K. unfold hash_of. apply wp_heap; [|intros; apply K]. intros E. apply nd_hash. now apply L.
Qed.
Lemma wp_vmap_find P fuel m hk k (Q : option (element ref ref) -> vm -> Prop) s : Inv P s -> (D = false -> live s k) -> (D = false -> map_alive (all s) m) ->
  (forall o, Q o s) -> wp (vmap_find fuel m hk k) Q s.
Proof.
  intros A L MA K. unfold vmap_find. apply wp_heap; [|intros; apply K]. intros E. apply (nd_find_o (all s)).
  - intros a b LA LB. apply nd_compare; auto. eapply inv_closed; eauto.
  - now apply L.
  - intros e I. apply nth_concat in I. exact (proj1 (MA E e I)).
Qed.
Lemma wp_vmap_put P fuel m hk k v (Q : hmap ref ref -> vm -> Prop) s : Inv P s -> (D = false -> live s k) -> (D = false -> map_alive (all s) m) ->
  (forall m', (forall x, dref (DMap m') x -> x = k \/ x = v \/ dref (DMap m) x) -> Q m' s) -> wp (vmap_put fuel m hk k v) Q s.
Proof.
  intros A L MA K. unfold vmap_put. apply wp_bind, (wp_vmap_find P); auto. intros o. apply wp_lift.
  - intros _. apply nd_map_put.
  - intros m' E. apply K. intros x R. eapply map_put_ref; eauto.
Qed.
Lemma wp_vmap_remove P fuel m hk k (Q : hmap ref ref -> vm -> Prop) s : Inv P s -> (D = false -> live s k) -> (D = false -> map_alive (all s) m) ->
  (forall m', (forall x, dref (DMap m') x -> dref (DMap m) x) -> Q m' s) -> wp (vmap_remove fuel m hk k) Q s.
Proof.
  intros A L MA K. unfold vmap_remove. apply wp_bind, (wp_vmap_find P); auto. intros o. apply wp_ret. apply K. intros x R.
  now apply map_remove_ref in R.
Qed.
Lemma r_put_map q P s0 r m m' k v pre G (Q : unit -> vm -> Prop) s c : At q P s0 pre G s -> has q s0 pre G r -> mine q P s0 r ->
  lookup (all s) r = Some c -> cdata c = DMap m ->
  (forall x, dref (DMap m') x -> x = k \/ x = v \/ dref (DMap m) x) -> good P s k -> good P s v ->
  (forall s', At q P s0 pre G s' -> Q tt s') -> wp (put r (DMap m')) Q s.
Proof.
  intros H V MI L E R GK GV K. apply (r_put D q P s0 r (DMap m') pre G _ s H V MI).
  - intros x I. apply R in I as [->|[->|I]]; auto. eapply at_dref; eauto. rewrite E. exact I.
  - easy.
  - intros _ c' L' F. rewrite L in L'. injection L' as <-. now rewrite E in F.
  - intros; apply K; assumption.
Qed.
(** hash_of k; map_of x; vmap_put; put *)
Lemma r_hash_map_put q P s0 fuel r k v pre G (Q : unit -> vm -> Prop) s : At q P s0 pre G s -> has q s0 pre G r -> mine q P s0 r ->
  good P s k -> good P s v -> (forall s', At q P s0 pre G s' -> Q tt s') -> wp (hash_map_put fuel r k v) Q s.
Proof.
  intros H V MI GK GV K. unfold hash_map_put. apply wp_bind, (wp_hash P); [apply H|apply GK|]. intros hk.
  apply wp_bind, (r_map_of q P s0 r pre G); auto. intros c m L E. apply wp_bind, (wp_vmap_put P); [apply H|apply GK| |].
  - intros ED. eapply map_alive_of; eauto. apply H.
  - intros m' R. eapply r_put_map; eauto.
Qed.

(** ** Copying *)
Lemma tame_empty_like d : tame d -> tame (empty_like d).
Proof. destruct d; auto. Qed.
Lemma empty_like_ref d x : (match d with DEnv _ _ | DFun _ | DMac _ => False | _ => True end) -> ~ dref (empty_like d) x.
Proof. destruct d; cbn; try easy. intros _. apply map_new_ref. Qed.
(** A value that is not used up by allocation: in a closed heap, one that is
    reachable. *)
Definition src (s : vm) (r : ref) : Prop := D = true \/ reach s r.
Lemma src_live q P s0 pre G s r : At q P s0 pre G s -> src s r -> D = false -> live s r.
Proof. intros H [E|R] E'; [congruence|]. eapply reach_live; eauto. apply H. Qed.
Lemma src_later P s0 pre G s r : At true P s0 pre G s -> src s0 r -> src s r.
Proof. intros H [E|R]; [now left|right]. eapply at_reach; eauto. Qed.
Lemma src_ref q P s0 pre G s r c x : At q P s0 pre G s -> src s r -> lookup (all s) r = Some c -> dref (cdata c) x -> src s x.
Proof. intros H [E|R] L F; [now left|right]. eapply reach_child; eauto. Qed.
Lemma src_doc q P s0 pre G s r c x : At q P s0 pre G s -> src s r -> lookup (all s) r = Some c -> cdoc c = Some x -> src s x.
Proof. intros H [E|R] L F; [now left|right]. eapply re_step; eauto. apply refers_iff. auto. Qed.
Lemma src_stack q P s0 pre G s x : At q P s0 pre G s -> In x pre \/ In x (stack s0) -> src s x.
Proof. intros H I. right. apply re_root. rewrite (a_stack _ _ _ _ _ _ _ H). apply in_or_app. exact I. Qed.
(** In a closed heap a source keeps its contents. *)
Lemma src_same P s0 pre G s r : At true P s0 pre G s -> src s0 r -> D = true \/ lookup (all s) r = lookup (all s0) r.
Proof. intros H [E|R]; [now left|right]. apply (a_same _ _ _ _ _ _ _ H). auto. Qed.
Lemma src_child P s0 pre G s r c x : At true P s0 pre G s -> src s0 r -> lookup (all s) r = Some c -> dref (cdata c) x -> src s0 x.
Proof. intros H SR L F. destruct SR as [E|R]; [now left|right]. eapply reach_child; eauto. rewrite <- (a_same _ _ _ _ _ _ _ H); auto. Qed.

Lemma copy_ok : forall f P s r, Inv P s -> src s r ->
  wp (copy f r) (fun x s' => At true P s [] (eq x) s' /\ nextId s <= x) s.
Proof.
  induction f as [|f IH]; intros P s r A SR; cbn [copy]; [apply wp_nofuel|].
  pose proof (at_start D true P s A) as H.
  apply wp_bind, wp_get; [eapply src_live; eauto|]. intros c L.
  assert (NF : D = false -> ~ (match cdata c with DEnv _ _ | DFun _ | DMac _ => True | _ => False end) -> cdocvec c = None).
  { intros E K. destruct (cdocvec c) eqn:V; [|reflexivity]. exfalso. apply K. pose proof (at_docvec_fun _ _ _ _ _ _ _ _ _ H L V E) as F. destruct (cdata c); try destruct F; exact I. }
  assert (W : match cdata c with DEnv _ _ | DFun _ | DMac _ => False | _ => True end ->
    wp (x <- alloc (empty_like (cdata c)) ;; push x ;;;
          d <- get r ;;
          match d with
          | DVec l | DQueue l _ | DList l => iterM (fun y => y' <- copy f y ;; seq_push x y') l
          | DMap m =>
              iterM (fun e : element ref ref =>
                       v <- lift (single e) ;;
                       k' <- copy f (ekey e) ;; push k' ;;;
                       v' <- copy f v ;; push v' ;;;
                       hk <- hash_of k' ;; m' <- map_of x ;; m2 <- vmap_put f m' hk k' v' ;;
                       put x (DMap m2) ;;; pop v' ;;; pop k')
                    (List.concat (buckets m))
          | _ => ret tt
          end ;;;
          c <- get_cell r ;;
          match cdoc c with
          | Some d => d' <- copy f d ;; c <- get_cell x ;; set_docs x (Some d') (cdocvec c)
          | None => ret tt
          end ;;;
          c <- get_cell r ;;
          match cdocvec c with
          | Some d => d' <- copy f d ;; c <- get_cell x ;; set_docs x (cdoc c) (Some d')
          | None => ret tt
          end ;;;
          pop x ;;; ret x) (fun x s' => At true P s [] (eq x) s' /\ nextId s <= x) s).
  { intros NE. assert (NF' : D = false -> cdocvec c = None) by (intros E; apply NF; [exact E|]; destruct (cdata c); tauto). clear NF.
    apply wp_bind, (r_alloc D true P s _ [] _ _ _ H).
    { intros x R. now apply empty_like_ref in R. }
    { intros E. apply tame_empty_like. eapply at_tame; eauto. }
    clear H. intros x s1 H AL MX. assert (NX : ~ In x P) by apply MX. assert (OX : nextId s <= x) by (now apply MX).
    apply wp_bind, (r_push D true P s x [] _ _ _ H); [has|]. clear H. intros s2 H.
    apply wp_bind, wp_get; [eapply src_live; eauto; eapply src_later; eauto|]. intros c2 L2.
    assert (CH : forall y, dref (cdata c2) y -> src s y) by (intros y R; eapply src_child; eauto).
    apply wp_bind.
    apply (wp_mono D _ (fun _ s' => At true P s [x] (fun _ => False) s')).
    { assert (SEQ : forall l, (forall y, In y l -> src s y) -> wp (iterM (fun y => y' <- copy f y ;; seq_push x y') l) (fun _ s' => At true P s [x] (fun _ => False) s') s2).
      { intros l SL. apply wp_iterM; [|eapply at_weaken; [exact H|easy]]. intros y s3 I H3. apply wp_bind.
        eapply (r_call true true P s [x] _ _ (fun x => eq x)); [exact H3|apply IH; [apply H3|eapply src_later; eauto]|auto|].
        intros y' s4 H4 _. eapply (r_seq_push true P s x y' [x] (eq y')); eauto; [has|apply (a_good _ _ _ _ _ _ _ H4); reflexivity|].
        intros s5 H5. eapply at_weaken; [exact H5|easy]. }
      destruct (cdata c2) eqn:E2; try (apply wp_ret; eapply at_weaken; [exact H|easy]); try (apply SEQ; exact CH).
      apply wp_iterM; [|eapply at_weaken; [exact H|easy]]. intros e s3 I H3.
      apply wp_bind, wp_lift; [intros _; apply nd_single|]. intros v SV. apply single_in in SV.
      apply wp_bind. eapply (r_call true true P s [x] _ _ (fun x => eq x)); [exact H3|apply IH; [apply H3|eapply src_later; eauto; apply CH; exists e; auto]|auto|].
      clear H3. intros k' s4 H4 _. apply wp_bind, (r_push D true P s k' [x] _ _ _ H4); [has|]. clear H4. intros s5 H5.
      assert (GK : good P s5 k') by (apply (a_good _ _ _ _ _ _ _ H5); reflexivity). assert (NK : ~ In k' P) by apply GK.
      apply wp_bind. eapply (r_call true true P s [k'; x] _ _ (fun x => eq x)); [exact H5|apply IH; [apply H5|eapply src_later; eauto; apply CH; exists e; auto]|auto|].
      clear H5 GK. intros v' s6 H6 _. apply wp_bind, (r_push D true P s v' [k'; x] _ _ _ H6); [has|]. clear H6. intros s7 H7.
      assert (GV : good P s7 v') by (apply (a_good _ _ _ _ _ _ _ H7); reflexivity).
      assert (GK : good P s7 k') by (eapply at_good; [exact H7|has|auto]).
      assert (HP : forall Q : unit -> vm -> Prop, (forall s', At true P s [v'; k'; x] (eq v') s' -> Q tt s') -> wp (hash_map_put f x k' v') Q s7).
      { intros Q K. eapply (r_hash_map_put true P s f x k' v'); eauto. has. }
      enough (HP2 : wp (hash_map_put f x k' v' ;;; pop v' ;;; pop k') (fun _ s' => At true P s [x] (fun _ => False) s') s7).
      { unfold hash_map_put in HP2. revert HP2. clear. unfold SafeBase.wp, bind. destruct (hash_of k' s7) as [[? ?]| | | | |]; cbn [obind fst snd]; auto.
        match goal with |- context [map_of x ?v] => destruct (map_of x v) as [[? ?]| | | | |]; cbn [obind fst snd]; auto end.
        match goal with |- context [vmap_put f ?a ?b k' v' ?c] => destruct (vmap_put f a b k' v' c) as [[? ?]| | | | |]; cbn [obind fst snd]; auto end. }
      apply wp_bind, HP. intros s8 H8. apply wp_bind, (r_pop D true P s v' _ _ _ _ H8). clear H8. intros s9 H9.
      apply (r_pop D true P s k' _ _ _ _ H9). clear H9. intros s10 H10. eapply at_weaken; [exact H10|easy]. }
    clear H L2 CH c2. intros _ s3 H.
    apply wp_bind, wp_get_cell; [eapply src_live; eauto; eapply src_later; eauto|]. intros c3 L3.
    apply wp_bind. apply (wp_mono D _ (fun _ s' => At true P s [x] (fun _ => False) s')).
    { destruct (cdoc c3) as [d|] eqn:ED; [|apply wp_ret; exact H].
      apply wp_bind. eapply (r_call true true P s [x] _ _ (fun x => eq x)); [exact H|apply IH; [apply H|eapply src_doc; eauto; eapply src_later; eauto]|auto|].
      clear H. intros d' s4 H _. apply wp_bind, wp_get_cell; [eapply at_live; [exact H|has]|]. intros c4 L4.
      apply (r_set_docs D true P s x _ _ [x] _ _ _ H); [has|exact MX| | |intros|].
      - intros y [= <-]. now apply (a_good _ _ _ _ _ _ _ H).
      - intros y V. eapply at_docvec; eauto.
      - rewrite L4 in *. destruct (cdocvec c4) eqn:V; [|auto]. right. match goal with K : Some _ = Some _ |- _ => injection K as <- end. eapply at_docvec_fun; eauto.
      - intros s5 H5 _ _. eapply at_weaken; [exact H5|easy]. }
    clear H L3 c3 s3. intros _ s3 H.
    apply wp_bind, wp_get_cell; [eapply src_live; eauto; eapply src_later; eauto|]. intros c3 L3.
    apply wp_bind. apply (wp_mono D _ (fun _ s' => At true P s [x] (fun _ => False) s')).
    { destruct (cdocvec c3) as [d|] eqn:ED; [|apply wp_ret; exact H].
      assert (DT : D = true).
      { destruct (Bool.bool_dec D true) as [E|E]; [exact E|exfalso]. apply Bool.not_true_is_false in E. destruct SR as [?|SR]; [congruence|].
        rewrite (a_same _ _ _ _ _ _ _ H) in L3 by auto. rewrite L in L3. injection L3 as <-. rewrite (NF' E) in ED. discriminate. }
      apply wp_bind. eapply (r_call true true P s [x] _ _ (fun x => eq x)); [exact H|apply IH; [apply H|now left]|auto|].
      clear H. intros d' s4 H _. apply wp_bind, wp_get_cell; [eapply at_live; [exact H|has]|]. intros c4 L4.
      apply (r_set_docs D true P s x _ _ [x] _ _ _ H); [has|exact MX| | |congruence|].
      - intros y V. eapply at_doc; eauto.
      - intros y [= <-]. destruct (a_good _ _ _ _ _ _ _ H d' eq_refl) as (? & ? & _). auto.
      - intros s5 H5 _ _. eapply at_weaken; [exact H5|easy]. }
    clear H L3 c3 s3. intros _ s3 H. apply wp_bind, (r_pop D true P s x _ _ _ _ H). clear H. intros s4 H.
    apply wp_ret. split; [|exact OX]. eapply at_eq; [exact H|]. cbv beta. left. split; [reflexivity|exact NX]. }
  destruct (cdata c); try apply wp_undef; apply W; exact I.
Qed.
Lemma copy_atom_ok f P s r : Inv P s -> src s r -> good P s r ->
  wp (copy_atom f r) (fun x s' => At true P s [] (eq x) s' /\ True) s.
Proof.
  intros A SR GR. unfold copy_atom. pose proof (at_start D true P s A) as H. apply wp_bind, wp_get; [eapply src_live; eauto|]. intros c L.
  destruct (is_atom_data (cdata c)).
  - eapply wp_mono; [apply (copy_ok f P s r A SR)|]. intros x s' (B & _). auto.
  - apply wp_ret. split; [|exact I]. eapply at_weaken; [exact H|]. intros x <-. exact GR.
Qed.
(** Using a specification without further conditions. *)
Lemma r_use q q' P s0 pre G {X} (m : M X) (GX : X -> ref -> Prop) (Q : X -> vm -> Prop) s :
  At q P s0 pre G s -> wp m (fun x s' => At q' P s [] (GX x) s') s -> (q = true -> q' = true) ->
  (forall x s', At q P s0 pre (GX x) s' -> Q x s') -> wp m Q s.
Proof. intros H W QQ R. eapply wp_mono; [exact W|]. intros x s1 A. apply R. exact (at_call D q q' P s0 pre G s (GX x) s1 H A QQ). Qed.
Lemma at_keep q q' P s0 pre G s G' s' x : At q P s0 pre G s -> At q' P s [] G' s' -> In x pre \/ In x (stack s0) -> ~ In x P -> good P s' x.
Proof.
  intros A B I N. eapply (at_good D q' P s [] G' s'); [exact B| |auto]. right. right. left. rewrite (a_stack _ _ _ _ _ _ _ A). apply in_or_app. exact I.
Qed.
Lemma src_of_reach s x : reach s x -> src s x. Proof. now right. Qed.

(** The constants. *)
Lemma new_const_ok P s d t : Inv P s -> (forall x, ~ dref d x) -> tame d ->
  wp (new_const d t) (fun r s' => At true P s [] (eq r) s') s.
Proof.
  intros A ND T. unfold new_const. pose proof (at_start D true P s A) as H.
  apply wp_bind, (r_alloc D true P s d [] _ _ _ H); [intros x R; now apply ND in R|auto|]. clear H. intros x s1 H _ MX.
  apply wp_bind, (r_push D true P s x [] _ _ _ H); [has|]. clear H. intros s2 H.
  apply wp_bind, (r_alloc D true P s (DStr t) [x] _ _ _ H); [easy|easy|]. clear H. intros y s3 H _ MY.
  apply wp_bind, (r_push D true P s y [x] _ _ _ H); [has|]. clear H. intros s4 H.
  apply wp_bind, (r_pop D true P s y [x] _ _ _ H). clear H. intros s5 H.
  assert (GY : good P s5 y) by (apply (a_good _ _ _ _ _ _ _ H); right; reflexivity).
  apply wp_bind, (r_set_docs D true P s x _ _ [x] _ _ _ H); [has|exact MX| | |auto|].
  { intros z [= <-]. exact GY. } { discriminate. }
  clear H GY. intros s6 H _ _. apply wp_bind, (r_pop D true P s x [] _ _ _ H). clear H. intros s7 H.
  apply wp_ret. eapply at_eq; [exact H|]. left. split; [reflexivity|apply MX].
Qed.
Lemma value_nil_ok P s : Inv P s -> wp value_nil (fun r s' => At true P s [] (eq r) s') s.
Proof. intros A. apply new_const_ok; [exact A|easy|exact I]. Qed.
Lemma value_bool_ok P s b : Inv P s -> wp (value_bool b) (fun r s' => At true P s [] (eq r) s') s.
Proof. intros A. destruct b; (apply new_const_ok; [exact A|easy|exact I]). Qed.
Lemma value_true_ok P s : Inv P s -> wp value_true (fun r s' => At true P s [] (eq r) s') s.
Proof. exact (value_bool_ok P s true). Qed.
Lemma value_false_ok P s : Inv P s -> wp value_false (fun r s' => At true P s [] (eq r) s') s.
Proof. exact (value_bool_ok P s false). Qed.

(** Registers of the machine. *)
Lemma r_set_fret P s0 o pre G (Q : unit -> vm -> Prop) s : At false P s0 pre G s ->
  (forall x, o = Some x -> D = true /\ x < nextId s /\ ~ In x P) -> (forall s', At false P s0 pre G s' -> (all s', nextId s', stack s') = (all s, nextId s, stack s) -> Q tt s') -> wp (set_fret o) Q s.
Proof.
  intros H O K. unfold SafeBase.wp, set_fret. apply K; [|reflexivity]. destruct H as [A1 [B1 B2 B3 B4 B5 B6 B7 B8] A3 A4 A5 A6 A7 A8].
  constructor; auto; [|easy]. constructor; auto. cbn. destruct o as [x|]; [|exact I]. destruct (O x eq_refl) as (? & ? & ?). auto.
Qed.
Lemma r_set_quit P s0 z pre G (Q : unit -> vm -> Prop) s : At false P s0 pre G s ->
  (forall s', At false P s0 pre G s' -> Q tt s') -> wp (set_quit z) Q s.
Proof.
  intros H K. unfold SafeBase.wp, set_quit. apply K. destruct H as [A1 [B1 B2 B3 B4 B5 B6 B7 B8] A3 A4 A5 A6 A7 A8].
  constructor; auto; [|easy]. constructor; auto.
Qed.
Lemma r_write_out P s0 o pre G (Q : unit -> vm -> Prop) s : At false P s0 pre G s ->
  (forall s', At false P s0 pre G s' -> Q tt s') -> wp (write_out o) Q s.
Proof.
  intros H K. unfold SafeBase.wp, write_out. apply K. destruct H as [A1 [B1 B2 B3 B4 B5 B6 B7 B8] A3 A4 A5 A6 A7 A8].
  constructor; auto; [|easy]. constructor; auto.
Qed.
Lemma r_set_readably P s0 b pre G (Q : unit -> vm -> Prop) s : At false P s0 pre G s ->
  (forall s', At false P s0 pre G s' -> Q tt s') -> wp (set_readably b) Q s.
Proof.
  intros H K. unfold SafeBase.wp, set_readably. apply K. destruct H as [A1 [B1 B2 B3 B4 B5 B6 B7 B8] A3 A4 A5 A6 A7 A8].
  constructor; auto; [|easy]. constructor; auto.
Qed.
Lemma at_addr q P s0 pre G s n : At q P s0 pre G s -> At q P s0 pre G (with_nextAddr s n).
Proof. intros [A1 [B1 B2 B3 B4 B5 B6 B7 B8] A3 A4 A5 A6 A7 A8]. constructor; auto. constructor; auto. Qed.
(** Changing the union of a value to one that refers to nothing new. *)
Lemma r_put_cell q P s0 r c c' pre G (Q : unit -> vm -> Prop) s : At q P s0 pre G s -> mine q P s0 r -> lookup (all s) r = Some c ->
  cmark c' = cmark c -> cdoc c' = cdoc c -> cdocvec c' = cdocvec c -> (forall x, dref (cdata c') x -> good P s x) -> (D = false -> tame (cdata c')) ->
  (D = false -> is_fun (cdata c) -> is_fun (cdata c')) ->
  (forall s', At q P s0 pre G s' -> (forall x, lookup (all s') x = if x =? r then Some c' else lookup (all s) x) -> Q tt s') -> wp (put_cell r c') Q s.
Proof.
  intros H MI L E1 E2 E3 GD T FN K. pose proof (a_inv _ _ _ _ _ _ _ H) as A. apply (wp_put_cell D P); auto.
  - intros _. unfold live. congruence.
  - rewrite E1. apply (tidy_lookup _ _ _ (proj1 (i_ids _ _ _ A)) L).
  - intros x [R|R]; [apply refers_iff in R as [R|R]|].
    + rewrite E2 in R. apply (i_refs _ _ _ A r c x L). left. apply refers_iff. auto.
    + destruct (GD x R) as (? & ? & _). auto.
    + rewrite E3 in R. apply (i_refs _ _ _ A r c x L). auto.
  - intros ED x R. apply refers_iff in R as [R|R]; [|now apply GD]. rewrite E2 in R. apply (i_closed _ _ _ A ED r c x L). apply refers_iff. auto.
  - intros ED. split; [auto|]. rewrite E3. destruct (i_tame _ _ _ A ED r c L) as (_ & [?|?]); auto.
  - intros I. apply K; [now apply at_write|]. intros x. cbn. rewrite lookup_update, N.eqb_sym. destruct (N.eqb_spec x r); [|reflexivity]. subst. now rewrite L.
Qed.
Lemma r_annotate P s0 r pre G (Q : unit -> vm -> Prop) s : At false P s0 pre G s -> good P s r ->
  (forall s', At false P s0 pre G s' -> (forall c, lookup (all s) r = Some c -> is_error_data (cdata c) = false -> s' = s) ->
     (forall x, lookup (all s') x = lookup (all s) x \/ x = r /\ exists c c', lookup (all s) x = Some c /\ lookup (all s') x = Some c' /\ is_error_data (cdata c) = true /\ is_error_data (cdata c') = true) -> Q tt s') ->
  wp (annotate r) Q s.
Proof.
  intros H GR K. unfold annotate. apply wp_bind, wp_get_cell; [apply GR|]. intros c L.
  assert (U : is_error_data (cdata c) = false -> Q tt s) by (intros E; apply K; auto).
  destruct (cdata c) eqn:E; try (apply wp_ret, U; reflexivity).
  pose proof (at_addr _ _ _ _ _ _ (nextAddr s + 1) H) as H2.
  assert (W : wp (put_cell r (mkCell (DErr (msgs s (nextAddr s)) line) (cdoc c) (cdocvec c) (cmark c) (caddr c))) Q (with_nextAddr s (nextAddr s + 1))); [|exact W].
  eapply (r_put_cell false P s0 r c); [exact H2|split; [apply GR|discriminate]|exact L|reflexivity|reflexivity|reflexivity|easy|easy|now rewrite E|].
  intros s' H' LK. apply K; [exact H'| |].
  - intros c1 L1 E1. rewrite L in L1. injection L1 as <-. rewrite E in E1. discriminate.
  - intros x. rewrite LK. destruct (N.eqb_spec x r); [|auto]. right. split; [assumption|]. subst. exists c. eexists. cbn in *. rewrite E. auto.
Qed.

(** ** Environments *)
Lemma r_env_set q P s0 e k v pre G (Q : unit -> vm -> Prop) s : At q P s0 pre G s -> (D = false -> live s e) -> mine q P s0 e -> good P s k -> good P s v ->
  (forall s', At q P s0 pre G s' -> Q tt s') -> wp (env_set e k v) Q s.
Proof.
  intros H LE MI GK GV K. unfold env_set. apply wp_bind, wp_get; [apply GK|]. intros ck LK.
  destruct (cdata ck) eqn:E; try apply wp_unmodelled. apply wp_bind, wp_get; [exact LE|]. intros ce LC.
  destruct (cdata ce) eqn:E2; try apply wp_undef.
  assert (HE : At q P s0 pre (fun x => x = e /\ False \/ G x) s) by (apply at_more; [exact H|tauto]).
  apply (wp_put D P); [apply H|exact LE| | |].
  - split; [|easy]. intros x R. apply rebind_ref in R as [->|[->|R]]; auto. eapply at_dref; eauto. rewrite E2. exact R.
  - intros _ c' L' F. rewrite LC in L'. injection L' as <-. now rewrite E2 in F.
  - intros c' L' I'. apply K. now apply at_write.
Qed.
Lemma r_env_get q P s0 e t pre G (Q : option ref -> vm -> Prop) s : At q P s0 pre G s -> (D = false -> live s e) ->
  (forall o, (forall v, o = Some v -> good P s v) -> Q o s) -> wp (env_get e t) Q s.
Proof.
  intros H LE K. unfold env_get. apply wp_heap.
  - intros ED. apply nd_env_find; [eapply at_closed; eauto|now apply LE].
  - intros o E. apply K. intros v ->. apply env_find_dref in E as (r & c & L & R). eapply at_dref; eauto.
Qed.
End Safe.
