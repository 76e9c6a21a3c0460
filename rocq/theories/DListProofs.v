(** The linked list and the queue refine sequences. *)
From Coq Require Import List NArith ZArith Bool Lia Arith.
From Coq Require Import ZifyBool ZifyNat.
From Verif Require Import Base ListLemmas SpecSeq DList SpecDList.
Import ListNotations.

Section P.
Context {X : Type}.
Notation heap := (nat -> option (node X)).

Definition first (cs : list (nat * X)) (n : option nat) : option nat :=
  match cs with [] => n | (b, _) :: _ => Some b end.
Fixpoint lastp (cs : list (nat * X)) (p : option nat) : option nat :=
  match cs with [] => p | (b, _) :: t => lastp t (Some b) end.

Fixpoint seg (m : heap) (p : option nat) (cs : list (nat * X)) (n : option nat) : Prop :=
  match cs with
  | [] => True
  | (a, x) :: t => m a = Some (mkNode x (first t n) p) /\ seg m (Some a) t n
  end.

Lemma first_app c1 c2 n : first (c1 ++ c2) n = first c1 (first c2 n).
Proof. destruct c1 as [|[a x] c1]; reflexivity. Qed.
Lemma lastp_app c1 : forall c2 p, lastp (c1 ++ c2) p = lastp c2 (lastp c1 p).
Proof. induction c1 as [|[a x] c1 IH]; intros; cbn; auto. Qed.
Lemma seg_app m c1 : forall p c2 n,
  seg m p (c1 ++ c2) n <-> seg m p c1 (first c2 n) /\ seg m (lastp c1 p) c2 n.
Proof.
  induction c1 as [|[a x] c1 IH]; intros p c2 n; cbn [app seg lastp]; [tauto|].
  rewrite IH, first_app. tauto.
Qed.
Lemma seg_frame m a v cs : forall p n, ~ In a (map fst cs) -> seg (upd m a v) p cs n <-> seg m p cs n.
Proof.
  induction cs as [|[b x] cs IH]; intros p n H; cbn [seg map fst In] in *; [tauto|].
  rewrite IH by tauto. unfold upd at 1. destruct (Nat.eqb_spec b a); [tauto | reflexivity].
Qed.

Lemma first_cons a x t n : first ((a, x) :: t) n = Some a. Proof. reflexivity. Qed.
Lemma lastp_snoc c a x p : lastp (c ++ [(a, x)]) p = Some a. Proof. now rewrite lastp_app. Qed.

Definition rep (d : dlist X) (cs : list (nat * X)) : Prop :=
  seg (mem d) None cs None /\ NoDup (map fst cs) /\ Forall (fun a => a < fresh d) (map fst cs)
  /\ front d = first cs None /\ back d = lastp cs None /\ count d = length cs.

Lemma upd_eq (m : heap) a v : upd m a v a = v.
Proof. unfold upd. now rewrite Nat.eqb_refl. Qed.
Lemma upd_neq (m : heap) a b v : b <> a -> upd m a v b = m b.
Proof. intros. unfold upd. destruct (Nat.eqb_spec b a); congruence. Qed.

Lemma fresh_notin d cs : rep d cs -> ~ In (fresh d) (map fst cs).
Proof.
  intros (_ & _ & H & _) Hin. rewrite Forall_forall in H. apply H in Hin. lia.
Qed.

(** Changing the previous pointer of the first cell of a segment. *)
Lemma seg_set_prev m p q a x t n : seg m p ((a, x) :: t) n -> ~ In a (map fst t) ->
  set_prev m (Some a) q = Ret (upd m a (Some (mkNode x (first t n) q)))
  /\ seg (upd m a (Some (mkNode x (first t n) q))) q ((a, x) :: t) n.
Proof.
  cbn [seg]. intros [H1 H2] Hn. unfold set_prev, deref. rewrite H1. cbn. split; [reflexivity|].
  rewrite upd_eq. split; [reflexivity|]. now apply seg_frame.
Qed.

(** Changing the next pointer of the last cell of a segment. *)
Lemma seg_set_next m p c a x n n' : seg m p (c ++ [(a, x)]) n -> ~ In a (map fst c) ->
  set_next m (Some a) n' = Ret (upd m a (Some (mkNode x n' (lastp c p))))
  /\ seg (upd m a (Some (mkNode x n' (lastp c p)))) p (c ++ [(a, x)]) n'.
Proof.
  rewrite !seg_app. cbn [seg first]. intros [H1 [H2 _]] Hn.
  unfold set_next, deref. rewrite H2. cbn. split; [reflexivity|].
  rewrite upd_eq. repeat split. apply seg_frame; assumption.
Qed.

Lemma NoDup_snoc {Y} (l : list Y) a : NoDup l -> ~ In a l -> NoDup (l ++ [a]).
Proof.
  intros H1 H2. apply NoDup_rev in H1. rewrite <- (rev_involutive (l ++ [a])). apply NoDup_rev.
  rewrite rev_app_distr. cbn. constructor; [now rewrite <- in_rev | exact H1].
Qed.
Lemma NoDup_unsnoc {Y} (l : list Y) a : NoDup (l ++ [a]) -> NoDup l /\ ~ In a l.
Proof. intros H. pose proof (NoDup_remove l [] a H). now rewrite app_nil_r in *. Qed.

Lemma push_front_ok d cs x : rep d cs ->
  exists d', dl_push_front d x = Ret d' /\ rep d' ((fresh d, x) :: cs).
Proof.
  intros R. pose proof (fresh_notin d cs R) as Hf.
  destruct R as (Hs & Hnd & Hlt & Hfr & Hbk & Hc).
  unfold dl_push_front. rewrite Hfr.
  assert (HltS : Forall (fun a => a < S (fresh d)) (map fst cs)).
  { eapply Forall_impl; [|exact Hlt]. cbn. lia. }
  destruct cs as [|[b y] t].
  - cbn [first set_prev_if obind]. eexists; split; [reflexivity|].
    rewrite Hc. unfold rep. cbn. rewrite upd_eq.
    repeat split; auto; repeat constructor; auto; try lia.
  - cbn [first set_prev_if]. apply seg_frame with (a := fresh d) (v := Some (mkNode x (Some b) None)) in Hs; [|exact Hf].
    pose proof Hs as Hs'.
    destruct (seg_set_prev _ None (Some (fresh d)) b y t None Hs') as [E Hs2].
    { cbn in Hnd. now inversion Hnd. }
    rewrite E. cbn [obind]. eexists; split; [reflexivity|].
    assert (Hb : b <> fresh d) by (intros ->; apply Hf; now left).
    unfold rep. cbn [mem fresh front back count map fst first lastp].
    split. { cbn [seg first] in *. rewrite (upd_neq _ b (fresh d)) by congruence. rewrite upd_eq.
      split; [reflexivity|exact Hs2]. }
    split; [constructor; assumption|]. split; [constructor; [lia|assumption]|].
    split; [reflexivity|]. rewrite Hc. cbn. split; [exact Hbk | reflexivity].
Qed.

Lemma push_back_ok d cs x : rep d cs ->
  exists d', dl_push_back d x = Ret d' /\ rep d' (cs ++ [(fresh d, x)]).
Proof.
  intros R. pose proof (fresh_notin d cs R) as Hf.
  destruct R as (Hs & Hnd & Hlt & Hfr & Hbk & Hc).
  unfold dl_push_back. rewrite Hbk.
  assert (HltS : Forall (fun a => a < S (fresh d)) (map fst cs)).
  { eapply Forall_impl; [|exact Hlt]. cbn. lia. }
  destruct cs as [|[b y] t] using rev_ind.
  - cbn [lastp set_next_if obind]. rewrite Hc. unfold get_prev, deref. rewrite upd_eq. cbn.
    eexists; split; [reflexivity|]. unfold rep. cbn. rewrite upd_eq.
    repeat split; auto; repeat constructor; auto; try lia.
  - clear IHt. rewrite lastp_snoc. cbn [set_next_if].
    apply seg_frame with (a := fresh d) (v := Some (mkNode x None (Some b))) in Hs; [|exact Hf].
    pose proof Hnd as Hnd0. rewrite map_app in Hnd. cbn [map fst] in Hnd.
    destruct (NoDup_unsnoc _ _ Hnd) as [Hnd1 Hnb].
    destruct (seg_set_next _ None t b y None (Some (fresh d)) Hs Hnb) as [E Hs2].
    rewrite E. cbn [obind].
    assert (Hb : b <> fresh d).
    { intros ->. apply Hf. rewrite map_app. apply in_or_app; right; now left. }
    unfold get_prev, deref. rewrite (upd_neq _ b (fresh d)) by congruence. rewrite upd_eq.
    cbn [obind snd prv].
    destruct (count d) as [|n] eqn:Ec; [rewrite app_length in Hc; cbn in Hc; lia|].
    cbn [Nat.eqb].
    eexists; split; [reflexivity|].
    unfold rep. cbn [mem fresh front back count].
    split. { rewrite seg_app. cbn [first]. split; [exact Hs2|]. rewrite lastp_snoc. cbn.
             rewrite (upd_neq _ b (fresh d)) by congruence. rewrite upd_eq. auto. }
    split. { rewrite map_app. cbn [map fst]. now apply NoDup_snoc. }
    split. { rewrite map_app. apply Forall_app. split; [exact HltS|]. constructor; [cbn; lia|constructor]. }
    split. { rewrite Hfr. destruct t as [|[? ?] ?]; reflexivity. }
    split. { now rewrite lastp_snoc. }
    rewrite app_length. cbn. lia.
Qed.

Lemma pop_front_ok d cs : rep d cs -> exists d', dl_pop_front d = Ret d' /\ rep d' (tl cs).
Proof.
  intros R. pose proof R as R0. destruct R as (Hs & Hnd & Hlt & Hfr & Hbk & Hc).
  unfold dl_pop_front. destruct cs as [|[a x] t].
  { rewrite Hfr. cbn. eauto. }
  rewrite Hfr. cbn [first]. cbn [seg] in Hs. destruct Hs as [Ha Hs].
  unfold get_next at 1, deref. rewrite Ha. cbn [obind snd nxt].
  cbn [map fst] in Hnd, Hlt. inversion Hnd as [|? ? Hna Hnd']; subst.
  inversion Hlt as [|? ? Hla Hlt']; subst.
  destruct t as [|[b y] t].
  - cbn [first set_prev_if obind]. unfold set_next, deref. rewrite Ha. cbn [obind fst snd elem prv].
    unfold get_prev, deref. rewrite upd_eq. cbn [obind snd prv]. cbn in Hc. rewrite Hc. cbn [length].
    eexists; split; [reflexivity|]. cbn [Nat.eqb]. unfold rep. cbn. repeat split; auto; constructor.
  - cbn [first set_prev_if].
    destruct (seg_set_prev _ (Some a) None b y t None Hs) as [E Hs2].
    { cbn in Hnd'. now inversion Hnd'. }
    rewrite E. cbn [obind].
    assert (Hab : a <> b) by (intros ->; apply Hna; now left).
    unfold set_next, deref. rewrite (upd_neq _ b a) by congruence. rewrite Ha. cbn [obind fst snd elem prv].
    unfold get_prev, deref. rewrite upd_eq. cbn [obind snd prv].
    rewrite Hc. cbn [length Nat.eqb].
    eexists; split; [reflexivity|]. unfold rep. cbn [mem fresh front back count tl release].
    split. { apply seg_frame; [exact Hna|]. apply seg_frame; [exact Hna|]. exact Hs2. }
    repeat split; auto.
Qed.

Lemma pop_back_ok d cs : rep d cs -> exists d', dl_pop_back d = Ret d' /\ rep d' (removelast cs).
Proof.
  intros R. pose proof R as R0. destruct R as (Hs & Hnd & Hlt & Hfr & Hbk & Hc).
  unfold dl_pop_back. destruct cs as [|[a x] t _] using rev_ind.
  { rewrite Hbk. cbn. eauto. }
  rewrite Hbk, lastp_snoc, removelast_last. rewrite seg_app in Hs. cbn [seg first] in Hs.
  destruct Hs as [Hs [Ha _]].
  unfold get_prev at 1, deref. rewrite Ha. cbn [obind snd prv].
  rewrite map_app in Hnd, Hlt. cbn [map fst] in Hnd, Hlt. apply NoDup_unsnoc in Hnd as [Hnd' Hna].
  apply Forall_app in Hlt as [Hlt' _]. rewrite app_length in Hc. cbn [length] in Hc.
  destruct t as [|[b y] t _] using rev_ind.
  - cbn [lastp set_next_if obind]. unfold set_prev, deref. rewrite Ha. cbn [obind fst snd elem nxt].
    unfold get_next, deref. rewrite upd_eq. cbn [obind snd nxt]. cbn in Hc. rewrite Hc. cbn [length].
    eexists; split; [reflexivity|]. cbn [Nat.eqb]. unfold rep. cbn. repeat split; auto; constructor.
  - rewrite lastp_snoc in *. cbn [set_next_if]. rewrite map_app in Hnd', Hna. cbn [map fst] in Hnd', Hna.
    destruct (NoDup_unsnoc _ _ Hnd') as [Hnd'' Hnb].
    destruct (seg_set_next _ None t b y (Some a) None Hs Hnb) as [E Hs2].
    rewrite E. cbn [obind].
    assert (Hab : a <> b) by (intros ->; apply Hna, in_or_app; right; now left).
    unfold set_prev, deref. rewrite (upd_neq _ b a) by congruence. rewrite Ha. cbn [obind fst snd elem nxt].
    unfold get_next, deref. rewrite upd_eq. cbn [obind snd nxt].
    rewrite app_length in Hc. cbn [length] in Hc.
    destruct (count d) as [|n] eqn:Ec; [lia|].
    destruct n as [|n]; [lia|]. cbn [Nat.eqb].
    eexists; split; [reflexivity|]. unfold rep. cbn [mem fresh front back count release].
    assert (Hna' : ~ In a (map fst (t ++ [(b, y)]))) by (rewrite map_app; exact Hna).
    split. { apply seg_frame; [exact Hna'|]. apply seg_frame; [exact Hna'|]. exact Hs2. }
    split. { rewrite map_app. exact Hnd'. } split; [exact Hlt'|].
    split. { rewrite Hfr, !first_app. destruct t as [|[? ?] ?]; reflexivity. }
    split. { now rewrite lastp_snoc. } rewrite app_length. cbn. lia.
Qed.

Lemma remove_middle_ok d c1 p xp a x n xn c2 :
  let cs := (c1 ++ [(p, xp)]) ++ (a, x) :: (n, xn) :: c2 in
  rep d cs -> exists d', dl_remove d (Some a) = Ret d' /\ rep d' ((c1 ++ [(p, xp)]) ++ (n, xn) :: c2).
Proof.
  intros cs R. destruct R as (Hs & Hnd & Hlt & Hfr & Hbk & Hc). subst cs.
  assert (Hperm : NoDup (map fst (c1 ++ [(p, xp)]) ++ map fst ((a, x) :: (n, xn) :: c2)))
    by (rewrite <- map_app; exact Hnd).
  cbn [map fst] in Hperm.
  pose proof (NoDup_remove _ _ _ Hperm) as [Hnd' Hna].
  assert (Hna1 : ~ In a (map fst (c1 ++ [(p, xp)]))) by (intro; apply Hna, in_or_app; auto).
  assert (Hna2 : ~ In a (n :: map fst c2)) by (intro; apply Hna, in_or_app; auto).
  pose proof (NoDup_remove _ _ _ Hnd') as [Hnd2 Hnn].
  assert (Hnn1 : ~ In n (map fst (c1 ++ [(p, xp)]))) by (intro; apply Hnn, in_or_app; auto).
  assert (Hnn2 : ~ In n (map fst c2)) by (intro; apply Hnn, in_or_app; auto).
  rewrite map_app in Hna1, Hnn1. cbn [map fst] in Hna1, Hnn1.
  assert (Hp : ~ In p (map fst c1) /\ ~ In p (map fst c2)).
  { rewrite map_app in Hnd2. cbn [map fst] in Hnd2. rewrite <- app_assoc in Hnd2. cbn in Hnd2.
    apply NoDup_remove_2 in Hnd2. split; intro; apply Hnd2, in_or_app; auto. }
  destruct Hp as [Hp1 Hp2].
  assert (Hap : a <> p) by (intros ->; apply Hna1, in_or_app; right; now left).
  assert (Han : a <> n) by (intros ->; apply Hna2; now left).
  assert (Hpn : p <> n) by (intros ->; apply Hnn1, in_or_app; right; now left).
  rewrite seg_app in Hs. cbn [first] in Hs. destruct Hs as [Hs1 Hs2].
  rewrite lastp_snoc in Hs2. cbn [seg first] in Hs2. destruct Hs2 as (Ha & Hn & Hs2).
  unfold dl_remove. rewrite Hfr, Hbk.
  replace (ptr_eqb (Some a) (first ((c1 ++ [(p, xp)]) ++ (a, x) :: (n, xn) :: c2) None)) with false.
  2:{ symmetry. destruct c1 as [|[b y] c1]; cbn; [now apply Nat.eqb_neq|].
      apply Nat.eqb_neq. intros ->. apply Hna1. now left. }
  replace (ptr_eqb (Some a) (lastp ((c1 ++ [(p, xp)]) ++ (a, x) :: (n, xn) :: c2) None)) with false.
  2:{ symmetry. rewrite lastp_app. cbn [lastp].
      destruct c2 as [|[b y] c2 _] using rev_ind; [now apply Nat.eqb_neq|].
      rewrite lastp_snoc. apply Nat.eqb_neq. intros ->. apply Hna2. right. rewrite map_app.
      apply in_or_app; right; now left. }
  unfold get_prev, deref. rewrite Ha. cbn [obind snd prv]. unfold get_next, deref. rewrite Ha. cbn [obind snd nxt].
  cbn [set_next_if].
  destruct (seg_set_next _ None c1 p xp (Some a) (Some n) Hs1 Hp1) as [E1 Hs1'].
  rewrite E1. cbn [obind set_prev_if]. clear E1.
  set (m1 := upd (mem d) p _) in *.
  assert (Hn1 : m1 n = Some (mkNode xn (first c2 None) (Some a))) by (unfold m1; rewrite upd_neq; auto).
  unfold set_prev at 1, deref. rewrite Hn1. cbn [obind fst snd elem nxt].
  set (m2 := upd m1 n _).
  assert (Ha2 : m2 a = Some (mkNode x (Some n) (Some p))).
  { unfold m2, m1. rewrite !upd_neq by auto. exact Ha. }
  unfold set_next, deref. rewrite Ha2. cbn [obind fst snd elem prv].
  unfold set_prev, deref. rewrite upd_eq. cbn [obind fst snd elem nxt].
  rewrite !app_length in Hc. cbn [length] in Hc.
  destruct (count d) as [|k] eqn:Ec; [lia|]. destruct k as [|k]; [lia|]. cbn [Nat.eqb].
  eexists; split; [reflexivity|]. unfold rep. cbn [mem fresh front back count release].
  split.
  { apply seg_app. cbn [first]. rewrite lastp_snoc.
    split.
    - apply seg_frame; [rewrite map_app; exact Hna1|]. apply seg_frame; [rewrite map_app; exact Hna1|].
      apply seg_frame; [rewrite map_app; exact Hna1|]. apply seg_frame; [rewrite map_app; exact Hnn1|].
      exact Hs1'.
    - apply seg_frame; [exact Hna2|]. apply seg_frame; [exact Hna2|]. apply seg_frame; [exact Hna2|].
      cbn [seg]. unfold m2 at 1. rewrite upd_eq. split; [reflexivity|].
      apply seg_frame; [exact Hnn2|]. unfold m1. apply seg_frame; [exact Hp2|]. exact Hs2. }
  split. { rewrite map_app. cbn [map fst]. exact Hnd'. }
  split. { rewrite map_app in Hlt |- *. apply Forall_app in Hlt as [L1 L2]. apply Forall_app.
           split; [exact L1|]. cbn [map fst] in *. now inversion L2. }
  split. { rewrite !first_app. destruct c1 as [|[? ?] ?]; reflexivity. }
  split. { rewrite !lastp_app. reflexivity. }
  rewrite !app_length. cbn [length]. lia.
Qed.

Lemma iter_nth_ok m k : forall cs p, seg m p cs None ->
  iter_nth m k (first cs None) = Ret (option_map fst (nth_error cs k)).
Proof.
  induction k as [|k IH]; intros [|[a x] cs] p H; cbn [first iter_nth nth_error option_map]; try reflexivity.
  cbn [seg] in H. destruct H as [H1 H2]. unfold get_next, deref. rewrite H1. cbn [obind snd nxt].
  now apply IH with (p := Some a).
Qed.

Lemma remove_ok d cs k a x : rep d cs -> nth_error cs k = Some (a, x) ->
  exists d', dl_remove d (Some a) = Ret d' /\ rep d' (delete_at k cs).
Proof.
  intros R H. pose proof R as (Hs & Hnd & Hlt & Hfr & Hbk & Hc).
  pose proof (nth_error_split_eq _ _ _ H) as E. unfold delete_at.
  assert (Hk : k < length cs) by (apply nth_error_Some; congruence).
  set (c1 := firstn k cs) in *. set (c2 := skipn (S k) cs) in *. clearbody c1 c2. subst cs.
  destruct c1 as [|[p xp] c1 _] using rev_ind.
  - unfold dl_remove. rewrite Hfr. cbn. rewrite Nat.eqb_refl. apply (pop_front_ok d _ R).
  - destruct c2 as [|[n xn] c2].
    + unfold dl_remove. rewrite Hfr, Hbk.
      replace (ptr_eqb (Some a) (first ((c1 ++ [(p, xp)]) ++ [(a, x)]) None)) with false.
      2:{ symmetry. rewrite map_app in Hnd. cbn [map fst] in Hnd. apply NoDup_unsnoc in Hnd as [_ Hn].
          rewrite map_app in Hn.
          destruct c1 as [|[b y] c1]; cbn; apply Nat.eqb_neq; intros ->; apply Hn; now left. }
      rewrite lastp_snoc. cbn [ptr_eqb]. rewrite Nat.eqb_refl.
      destruct (pop_back_ok d _ R) as (d' & E' & R'). rewrite removelast_last in R'.
      rewrite app_nil_r. eauto.
    + now apply remove_middle_ok with (a := a) (x := x).
Qed.

Lemma clear_loop_ok n : forall d cs, rep d cs -> length cs <= n ->
  exists d', dl_clear_loop n d = Ret d' /\ rep d' [].
Proof.
  induction n as [|n IH]; intros d cs R Hn; pose proof R as (_ & _ & _ & Hfr & _).
  - destruct cs as [|? ?]; cbn in Hn; [|lia]. cbn in *. rewrite Hfr. eauto.
  - cbn [dl_clear_loop]. rewrite Hfr. destruct cs as [|[a x] cs].
    + cbn. eauto.
    + cbn [first]. destruct (pop_front_ok d _ R) as (d' & -> & R'). cbn [obind].
      apply (IH d' cs R'). cbn in Hn. lia.
Qed.

Lemma delete_at_past {Y} k (l : list Y) : length l <= k -> delete_at k l = l.
Proof. intros. unfold delete_at. rewrite firstn_all2, skipn_all2 by lia. apply app_nil_r. Qed.

Lemma map_tl {Y Z'} (f : Y -> Z') l : map f (tl l) = tl (map f l).
Proof. destruct l; reflexivity. Qed.
Lemma map_removelast {Y Z'} (f : Y -> Z') l : map f (removelast l) = removelast (map f l).
Proof.
  destruct l as [|x l _] using rev_ind; [reflexivity|]. rewrite removelast_last, map_app. cbn [map]. now rewrite removelast_last.
Qed.

Lemma step_ok d cs o : rep d cs ->
  exists d' cs', dl_step d o = Ret d' /\ rep d' cs' /\ map snd cs' = spec_dl_step (map snd cs) o.
Proof.
  intros R. destruct o as [x|x| | |k|]; cbn [dl_step spec_dl_step].
  - destruct (push_front_ok d cs x R) as (d' & E & R'). exists d', ((fresh d, x) :: cs). auto.
  - destruct (push_back_ok d cs x R) as (d' & E & R'). exists d', (cs ++ [(fresh d, x)]).
    rewrite map_app. auto.
  - destruct (pop_front_ok d cs R) as (d' & E & R'). exists d', (tl cs). rewrite map_tl. auto.
  - destruct (pop_back_ok d cs R) as (d' & E & R'). exists d', (removelast cs). rewrite map_removelast. auto.
  - pose proof R as (Hs & _ & _ & Hfr & _). rewrite Hfr, (iter_nth_ok _ _ _ None Hs). cbn [obind].
    destruct (nth_error cs k) as [[a x]|] eqn:E; cbn [option_map fst].
    + destruct (remove_ok d cs k a x R E) as (d' & E' & R'). exists d', (delete_at k cs).
      unfold delete_at. rewrite map_app, firstn_map, skipn_map. auto.
    + exists d, cs. apply nth_error_None in E. rewrite delete_at_past by (rewrite map_length; lia). auto.
  - unfold dl_clear. pose proof R as (_ & _ & _ & _ & _ & Hc). rewrite Hc.
    destruct (clear_loop_ok (length cs) d cs R (Nat.le_refl _)) as (d' & E & R'). exists d', []. auto.
Qed.

Lemma run_ok ops : forall d cs, rep d cs ->
  exists d' cs', dl_run d ops = Ret d' /\ rep d' cs' /\ map snd cs' = spec_dl_run (map snd cs) ops.
Proof.
  induction ops as [|o ops IH]; intros d cs R; cbn [dl_run].
  - exists d, cs. auto.
  - destruct (step_ok d cs o R) as (d1 & cs1 & -> & R1 & E1). cbn [obind].
    destruct (IH d1 cs1 R1) as (d2 & cs2 & E2 & R2 & E3). exists d2, cs2.
    split; [exact E2|]. split; [exact R2|]. rewrite E3, E1. reflexivity.
Qed.

Lemma rep_new : rep (dl_new (X := X)) [].
Proof. unfold rep, dl_new. cbn. repeat split; constructor. Qed.

Lemma iterate_ok m n : forall cs p, seg m p cs None -> length cs <= n ->
  dl_iterate n m (first cs None) = Ret (map snd cs).
Proof.
  induction n as [|n IH]; intros [|[a x] cs] p H Hn; cbn [length] in Hn; try lia; try reflexivity.
  cbn [first dl_iterate]. cbn [seg] in H. destruct H as [H1 H2].
  unfold get_next, deref. rewrite H1. cbn [obind snd nxt].
  rewrite (IH cs (Some a) H2) by lia. reflexivity.
Qed.

Lemma iterate_back_ok m n : forall cs nx, seg m None cs nx -> length cs <= n ->
  dl_iterate_back n m (lastp cs None) = Ret (rev (map snd cs)).
Proof.
  induction n as [|n IH]; intros cs nx H Hn.
  - destruct cs; cbn in Hn; [reflexivity | lia].
  - destruct cs as [|[a x] cs _] using rev_ind; [reflexivity|].
    rewrite lastp_snoc. cbn [dl_iterate_back]. apply seg_app in H as [H1 [H2 _]].
    unfold get_prev, deref. rewrite H2. cbn [obind snd prv].
    rewrite app_length in Hn. cbn in Hn.
    rewrite (IH cs _ H1) by lia. cbn [obind elem]. rewrite map_app, rev_app_distr. reflexivity.
Qed.

Lemma walk_next_ok m k : forall cs p, cs <> [] -> seg m p cs None ->
  walk get_next m k (first cs None) = Ret (option_map fst (nth_error cs k)).
Proof.
  induction k as [|k IH]; intros [|[a x] cs] p Hne H; try congruence; [reflexivity|].
  cbn [first walk nth_error]. cbn [seg] in H. destruct H as [H1 H2].
  unfold get_next at 1, deref. rewrite H1. cbn [obind snd nxt].
  destruct cs as [|[b y] cs]; [now destruct k|]. cbn [first].
  change (Some b) with (first ((b, y) :: cs) None). apply IH with (p := Some a); [discriminate|exact H2].
Qed.

Lemma walk_prev_ok m k : forall cs nx, cs <> [] -> seg m None cs nx ->
  walk get_prev m k (lastp cs None) = Ret (option_map fst (nth_error (rev cs) k)).
Proof.
  induction k as [|k IH]; intros cs nx Hne H; destruct cs as [|[a x] cs _] using rev_ind; try congruence.
  - rewrite lastp_snoc, rev_app_distr. reflexivity.
  - rewrite lastp_snoc, rev_app_distr. cbn [walk rev app nth_error]. apply seg_app in H as [H1 [H2 _]].
    unfold get_prev at 1, deref. rewrite H2. cbn [obind snd prv].
    destruct cs as [|[b y] cs _] using rev_ind; [now destruct k|]. rewrite lastp_snoc.
    rewrite <- (lastp_snoc cs b y None). apply IH with (nx := Some a); [|exact H1].
    intros E. apply app_eq_nil in E as [_ E]. discriminate.
Qed.

Lemma nth_error_rev' {Y} (l : list Y) k : k < length l -> nth_error (rev l) k = nth_error l (length l - S k).
Proof.
  revert k; induction l as [|x l IH] using rev_ind; intros k H; [cbn in H; lia|].
  rewrite rev_app_distr, app_length in *. cbn [rev app length] in *. destruct k as [|k].
  - cbn. rewrite nth_error_app2 by lia. replace (length l + 1 - 1 - length l) with 0 by lia. reflexivity.
  - cbn [nth_error]. rewrite IH by lia. rewrite nth_error_app1 by lia. f_equal. lia.
Qed.

Lemma get_at_ok d cs i : rep d cs -> cs <> [] ->
  dl_get_at d i = Ret (match position (length cs) i with
                       | Some k => option_map fst (nth_error cs k)
                       | None => None
                       end).
Proof.
  intros (Hs & _ & _ & Hfr & Hbk & _) Hne. unfold dl_get_at, position. rewrite Hfr, Hbk.
  destruct (i <? 0)%Z eqn:Ei.
  - replace ((0 <=? i) && _)%Z with false by lia. rewrite andb_true_r.
    rewrite (walk_prev_ok _ _ cs None Hne Hs).
    destruct (- Z.of_nat (length cs) <=? i)%Z eqn:El.
    + rewrite nth_error_rev' by lia. do 3 f_equal. lia.
    + replace (nth_error (rev cs) (Z.to_nat (- (i + 1)))) with (@None (nat * X)); [reflexivity|].
      symmetry. apply nth_error_None. rewrite rev_length. lia.
  - rewrite (walk_next_ok _ _ cs None Hne Hs).
    destruct (i <? Z.of_nat (length cs))%Z eqn:El.
    + replace ((0 <=? i) && true)%Z with true by lia. reflexivity.
    + rewrite andb_false_r. replace ((- Z.of_nat (length cs) <=? i) && false)%Z with false by lia.
      replace (nth_error cs (Z.to_nat i)) with (@None (nat * X)); [reflexivity|].
      symmetry. apply nth_error_None. lia.
Qed.

Lemma get_at_empty_abort d i : rep d [] -> i <> 0%Z -> i <> (-1)%Z -> dl_get_at d i = Abort.
Proof.
  intros (_ & _ & _ & Hfr & Hbk & _) H0 H1. unfold dl_get_at. rewrite Hfr, Hbk. cbn [first lastp].
  destruct (i <? 0)%Z eqn:Ei.
  - destruct (Z.to_nat (- (i + 1))) eqn:E; [lia|]. reflexivity.
  - destruct (Z.to_nat i) eqn:E; [lia|]. reflexivity.
Qed.

Lemma get_at_empty_ok d i : rep d [] -> i = 0%Z \/ i = (-1)%Z -> dl_get_at d i = Ret None.
Proof.
  intros (_ & _ & _ & Hfr & Hbk & _) [-> | ->]; unfold dl_get_at; rewrite ?Hfr, ?Hbk; reflexivity.
Qed.

(** Queues. *)
Lemma ensure_loop_ok n : forall d cs mx, rep d cs -> length cs <= n ->
  exists d', q_ensure_loop n d mx = Ret d' /\ rep d' (skipn (length cs - mx) cs).
Proof.
  induction n as [|n IH]; intros d cs mx R Hn; pose proof R as (_ & _ & _ & _ & _ & Hc).
  - destruct cs; cbn in Hn; [|lia]. cbn in *. rewrite Hc. cbn.
    replace (mx <? 0) with false by (symmetry; apply Nat.ltb_ge; lia). eauto.
  - cbn [q_ensure_loop]. rewrite Hc. destruct (Nat.ltb_spec mx (length cs)) as [H|H].
    + destruct (pop_front_ok d cs R) as (d1 & -> & R1). cbn [obind].
      destruct cs as [|c cs]; [cbn in H; lia|]. cbn [tl length] in *.
      destruct (IH d1 cs mx R1) as (d' & E & R'); [lia|]. exists d'. split; [exact E|].
      replace (S (length cs) - mx) with (S (length cs - mx)) by lia. rewrite skipn_cons. exact R'.
    + exists d. split; [reflexivity|]. replace (length cs - mx) with 0 by lia. exact R.
Qed.

Definition qrep (q : queue X) (cs : list (nat * X)) (s : spec_q) : Prop :=
  rep (qlist q) cs /\ s = (map snd cs, maxLen q, hasMax q).

Lemma ensure_ok d cs mx b : rep d cs ->
  exists q', q_ensure (mkQ d mx b) = Ret q' /\ exists cs', qrep q' cs' (limited (map snd cs) mx b, mx, b).
Proof.
  intros R. unfold q_ensure. cbn [hasMax maxLen qlist]. destruct b.
  - pose proof R as (_ & _ & _ & _ & _ & Hc). rewrite Hc.
    destruct (ensure_loop_ok (length cs) d cs mx R (Nat.le_refl _)) as (d' & -> & R'). cbn [obind].
    eexists; split; [reflexivity|]. eexists; split; [exact R'|]. cbn.
    unfold limited, lastn. rewrite map_length, skipn_map. reflexivity.
  - eexists; split; [reflexivity|]. exists cs. split; [exact R|reflexivity].
Qed.

Lemma q_step_ok q cs s o : qrep q cs s ->
  exists q', q_step q o = Ret q' /\ exists cs', qrep q' cs' (spec_q_step s o).
Proof.
  intros [R ->]. destruct q as [d mx b]. cbn [qlist maxLen hasMax] in *.
  destruct o as [x| | |n|b']; cbn [q_step spec_q_step qlist maxLen hasMax].
  - destruct (push_back_ok d cs x R) as (d' & -> & R'). cbn [obind].
    destruct (ensure_ok d' _ mx b R') as (q' & E & cs' & H). rewrite map_app in H. cbn in H. eauto.
  - destruct (pop_front_ok d cs R) as (d' & -> & R'). cbn [obind].
    eexists; split; [reflexivity|]. eexists; split; [exact R'|]. cbn. now rewrite map_tl.
  - unfold dl_clear. pose proof R as (_ & _ & _ & _ & _ & Hc). rewrite Hc.
    destruct (clear_loop_ok (length cs) d cs R (Nat.le_refl _)) as (d' & -> & R'). cbn [obind].
    eexists; split; [reflexivity|]. eexists; split; [exact R'|reflexivity].
  - destruct (ensure_ok d cs n b R) as (q' & E & cs' & H). eauto.
  - destruct (ensure_ok d cs mx b' R) as (q' & E & cs' & H). eauto.
Qed.

Lemma q_run_ok ops : forall q cs s, qrep q cs s ->
  exists q', q_run q ops = Ret q' /\ exists cs', qrep q' cs' (spec_q_run s ops).
Proof.
  induction ops as [|o ops IH]; intros q cs s R; cbn [q_run].
  - eauto.
  - destruct (q_step_ok q cs s o R) as (q1 & -> & cs1 & R1). cbn [obind]. exact (IH q1 cs1 _ R1).
Qed.

End P.
