(** Properties C15-C22: linked lists, queues, hash maps. *)
From Coq Require Import List NArith ZArith Bool Lia Arith Permutation.
From Coq Require Import ZifyBool ZifyNat ZifyN.
From Verif Require Import Base SpecSeq DList SpecDList DListProofs HMap SpecMap HMapProofs.
Import ListNotations.

(** ** C15 *)
Theorem C15_list_well_formed : forall {X} (ops : list (dl_op X)),
  exists d, dl_run dl_new ops = Ret d
    /\ dl_forward d = Ret (spec_dl_run [] ops)
    /\ dl_backward d = Ret (rev (spec_dl_run [] ops))
    /\ count d = length (spec_dl_run [] ops)
    /\ (front d = None <-> spec_dl_run [] ops = []) /\ (back d = None <-> spec_dl_run [] ops = [])
    /\ (front d <> None -> get_prev (mem d) (front d) = Ret None)
    /\ (back d <> None -> get_next (mem d) (back d) = Ret None).
Proof.
  intros X ops. destruct (DListProofs.run_ok ops dl_new [] rep_new) as (d & cs & E & R & Es). cbn [map] in Es.
  rewrite <- Es. exists d. split; [exact E|]. destruct R as (Hs & Hn & Hf & Hfr & Hbk & Hc).
  unfold dl_forward, dl_backward. rewrite Hfr, Hbk, Hc.
  split; [now apply (iterate_ok _ _ cs None)|]. split; [now apply (iterate_back_ok _ _ cs None)|].
  split; [now rewrite map_length|].
  split; [destruct cs as [|[a x] cs]; cbn; split; congruence|].
  split. { destruct cs as [|[a x] cs _] using rev_ind; [now cbn|]. rewrite lastp_snoc, map_app.
    split; [congruence|]. intros K. now apply app_eq_nil in K as [_ K]. }
  split.
  - destruct cs as [|[a x] cs]; [now cbn|]. cbn [first seg] in *. destruct Hs as [Hs _].
    unfold get_prev, deref. now rewrite Hs.
  - destruct cs as [|[a x] cs _] using rev_ind; [now cbn|]. rewrite lastp_snoc.
    apply seg_app in Hs as [_ [Hs _]]. unfold get_next, deref. now rewrite Hs.
Qed.
Print Assumptions C15_list_well_formed.

Example C15_witness :
  spec_dl_run [] [LPushBack 1; LPushBack 2; LPushFront 0; LPushBack 3; LRemoveNth 2; LPopFront] = [1; 3].
Proof. reflexivity. Qed.

(** ** C16: refuted: indexing past the front of an empty list aborts. *)
Theorem C16_get_at_never_crashes_refuted :
  dl_get_at (X := N) dl_new 1 = Abort /\ dl_get_at (X := N) dl_new (-2) = Abort.
Proof. split; reflexivity. Qed.
Print Assumptions C16_get_at_never_crashes_refuted.

(** For a list with at least one element (or indices 0 and -1) the claim holds. *)
Theorem C16_get_at_partial : forall {X} (ops : list (dl_op X)) d i,
  dl_run dl_new ops = Ret d ->
  (spec_dl_run [] ops <> [] \/ i = 0%Z \/ i = (-1)%Z) ->
  obind (dl_get_at d i) (node_elem d)
  = Ret (match position (length (spec_dl_run [] ops)) i with
         | Some k => nth_error (spec_dl_run [] ops) k
         | None => None
         end).
Proof.
  intros X ops d i E Hi. destruct (DListProofs.run_ok ops dl_new [] rep_new) as (d' & cs & E' & R & Es).
  rewrite E' in E. injection E as ->. cbn [map] in Es. rewrite <- Es in *. rewrite map_length.
  destruct cs as [|c cs].
  - destruct Hi as [Hi|Hi]; [now cbn in Hi|]. rewrite (get_at_empty_ok d i R Hi).
    destruct Hi as [-> | ->]; reflexivity.
  - rewrite (get_at_ok d _ i R) by discriminate. cbn [obind].
    destruct (position _ _) as [k|]; [|reflexivity].
    destruct R as (Hs & _). revert Hs. generalize (c :: cs), (@None nat) at 1. clear.
    intros l; revert k; induction l as [|[a x] l IH]; intros [|k] p Hs; cbn [nth_error map option_map fst snd]; try reflexivity.
    + destruct Hs as [Hs _]. unfold node_elem, deref. now rewrite Hs.
    + destruct Hs as [_ Hs]. exact (IH k _ Hs).
Qed.
Print Assumptions C16_get_at_partial.

Example C16_witness :
  let r := dl_run dl_new [LPushBack 4; LPushBack 5; LPushBack 6] in
  map (fun i => obind r (fun d => obind (dl_get_at d i) (node_elem d))) [(-1)%Z; 1%Z; 3%Z]
  = [Ret (Some 6); Ret (Some 5); Ret None].
Proof. vm_compute. reflexivity. Qed.

(** ** C17 *)
Theorem C17_queue_fifo : forall {X} (start : option nat) (ops : list (q_op X)) l m b,
  spec_q_run (match start with None => ([], O, false) | Some m => ([], m, true) end) ops = (l, m, b) ->
  exists q, q_run (match start with None => q_new | Some m => q_new_max m end) ops = Ret q
    /\ dl_forward (qlist q) = Ret l /\ count (qlist q) = length l /\ maxLen q = m /\ hasMax q = b
    /\ q_peek q = Ret (hd_error l)
    /\ (forall i, l <> [] -> q_get_at q i = Ret (match position (length l) i with
                                                | Some k => nth_error l k | None => None end)).
Proof.
  intros X start ops l m b Es.
  assert (R0 : exists cs, qrep (match start with None => q_new | Some m => q_new_max m end) cs
    (match start with None => ([], O, false) | Some m => ([], m, true) end : spec_q (X := X))).
  { exists []. destruct start; (split; [exact rep_new | reflexivity]). }
  destruct R0 as (cs0 & R0). destruct (q_run_ok ops _ cs0 _ R0) as (q & E & cs & R & Eq).
  rewrite Es in Eq. injection Eq as -> -> ->. exists q. split; [exact E|].
  pose proof R as (Hs & _ & _ & Hfr & _ & Hc).
  split. { unfold dl_forward. rewrite Hfr, Hc. now apply (iterate_ok _ _ cs None). }
  split; [now rewrite map_length|]. split; [reflexivity|]. split; [reflexivity|].
  assert (Hn : forall k, node_elem (qlist q) (option_map fst (nth_error cs k)) = Ret (nth_error (map snd cs) k)).
  { clear -Hs. revert Hs. generalize (@None nat) at 1. induction cs as [|[a x] cs IH]; intros p Hs [|k]; try reflexivity.
    - destruct Hs as [Hs _]. cbn [nth_error map option_map fst snd]. unfold node_elem, deref. now rewrite Hs.
    - destruct Hs as [_ Hs]. exact (IH _ Hs k). }
  split.
  - unfold q_peek. rewrite Hfr. specialize (Hn 0). destruct cs as [|[a x] cs]; exact Hn.
  - intros i Hl. unfold q_get_at. rewrite map_length. rewrite (get_at_ok _ cs i R) by (destruct cs; [now cbn in Hl | discriminate]).
    cbn [obind]. destruct (position _ _); [apply Hn | reflexivity].
Qed.
Print Assumptions C17_queue_fifo.

(** The specification run, in words: pushing keeps the last [m] elements, and
    after any history with a limit in force the length is within it. *)
Theorem C17_queue_bounded : forall {X} (ops : list (q_op X)) (m : nat),
  Forall (fun o => match o with QSetMax _ | QSetHas _ => False | _ => True end) ops ->
  exists q l, q_run (q_new_max m) ops = Ret q /\ dl_forward (qlist q) = Ret l /\ length l <= m.
Proof.
  intros X ops m HF. pose proof (C17_queue_fifo (X := X) (Some m) ops) as H.
  assert (G : forall (ops : list (q_op X)) l, length l <= m ->
    Forall (fun o => match o with QSetMax _ | QSetHas _ => False | _ => True end) ops ->
    exists l', spec_q_run (l, m, true) ops = (l', m, true) /\ length l' <= m).
  { clear. induction ops as [|o ops IH]; intros l Hl HF; [now exists l|]. inversion HF; subst.
    change (spec_q_run (l, m, true) (o :: ops)) with (spec_q_run (spec_q_step (l, m, true) o) ops).
    destruct o; cbn [spec_q_step]; try contradiction; apply IH; try assumption.
    - unfold limited, lastn. rewrite skipn_length. lia.
    - destruct l; cbn in *; lia.
    - cbn. lia. }
  destruct (G ops [] ltac:(cbn; lia) HF) as (l' & E & Hl).
  destruct (H _ _ _ E) as (q & E1 & E2 & _). eauto.
Qed.
Print Assumptions C17_queue_bounded.

(** Without a limit nothing is dropped: pushes append, pops take the oldest. *)
Theorem C17_queue_unlimited_keeps_all : forall {X} (xs : list X) n,
  exists q, q_run q_new (map QPush xs ++ repeat QPop n) = Ret q /\ dl_forward (qlist q) = Ret (skipn n xs).
Proof.
  intros X xs n. pose proof (C17_queue_fifo (X := X) None (map QPush xs ++ repeat QPop n)) as H.
  assert (E : spec_q_run ([], O, false) (map QPush xs ++ repeat QPop n) = (skipn n xs, O, false)).
  { assert (E1 : forall l : list X, spec_q_run (l, O, false) (map QPush xs) = (l ++ xs, O, false)).
    { clear. induction xs as [|x xs IH]; intros l; cbn; [now rewrite app_nil_r|].
      unfold spec_q_run in IH. rewrite IH. cbn. now rewrite <- app_assoc. }
    assert (E2 : forall l : list X, spec_q_run (l, O, false) (repeat QPop n) = (skipn n l, O, false)).
    { clear. induction n as [|n IH]; intros l; cbn [repeat]; [reflexivity|].
      change (spec_q_run (tl l, O, false) (repeat QPop n) = (skipn (S n) l, O, false)). rewrite IH.
      destruct l; [now rewrite skipn_nil | reflexivity]. }
    unfold spec_q_run in *. rewrite fold_left_app, E1, E2. reflexivity. }
  destruct (H _ _ _ E) as (q & E1 & E2 & _). eauto.
Qed.
Print Assumptions C17_queue_unlimited_keeps_all.

Example C17_witness :
  let r := q_run (q_new_max 2) [QPush 1; QPush 2; QPush 3; QPop; QPush 4; QPush 5] in
  obind r (fun q => dl_forward (qlist q)) = Ret [4; 5] /\ obind r q_peek = Ret (Some 4).
Proof. split; vm_compute; reflexivity. Qed.

(** ** C18 *)
Theorem C18_map_refines_multimap : forall {K V} (keq : K -> K -> bool) (H : K -> N) (ops : list (map_op K V)),
  key_equality keq H ->
  exists m, map_run keq H map_new ops = Ret m
    /\ (forall k, match map_get keq m (H k) k with
                  | Some e => keq k (ekey e) = true /\ evals e = mm_run keq mm_empty ops k /\ evals e <> []
                  | None => mm_run keq mm_empty ops k = []
                  end)
    /\ exists keys, lists_keys keq (mm_run keq mm_empty ops) keys /\ numElements m = length keys.
Proof.
  intros K V keq H ops KE. destruct (run_ok keq H KE ops map_new mm_empty (map_new_inv keq H)) as (m & E & I).
  exists m. split; [exact E|]. split.
  - intros k. pose proof (map_get_ok keq H KE m _ k I) as G. destruct (map_get _ _ _ _); [|exact G].
    destruct G as (_ & G1 & G2 & G3). rewrite G2. auto.
  - exists (map (@ekey K V) (concat (buckets m))). split; [now apply (minv_lists_keys keq H)|].
    rewrite map_length. apply (mi_num _ _ _ _ I).
Qed.
Print Assumptions C18_map_refines_multimap.

Lemma N_key_equality : key_equality N.eqb (fun k => k).
Proof.
  repeat split.
  - apply N.eqb_refl.
  - apply N.eqb_sym.
  - intros a b c H1 H2. apply N.eqb_eq in H1, H2. subst. apply N.eqb_refl.
  - intros a b H. now apply N.eqb_eq in H.
Qed.

(** Colliding keys, a removal and a second value. *)
Example C18_witness :
  key_equality N.eqb (fun _ => 7%N) /\
  mm_run N.eqb mm_empty [MPut 1%N 10; MPut 2%N 20; MPut 1%N 11; MRemove 2%N] 1%N = [10; 11].
Proof.
  split; [|reflexivity]. destruct N_key_equality as (a & b & c & _). repeat split; assumption || auto.
Qed.

(** Adding a map to another one: every key keeps its values and gets those of the
    other map after them. *)
Theorem C18_add_map : forall {K V} (keq : K -> K -> bool) (H : K -> N) (ops ops2 : list (map_op K V)),
  key_equality keq H ->
  exists m m2 m', map_run keq H map_new ops = Ret m /\ map_run keq H map_new ops2 = Ret m2 /\ map_add_map keq m m2 = Ret m' /\
    (forall k, match map_get keq m' (H k) k with
               | Some e => keq k (ekey e) = true /\ evals e = mm_run keq mm_empty ops k ++ mm_run keq mm_empty ops2 k /\ evals e <> []
               | None => mm_run keq mm_empty ops k = [] /\ mm_run keq mm_empty ops2 k = []
               end) /\
    exists keys, lists_keys keq (fun k => mm_run keq mm_empty ops k ++ mm_run keq mm_empty ops2 k) keys /\ numElements m' = length keys.
Proof.
  intros K V keq H ops ops2 KE. destruct (run_ok keq H KE ops map_new mm_empty (map_new_inv keq H)) as (m & E & I).
  destruct (run_ok keq H KE ops2 map_new mm_empty (map_new_inv keq H)) as (m2 & E2 & I2). destruct (add_map_ok keq H KE m _ m2 _ I I2) as (m' & f' & E' & I' & F).
  exists m, m2, m'. split; [exact E|]. split; [exact E2|]. split; [exact E'|]. split.
  - intros k. pose proof (map_get_ok keq H KE m' _ k I') as G. destruct (map_get _ _ _ _).
    + destruct G as (_ & G1 & G2 & G3). rewrite <- F, G2. auto.
    + rewrite F in G. now apply app_eq_nil in G.
  - exists (map (@ekey K V) (concat (buckets m'))). pose proof (minv_lists_keys keq H m' f' I') as (L1 & L2 & L3). split; [|rewrite map_length; apply (mi_num _ _ _ _ I')].
    split; [exact L1|]. split; intros k; rewrite <- F; auto.
Qed.
Print Assumptions C18_add_map.
Example C18_add_map_witness :
  let ops := [MPut 1%N 10; MPut 2%N 20] in let ops2 := [MPut 1%N 11; MPut 1%N 12; MPut 3%N 30] in
  exists m m2 m', map_run N.eqb (fun _ => 7%N) map_new ops = Ret m /\ map_run N.eqb (fun _ => 7%N) map_new ops2 = Ret m2 /\ map_add_map N.eqb m m2 = Ret m' /\
  option_map evals (map_get N.eqb m' 7%N 1%N) = Some [10; 11; 12] /\ numElements m' = 3.
Proof. do 3 eexists. repeat split; vm_compute; reflexivity. Qed.

(** ** C19 *)
Theorem C19_iteration_visits_each_once : forall {K V} (keq : K -> K -> bool) (H : K -> N) (ops : list (map_op K V)),
  key_equality keq H ->
  exists m els, map_run keq H map_new ops = Ret m
    /\ map_iterate m = Ret els /\ length els = numElements m
    /\ lists_keys keq (mm_run keq mm_empty ops) (map (@ekey K V) els)
    /\ (forall e, In e els -> evals e = mm_run keq mm_empty ops (ekey e))
    /\ (forall i, (0 <= i)%Z -> map_get_at_index m i = nth_error els (Z.to_nat i))
    /\ (exists back, Permutation back els /\
          forall i, (i < 0)%Z -> map_get_at_index m i = nth_error back (Z.to_nat (- (i + 1)))).
Proof.
  intros K V keq H ops KE. destruct (run_ok keq H KE ops map_new mm_empty (map_new_inv keq H)) as (m & E & I).
  exists m, (concat (buckets m)). split; [exact E|].
  split; [now apply (map_iterate_ok keq H m _ I)|].
  split; [symmetry; apply (mi_num _ _ _ _ I)|].
  split; [now apply (minv_lists_keys keq H)|].
  split; [intros e He; apply (mi_vals _ _ _ _ I e He)|].
  split.
  - intros i Hi. unfold map_get_at_index. replace (i <? 0)%Z with false by lia.
    rewrite at_index_ok by lia. f_equal. lia.
  - exists (back_list (rev (buckets m))). split; [apply back_list_perm|].
    intros i Hi. unfold map_get_at_index. replace (i <? 0)%Z with true by lia.
    rewrite at_index_back_ok by lia. f_equal. lia.
Qed.
Print Assumptions C19_iteration_visits_each_once.

Example C19_witness : exists m els, map_run N.eqb (fun k => k) map_new [MPut 130%N 1; MPut 2%N 2; MPut 1%N 3] = Ret m
  /\ map_iterate m = Ret els /\ map (@ekey N nat) els = [1%N; 130%N; 2%N].
Proof. do 2 eexists. split; [reflexivity|]. split; reflexivity. Qed.

(** ** C20: no history of puts makes the assertion after a rehash fail. *)
Theorem C20_load_assertion_never_fires : forall {K V} (keq : K -> K -> bool) (H : K -> N) (ops : list (map_op K V)),
  key_equality keq H ->
  exists m, map_run keq H map_new ops = Ret m /\ (4 * inUse m < 3 * length (buckets m))%nat.
Proof.
  intros K V keq H ops KE. destruct (run_ok keq H KE ops map_new mm_empty (map_new_inv keq H)) as (m & E & I).
  exists m. split; [exact E | apply (mi_load _ _ _ _ I)].
Qed.
Print Assumptions C20_load_assertion_never_fires.

(** The assertion is really there: a map violating the invariant fails it, and
    a run that does rehash exists. *)
Example C20_witness :
  (exists m, map_run N.eqb (fun k => k) map_new (map (fun n => MPut (N.of_nat n) tt) (seq 0 100)) = Ret m
             /\ length (buckets m) = 256)
  /\ map_rehash (K := N) (V := N) (mkMap [[mkElem 0 0 []; mkElem 1 1 []]] 0 0)%N = Abort.
Proof. split; [eexists; split; vm_compute; reflexivity | reflexivity]. Qed.

(** ** C21: refuted: with never more than one element the table doubles forever. *)
Theorem C21_size_bounded_refuted : forall bound : nat,
  exists ops (m : hmap N N), map_run N.eqb (fun k => k) map_new ops = Ret m
    /\ (forall pre post m', ops = pre ++ post -> map_run N.eqb (fun k => k) map_new pre = Ret m' -> (numElements m' <= 1)%nat)
    /\ (bound < length (buckets m))%nat.
Proof.
  intros bound. destruct (unbounded_growth bound) as (n & u & E & _).
  exists (cycles n), (mkMap (repeat [] (128 * 2 ^ bound)) u 0). split; [exact E|]. split.
  - intros pre post m' Ho Er.
    pose proof (C18_map_refines_multimap N.eqb (fun k => k) pre N_key_equality) as (m2 & E2 & _ & keys & Hk & Hn).
    rewrite E2 in Er. injection Er as ->. rewrite Hn. destruct Hk as (D & L & _).
    assert (G : forall ops f k, Forall (fun o => match o with MPut k _ => k = 0%N | _ => True end) ops ->
      (f k <> [] -> k = 0%N) -> mm_run N.eqb f ops k <> ([] : list N) -> k = 0%N).
    { clear. induction ops as [|o ops IH]; intros f k HF Hf Hm; [now apply Hf|]. inversion HF; subst.
      apply (IH (mm_step N.eqb f o) k); try assumption. intros Hs. destruct o as [k' v|k'|]; cbn in Hs.
      - subst. destruct (N.eqb_spec 0 k); [congruence | now apply Hf].
      - destruct (N.eqb k' k); [now elim Hs | now apply Hf].
      - now elim Hs. }
    assert (HF : Forall (fun o : map_op N N => match o with MPut k _ => k = 0%N | _ => True end) pre).
    { assert (HA : Forall (fun o : map_op N N => match o with MPut k _ => k = 0%N | _ => True end) (cycles n)).
      { clear. induction n as [|n IH]; [constructor|]. cbn. repeat constructor; assumption. }
      rewrite Ho in HA. now apply Forall_app in HA. }
    destruct keys as [|a [|b keys]]; cbn; [lia|lia|]. exfalso.
    assert (a = 0%N) by (apply (G pre mm_empty a HF); [intros X; now elim X | apply L; cbn; auto]).
    assert (b = 0%N) by (apply (G pre mm_empty b HF); [intros X; now elim X | apply L; cbn; auto]).
    subst. inversion D as [|? ? HD _]; subst. inversion HD; subst. discriminate.
  - cbn [buckets]. rewrite repeat_length. clear. induction bound as [|b IH]; [cbn; lia|].
    rewrite Nat.pow_succ_r'. lia.
Qed.
Print Assumptions C21_size_bounded_refuted.

(** What does hold: the table has 128 * 2^j buckets, and their number is
    bounded by the number of operations. *)
Theorem C21_size_partial : forall {K V} (keq : K -> K -> bool) (H : K -> N) (ops : list (map_op K V)) m,
  key_equality keq H -> map_run keq H map_new ops = Ret m ->
  (exists j, length (buckets m) = 128 * 2 ^ j)
  /\ (length (buckets m) = 128 \/ 3 * length (buckets m) <= 8 * length ops).
Proof.
  intros K V keq H ops m KE E. destruct (run_ok keq H KE ops map_new mm_empty (map_new_inv keq H)) as (m' & E' & I).
  rewrite E in E'. injection E' as <-. split; [apply (mi_size _ _ _ _ I)|].
  apply (size_bound keq H KE ops m E).
Qed.
Print Assumptions C21_size_partial.

(** ** C22: refuted: a second put of a key makes the value unreadable
    (octaspire_map_element_get_value asserts). *)
Theorem C22_put_replaces_refuted : forall {K V} (keq : K -> K -> bool) (H : K -> N) (ops : list (map_op K V)) k v v',
  key_equality keq H ->
  exists m e, map_run keq H map_new (ops ++ [MPut k v; MPut k v']) = Ret m
    /\ map_get keq m (H k) k = Some e /\ elem_value e = Abort.
Proof.
  intros K V keq H ops k v v' KE.
  destruct (run_ok keq H KE (ops ++ [MPut k v; MPut k v']) map_new mm_empty (map_new_inv keq H)) as (m & E & I).
  pose proof (map_get_ok keq H KE m _ k I) as G.
  assert (Em : mm_run keq mm_empty (ops ++ [MPut k v; MPut k v']) k = (mm_run keq mm_empty ops k ++ [v]) ++ [v']).
  { unfold mm_run. rewrite fold_left_app. cbn. destruct KE as (Rf & _). now rewrite Rf. }
  rewrite Em in G. destruct (map_get keq m (H k) k) as [e|] eqn:Eg.
  - exists m, e. split; [exact E|]. split; [exact Eg|]. destruct G as (_ & _ & G & _).
    unfold elem_value. rewrite G, !app_length. cbn [length].
    destruct (Nat.ltb_spec (length (mm_run keq mm_empty ops k) + 1 + 1) 2); [lia | reflexivity].
  - now apply app_eq_nil in G as [_ G].
Qed.
Print Assumptions C22_put_replaces_refuted.

(** Removing the key first makes the put a replacement (what define does). *)
Theorem C22_remove_then_put_partial : forall {K V} (keq : K -> K -> bool) (H : K -> N) (ops : list (map_op K V)) k v,
  key_equality keq H ->
  exists m e, map_run keq H map_new (ops ++ [MRemove k; MPut k v]) = Ret m
    /\ map_get keq m (H k) k = Some e /\ elem_value e = Ret (Some v)
    /\ (forall k', keq k k' = false -> mm_run keq mm_empty (ops ++ [MRemove k; MPut k v]) k' = mm_run keq mm_empty ops k').
Proof.
  intros K V keq H ops k v KE.
  destruct (run_ok keq H KE (ops ++ [MRemove k; MPut k v]) map_new mm_empty (map_new_inv keq H)) as (m & E & I).
  pose proof (map_get_ok keq H KE m _ k I) as G.
  assert (Em : forall k', mm_run keq mm_empty (ops ++ [MRemove k; MPut k v]) k' =
     if keq k k' then [v] else mm_run keq mm_empty ops k').
  { intros k'. unfold mm_run. rewrite fold_left_app. cbn. now destruct (keq k k'). }
  rewrite Em in G. assert (Rf : keq k k = true) by (destruct KE as (Rf & _); apply Rf). rewrite Rf in G.
  destruct (map_get keq m (H k) k) as [e|] eqn:Eg; [|discriminate].
  exists m, e. split; [exact E|]. split; [exact Eg|]. split.
  - destruct G as (_ & _ & G & _). unfold elem_value. now rewrite G.
  - intros k' Hk. now rewrite Em, Hk.
Qed.
Print Assumptions C22_remove_then_put_partial.

Example C22_witness : exists m e, map_run N.eqb (fun k => k) map_new [MPut 1%N 5; MRemove 1%N; MPut 1%N 6] = Ret m
  /\ map_get N.eqb m 1%N 1%N = Some e /\ elem_value e = Ret (Some 6).
Proof. do 2 eexists. split; [reflexivity|]. split; reflexivity. Qed.
