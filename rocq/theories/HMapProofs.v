(** The hash table refines a multimap. *)
From Coq Require Import List NArith ZArith Bool Lia Arith Permutation.
From Coq Require Import ZifyBool ZifyNat ZifyN.
From Verif Require Import Base ListLemmas Vec SpecSeq SpecVec VecProofs HMap SpecMap.
Import ListNotations.
Ltac Zify.zify_post_hook ::= Z.div_mod_to_equations.

Section P.
Context {K V : Type} (keq : K -> K -> bool) (H : K -> N).
Hypothesis KE : key_equality keq H.
Notation elem := (element K V).
Notation bucket := (list elem).

Let krefl : forall a, keq a a = true := proj1 KE.
Let ksym : forall a b, keq a b = keq b a := proj1 (proj2 KE).
Let ktrans : forall a b c, keq a b = true -> keq b c = true -> keq a c = true := proj1 (proj2 (proj2 KE)).
Let khash : forall a b, keq a b = true -> H a = H b := proj2 (proj2 (proj2 KE)).

(** ** Lists of buckets *)
Fixpoint nonempty (bs : list bucket) : nat :=
  match bs with [] => 0 | b :: t => (match b with [] => 0 | _ => 1 end) + nonempty t end.

Lemma nonempty_app a b : nonempty (a ++ b) = nonempty a + nonempty b.
Proof. induction a as [|x a IH]; cbn; [reflexivity|]. rewrite IH. destruct x; lia. Qed.
Lemma nonempty_repeat n : nonempty (repeat [] n) = 0.
Proof. induction n; cbn; auto. Qed.

Fixpoint ne_from (k : nat) (bs : list bucket) : list nat :=
  match bs with
  | [] => []
  | b :: t => match b with [] => ne_from (S k) t | _ => k :: ne_from (S k) t end
  end.
Lemma ne_from_length bs : forall k, length (ne_from k bs) = nonempty bs.
Proof. induction bs as [|b bs IH]; intros k; cbn; [reflexivity|]. destruct b; cbn; rewrite IH; lia. Qed.
Lemma ne_from_in bs : forall k j, In j (ne_from k bs) ->
  k <= j /\ exists b, nth_error bs (j - k) = Some b /\ b <> [].
Proof.
  induction bs as [|b bs IH]; intros k j; cbn [ne_from]; [intros []|].
  intros Hin.
  assert (Hc : j = k /\ b <> [] \/ In j (ne_from (S k) bs)).
  { destruct b; [right; exact Hin|]. destruct Hin as [->|Hin]; [left; split; [reflexivity|discriminate]|right; exact Hin]. }
  destruct Hc as [[-> Hb]|Hin'].
  - split; [lia|]. rewrite Nat.sub_diag. cbn. eauto.
  - destruct (IH _ _ Hin') as (Hle & b' & E & Hb). split; [lia|]. exists b'. split; [|exact Hb].
    replace (j - k) with (S (j - S k)) by lia. exact E.
Qed.
Lemma ne_from_NoDup bs : forall k, NoDup (ne_from k bs).
Proof.
  induction bs as [|b bs IH]; intros k; cbn [ne_from]; [constructor|].
  destruct b; [apply IH|]. constructor; [|apply IH].
  intros Hin. apply ne_from_in in Hin. lia.
Qed.

Lemma nonempty_le_cover bs C : (forall j b, nth_error bs j = Some b -> b <> [] -> In j C) ->
  nonempty bs <= length C.
Proof.
  intros HC. rewrite <- (ne_from_length bs 0). apply NoDup_incl_length; [apply ne_from_NoDup|].
  intros j Hj. apply ne_from_in in Hj as (_ & b & E & Hb). rewrite Nat.sub_0_r in E. eauto.
Qed.

Lemma bucket_split (bs : list bucket) i : i < length bs ->
  exists p q, bs = p ++ nth i bs [] :: q /\ length p = i /\ forall b, set_bucket i b bs = p ++ b :: q.
Proof.
  intros Hi. exists (firstn i bs), (skipn (S i) bs). split; [|split].
  - apply nth_error_split_eq. now apply nth_error_nth'.
  - rewrite firstn_length. lia.
  - reflexivity.
Qed.

Lemma bucket_index_lt h nb : 0 < nb -> bucket_index h nb < nb.
Proof. unfold bucket_index. intros. lia. Qed.

(** ** Distinct keys *)
Definition differ (a b : elem) : Prop := keq (ekey a) (ekey b) = false.
Lemma differ_sym a b : differ a b -> differ b a.
Proof. unfold differ. now rewrite ksym. Qed.
Definition distinct (l : list elem) : Prop := ForallOrdPairs differ l.

Lemma distinct_perm l l' : Permutation l l' -> distinct l -> distinct l'.
Proof.
  induction 1 as [|x l l' Hp IH|x y l|l l' l'' Hp1 IH1 Hp2 IH2]; intros Hd.
  - exact Hd.
  - inversion Hd; subst. constructor; [now rewrite <- Hp | now apply IH].
  - inversion Hd as [|? ? HF Hd']; subst. inversion Hd' as [|? ? HF' Hd'']; subst.
    inversion HF; subst. constructor; [constructor; [now apply differ_sym|assumption]|].
    constructor; assumption.
  - auto.
Qed.

Lemma distinct_unique l a b : distinct l -> In a l -> In b l -> keq (ekey a) (ekey b) = true -> a = b.
Proof.
  induction 1 as [|x l HF Hd IH]; intros Ha Hb E; [destruct Ha|].
  rewrite Forall_forall in HF. destruct Ha as [->|Ha], Hb as [->|Hb]; auto.
  - specialize (HF _ Hb). unfold differ in HF. congruence.
  - specialize (HF _ Ha). unfold differ in HF. rewrite ksym in HF. congruence.
Qed.

(** ** The invariant *)
Definition placed (bs : list bucket) : Prop :=
  forall i b e, nth_error bs i = Some b -> In e b -> bucket_index (ehash e) (length bs) = i.

Record minv (m : hmap K V) (f : multimap) : Prop := {
  mi_size : exists j, length (buckets m) = 128 * 2 ^ j;
  mi_placed : placed (buckets m);
  mi_hash : forall e, In e (concat (buckets m)) -> ehash e = H (ekey e);
  mi_distinct : distinct (concat (buckets m));
  mi_vals : forall e, In e (concat (buckets m)) -> evals e = f (ekey e) /\ evals e <> [];
  mi_live : forall k, f k <> [] -> exists e, In e (concat (buckets m)) /\ keq k (ekey e) = true;
  mi_resp : forall a b, keq a b = true -> f a = f b;
  mi_num : numElements m = length (concat (buckets m));
  mi_use : nonempty (buckets m) <= inUse m;
  mi_load : 4 * inUse m < 3 * length (buckets m) }.

Lemma concat_repeat_nil n : concat (repeat (@nil elem) n) = [].
Proof. induction n; cbn; auto. Qed.

Lemma placed_repeat n : placed (repeat [] n).
Proof.
  intros i b e Hn Hin. apply nth_error_In in Hn. apply repeat_spec in Hn as ->. destruct Hin.
Qed.

Lemma size_pos (bs : list bucket) : (exists j, length bs = 128 * 2 ^ j) -> 0 < length bs.
Proof. intros [j ->]. pose proof (Nat.pow_nonzero 2 j). lia. Qed.

Lemma map_new_inv : minv map_new mm_empty.
Proof.
  constructor; cbn [buckets inUse numElements map_new].
  - exists 0. now rewrite repeat_length.
  - apply placed_repeat.
  - rewrite concat_repeat_nil. intros e [].
  - rewrite concat_repeat_nil. constructor.
  - rewrite concat_repeat_nil. intros e [].
  - intros k Hk. exfalso. now apply Hk.
  - reflexivity.
  - now rewrite concat_repeat_nil.
  - rewrite nonempty_repeat. lia.
  - rewrite repeat_length. lia.
Qed.

Lemma in_bucket_concat (bs : list bucket) i e : In e (nth i bs []) -> In e (concat bs).
Proof.
  intros Hin. destruct (Nat.lt_ge_cases i (length bs)) as [Hi|Hi].
  - apply in_concat. exists (nth i bs []). split; [now apply nth_In | exact Hin].
  - rewrite nth_overflow in Hin by lia. destruct Hin.
Qed.

Lemma placed_in_bucket bs e : 0 < length bs -> placed bs -> In e (concat bs) ->
  In e (nth (bucket_index (ehash e) (length bs)) bs []).
Proof.
  intros Hp Hpl Hin. apply in_concat in Hin as (b & Hb & He).
  apply In_nth_error in Hb as [i Hi]. rewrite (Hpl i b e Hi He).
  now rewrite (nth_error_nth _ _ _ Hi).
Qed.

Lemma find_elem_some k (b : bucket) e : find_elem keq k b = Some e -> In e b /\ keq k (ekey e) = true.
Proof.
  induction b as [|x b IH]; cbn; [discriminate|]. destruct (keq k (ekey x)) eqn:E.
  - intros [= ->]. auto.
  - intros Hf. apply IH in Hf. tauto.
Qed.
Lemma find_elem_none k (b : bucket) : find_elem keq k b = None -> forall e, In e b -> keq k (ekey e) = false.
Proof.
  induction b as [|x b IH]; cbn; [intros _ e []|]. destruct (keq k (ekey x)) eqn:E; [discriminate|].
  intros Hf e [->|He]; auto.
Qed.

Lemma same_bucket m f k e : minv m f -> In e (concat (buckets m)) -> keq k (ekey e) = true ->
  In e (nth (bucket_index (H k) (length (buckets m))) (buckets m) []).
Proof.
  intros I He Hk. rewrite (khash _ _ Hk), <- (mi_hash _ _ I e He).
  apply placed_in_bucket; [apply size_pos, I|apply I|exact He].
Qed.

Lemma map_get_ok m f k : minv m f ->
  match map_get keq m (H k) k with
  | Some e => In e (concat (buckets m)) /\ keq k (ekey e) = true /\ evals e = f k /\ f k <> []
  | None => f k = []
  end.
Proof.
  intros I. unfold map_get. destruct (find_elem _ _ _) as [e|] eqn:E.
  - apply find_elem_some in E as [Hin Hk]. apply in_bucket_concat in Hin.
    destruct (mi_vals _ _ I e Hin) as [Hv Hne]. rewrite (mi_resp _ _ I _ _ Hk). rewrite <- Hv. auto.
  - destruct (f k) eqn:Ef; [reflexivity|]. exfalso.
    destruct (mi_live _ _ I k) as (e & He & Hk); [congruence|].
    pose proof (find_elem_none _ _ E e (same_bucket m f k e I He Hk)). congruence.
Qed.

Lemma placed_set bs p b b' q : bs = p ++ b :: q -> placed bs ->
  (forall e, In e b' -> bucket_index (ehash e) (length bs) = length p) -> placed (p ++ b' :: q).
Proof.
  intros -> Hpl Hb' i c e Hn Hin.
  replace (length (p ++ b' :: q)) with (length (p ++ b :: q)) by (rewrite !app_length; reflexivity).
  destruct (Nat.eq_dec i (length p)) as [->|Hne].
  - rewrite nth_error_app2, Nat.sub_diag in Hn by lia. injection Hn as ->. auto.
  - apply (Hpl i c e); [|exact Hin]. destruct (Nat.lt_ge_cases i (length p)).
    + rewrite nth_error_app1 in * by lia. exact Hn.
    + rewrite nth_error_app2 in * by lia. destruct (i - length p) eqn:Ei; [lia|]. exact Hn.
Qed.

(** Existing key. *)
Lemma push_value_split k v (b : bucket) e : find_elem keq k b = Some e ->
  exists p q, b = p ++ e :: q /\ push_value keq k v b = p ++ mkElem (ehash e) (ekey e) (evals e ++ [v]) :: q.
Proof.
  induction b as [|x b IH]; cbn; [discriminate|]. destruct (keq k (ekey x)) eqn:E.
  - intros [= ->]. exists [], b. auto.
  - intros Hf. destruct (IH Hf) as (p & q & -> & ->). exists (x :: p), q. auto.
Qed.

Lemma concat_mid (p q : list bucket) b : concat (p ++ b :: q) = concat p ++ b ++ concat q.
Proof. rewrite concat_app. reflexivity. Qed.

Lemma distinct_same_key l1 e e' l2 : ekey e' = ekey e -> distinct (l1 ++ e :: l2) -> distinct (l1 ++ e' :: l2).
Proof.
  intros Ek Hd. apply (distinct_perm (e' :: l1 ++ l2)); [apply Permutation_middle|].
  apply (distinct_perm _ (e :: l1 ++ l2)) in Hd; [|symmetry; apply Permutation_middle].
  inversion Hd as [|? ? HF Hd']; subst. constructor; [|exact Hd'].
  eapply Forall_impl; [|exact HF]. intros a. unfold differ. now rewrite Ek.
Qed.

Lemma put_existing_ok m f k v e : minv m f -> map_get keq m (H k) k = Some e ->
  exists m', map_put keq m (H k) k v = Ret m' /\ minv m' (mm_step keq f (MPut k v)) /\
    length (buckets m') = length (buckets m).
Proof.
  intros I Hg. unfold map_put. rewrite Hg. eexists; split; [reflexivity|].
  unfold map_get in Hg. set (i := bucket_index (H k) (length (buckets m))) in *.
  assert (Hi : i < length (buckets m)) by (apply bucket_index_lt, size_pos, I).
  destruct (bucket_split (buckets m) i Hi) as (bp & bq & Ebs & Lp & Hset). rewrite Hset.
  set (b := nth i (buckets m) []) in *.
  destruct (push_value_split k v b e Hg) as (p & q & Eb & ->).
  set (e' := mkElem (ehash e) (ekey e) (evals e ++ [v])).
  assert (Econ : concat (buckets m) = (concat bp ++ p) ++ e :: (q ++ concat bq)).
  { rewrite Ebs, concat_mid, Eb. now rewrite <- !app_assoc. }
  assert (Econ' : concat (bp ++ (p ++ e' :: q) :: bq) = (concat bp ++ p) ++ e' :: (q ++ concat bq)).
  { rewrite concat_mid. now rewrite <- !app_assoc. }
  assert (Hke : keq k (ekey e) = true) by (apply find_elem_some in Hg; tauto).
  assert (Hin : In e (concat (buckets m))) by (rewrite Econ; apply in_or_app; right; now left).
  assert (Hin' : forall x, In x ((concat bp ++ p) ++ e' :: (q ++ concat bq)) <->
                 x = e' \/ (In x (concat (buckets m)) /\ keq k (ekey x) = false)).
  { intros x. pose proof (mi_distinct _ _ I) as Hd. rewrite Econ in Hd.
    apply (distinct_perm _ (e :: (concat bp ++ p) ++ q ++ concat bq)) in Hd; [|symmetry; apply Permutation_middle].
    inversion Hd as [|? ? HF Hd']; subst. rewrite Forall_forall in HF.
    rewrite Econ. rewrite !in_app_iff. cbn [In]. rewrite !in_app_iff. split.
    - intros Hx. assert (Hc : x = e' \/ In x ((concat bp ++ p) ++ q ++ concat bq))
        by (rewrite !in_app_iff; intuition auto).
      destruct Hc as [->|Hc]; [now left|]. right. split; [rewrite !in_app_iff in Hc; tauto|].
      specialize (HF x Hc). unfold differ in HF. destruct (keq k (ekey x)) eqn:E; [|reflexivity].
      rewrite <- HF. symmetry. apply ktrans with k; [now rewrite ksym | exact E].
    - intros [->|[[[?|?]|[<-|[?|?]]] Hk]]; auto; congruence. }
  split; [|cbn [buckets]; rewrite Ebs, !app_length; reflexivity].
  constructor; cbn [buckets inUse numElements].
  - destruct (mi_size _ _ I) as [j Hj]. exists j. rewrite <- Hj, Ebs, !app_length. reflexivity.
  - apply (placed_set (buckets m) bp b); [exact Ebs|apply I|].
    intros x Hx. rewrite Lp.
    assert (Hb : forall y, In y b -> bucket_index (ehash y) (length (buckets m)) = i).
    { intros y Hy. apply (mi_placed _ _ I i b y); [|exact Hy]. apply nth_error_nth'. exact Hi. }
    apply in_app_iff in Hx. destruct Hx as [Hx|[<-|Hx]].
    + apply Hb. rewrite Eb. apply in_or_app; auto.
    + apply (Hb e). rewrite Eb. apply in_or_app; right; now left.
    + apply Hb. rewrite Eb. apply in_or_app; right; now right.
  - rewrite Econ'. intros x Hx. apply Hin' in Hx as [->|[Hx _]]; [apply (mi_hash _ _ I e Hin) | now apply I].
  - rewrite Econ'. apply (distinct_same_key _ e); [reflexivity|]. rewrite <- Econ. apply I.
  - rewrite Econ'. intros x Hx. apply Hin' in Hx as [->|[Hx Hk]]; cbn [mm_step evals ekey e'].
    + rewrite Hke. destruct (mi_vals _ _ I e Hin) as [-> _]. split; [reflexivity|].
      intros E. apply app_eq_nil in E as [_ E]. discriminate.
    + rewrite Hk. now apply I.
  - intros k' Hk'. rewrite Econ'. cbn [mm_step] in Hk'. destruct (keq k k') eqn:Ek.
    + exists e'. split; [apply Hin'; now left|]. cbn. apply ktrans with k; [now rewrite ksym | exact Hke].
    + destruct (mi_live _ _ I k' Hk') as (x & Hx & Hkx). exists x. split; [|exact Hkx].
      apply Hin'. right. split; [exact Hx|]. destruct (keq k (ekey x)) eqn:E; [|reflexivity].
      rewrite <- Ek. symmetry. apply ktrans with (ekey x); [exact E | now rewrite ksym].
  - intros a c Hac. cbn. rewrite (mi_resp _ _ I _ _ Hac).
    destruct (keq k a) eqn:E1, (keq k c) eqn:E2; try reflexivity; exfalso.
    + rewrite (ktrans _ _ _ E1 Hac) in E2. discriminate.
    + rewrite ksym in Hac. rewrite (ktrans _ _ _ E2 Hac) in E1. discriminate.
  - rewrite (mi_num _ _ I), Econ, Econ', !app_length. reflexivity.
  - etransitivity; [|apply I]. rewrite Ebs, !nonempty_app. cbn. rewrite Eb. destruct p; cbn; lia.
  - pose proof (mi_load _ _ I) as Hl. rewrite Ebs, !app_length in Hl. rewrite !app_length. exact Hl.
Qed.

(** ** Rehashing *)
Lemma rehash_insert_ok m e : 0 < length (buckets m) -> placed (buckets m) ->
  let m' := rehash_insert m e in
  length (buckets m') = length (buckets m) /\ placed (buckets m') /\
  Permutation (concat (buckets m')) (e :: concat (buckets m)) /\
  numElements m' = S (numElements m) /\
  inUse m' + nonempty (buckets m) = inUse m + nonempty (buckets m').
Proof.
  intros Hp Hpl. unfold rehash_insert. cbn zeta.
  set (i := bucket_index (ehash e) (length (buckets m))).
  assert (Hi : i < length (buckets m)) by now apply bucket_index_lt.
  destruct (bucket_split (buckets m) i Hi) as (bp & bq & Ebs & Lp & Hset). rewrite Hset.
  set (b := nth i (buckets m) []) in *. cbn [buckets inUse numElements].
  split; [rewrite Ebs, !app_length; reflexivity|].
  split. { apply (placed_set (buckets m) bp b); [exact Ebs|exact Hpl|]. intros x Hx.
    apply in_app_iff in Hx. destruct Hx as [Hx|[<-|[]]]; rewrite Lp; [|reflexivity].
    apply (Hpl i b x); [now apply nth_error_nth' | exact Hx]. }
  split. { rewrite Ebs, !concat_mid. rewrite <- app_assoc. cbn [app].
    rewrite !app_assoc. symmetry. apply Permutation_middle. }
  split; [reflexivity|].
  rewrite Ebs, !nonempty_app. cbn [nonempty]. destruct b; cbn; lia.
Qed.

Lemma rehash_fold_ok l : forall m, 0 < length (buckets m) -> placed (buckets m) ->
  let m' := fold_left rehash_insert l m in
  length (buckets m') = length (buckets m) /\ placed (buckets m') /\
  Permutation (concat (buckets m')) (l ++ concat (buckets m)) /\
  numElements m' = length l + numElements m /\
  inUse m' + nonempty (buckets m) = inUse m + nonempty (buckets m').
Proof.
  induction l as [|e l IH]; intros m Hp Hpl; cbn [fold_left].
  - cbn. repeat split; auto. 
  - destruct (rehash_insert_ok m e Hp Hpl) as (L1 & P1 & Q1 & N1 & U1). cbn zeta in *.
    destruct (IH (rehash_insert m e)) as (L2 & P2 & Q2 & N2 & U2); [lia|exact P1|]. cbn zeta in *.
    split; [lia|]. split; [exact P2|].
    split. { rewrite Q2, Q1. symmetry. apply (Permutation_middle l). }
    split; [rewrite N2, N1; cbn; lia | lia].
Qed.

(** Where the elements of old bucket [i] can go. *)
Fixpoint cover (n : nat) (i : nat) (bs : list bucket) : list nat :=
  match bs with
  | [] => []
  | b :: t => (match b with
               | [] => []
               | [e] => [bucket_index (ehash e) (2 * n)]
               | _ => [i; i + n]
               end) ++ cover n (S i) t
  end.

Lemma double_index h n : 0 < n ->
  bucket_index h (2 * n) = bucket_index h n \/ bucket_index h (2 * n) = bucket_index h n + n.
Proof.
  intros Hn. unfold bucket_index.
  assert (E : (h mod N.of_nat (2 * n) = h mod N.of_nat n
             \/ h mod N.of_nat (2 * n) = h mod N.of_nat n + N.of_nat n)%N).
  { replace (N.of_nat (2 * n)) with (N.of_nat n * 2)%N by lia.
    rewrite N.mod_mul_r by lia.
    assert (Hq : forall q, (q mod 2 = 0 \/ q mod 2 = 1)%N) by (intros; lia).
    specialize (Hq (h / N.of_nat n)%N). set (r := (h mod N.of_nat n)%N). clearbody r.
    destruct Hq as [-> | ->]; lia. }
  destruct E as [-> | ->]; lia.
Qed.

Lemma cover_in n bs : 0 < n -> forall i,
  (forall j b e, nth_error bs j = Some b -> In e b -> bucket_index (ehash e) n = i + j) ->
  forall e, In e (concat bs) -> In (bucket_index (ehash e) (2 * n)) (cover n i bs).
Proof.
  intros Hn. induction bs as [|b bs IH]; intros i Hpl e He; [destruct He|].
  cbn [concat] in He. cbn [cover]. apply in_app_iff. apply in_app_iff in He as [He|He].
  - left. pose proof (Hpl 0 b e eq_refl He) as Hi. rewrite Nat.add_0_r in Hi.
    destruct b as [|e1 [|e2 b]]; [destruct He| |].
    + destruct He as [->|[]]. now left.
    + destruct (double_index (ehash e) n Hn) as [-> | ->]; rewrite Hi; cbn; auto.
  - right. apply IH; [|exact He]. intros j c x Hc Hx. rewrite (Hpl (S j) c x Hc Hx). lia.
Qed.

Lemma cover_length n bs : forall i, length (cover n i bs) <= 2 * nonempty bs.
Proof.
  induction bs as [|b bs IH]; intros i; cbn [cover nonempty]; [cbn; lia|].
  rewrite app_length. pose proof (IH (S i)). destruct b as [|e1 [|e2 b]]; cbn [length]; lia.
Qed.
Lemma cover_length_single n p e q : forall i,
  length (cover n i (p ++ [e] :: q)) + 1 <= 2 * nonempty (p ++ [e] :: q).
Proof.
  induction p as [|b p IH]; intros i; cbn [app cover nonempty].
  - cbn [app length]. pose proof (cover_length n q (S i)). lia.
  - rewrite app_length. pose proof (IH (S i)). destruct b as [|e1 [|e2 b]]; cbn [length]; lia.
Qed.

Lemma rehash_ok m p e q : 0 < length (buckets m) -> placed (buckets m) ->
  buckets m = p ++ [e] :: q -> 4 * nonempty (buckets m) <= 3 * length (buckets m) ->
  exists m', map_rehash m = Ret m' /\ length (buckets m') = 2 * length (buckets m) /\
    placed (buckets m') /\ Permutation (concat (buckets m')) (concat (buckets m)) /\
    numElements m' = length (concat (buckets m)) /\ inUse m' = nonempty (buckets m') /\
    4 * inUse m' < 3 * length (buckets m').
Proof.
  intros Hp Hpl Ebs Hl. unfold map_rehash.
  set (m0 := mkMap (repeat [] (2 * length (buckets m))) 0 0).
  assert (L0 : length (buckets m0) = 2 * length (buckets m)) by (cbn; apply repeat_length).
  destruct (rehash_fold_ok (concat (buckets m)) m0) as (L & P & Q & N & U);
    [lia | apply placed_repeat |]. cbn zeta in *.
  set (m' := fold_left rehash_insert (concat (buckets m)) m0) in *.
  assert (Q' : Permutation (concat (buckets m')) (concat (buckets m))).
  { rewrite Q. cbn [m0 buckets]. now rewrite concat_repeat_nil, app_nil_r. }
  assert (U' : inUse m' = nonempty (buckets m')).
  { cbn [m0 inUse buckets] in U. rewrite nonempty_repeat in U. lia. }
  assert (Hcov : nonempty (buckets m') <= length (cover (length (buckets m)) 0 (buckets m))).
  { apply nonempty_le_cover. intros j b Hj Hb. destruct b as [|x b]; [congruence|].
    assert (Hx : In x (concat (buckets m'))).
    { apply in_concat. exists (x :: b). split; [eapply nth_error_In; exact Hj | now left]. }
    rewrite <- (P j (x :: b) x Hj (or_introl eq_refl)). rewrite L, L0.
    apply cover_in; [exact Hp| |now rewrite <- Q'].
    intros i c y Hc Hy. exact (Hpl i c y Hc Hy). }
  assert (Hlt : 4 * inUse m' < 3 * length (buckets m')).
  { rewrite U', L, L0. rewrite Ebs in Hcov at 2. rewrite Ebs in Hl at 1.
    pose proof (cover_length_single (length (buckets m)) p e q 0). lia. }
  replace (4 * inUse m' <? 3 * length (buckets m')) with true by (symmetry; apply Nat.ltb_lt; exact Hlt).
  exists m'. split; [reflexivity|]. split; [lia|]. split; [exact P|]. split; [exact Q'|].
  split. { rewrite N. cbn. lia. } auto.
Qed.

(** New key. *)
Lemma put_new_ok m f k v : minv m f -> map_get keq m (H k) k = None ->
  exists m', map_put keq m (H k) k v = Ret m' /\ minv m' (mm_step keq f (MPut k v)).
Proof.
  intros I Hg. pose proof (map_get_ok m f k I) as Hf. rewrite Hg in Hf.
  unfold map_put. rewrite Hg. unfold map_get in Hg.
  set (i := bucket_index (H k) (length (buckets m))) in *.
  pose proof (size_pos _ (mi_size _ _ I)) as Hpos.
  assert (Hi : i < length (buckets m)) by now apply bucket_index_lt.
  destruct (bucket_split (buckets m) i Hi) as (bp & bq & Ebs & Lp & Hset). rewrite Hset.
  set (b := nth i (buckets m) []) in *. set (e := mkElem (H k) k [v]).
  set (m1 := mkMap _ _ _).
  assert (Hperm1 : Permutation (concat (buckets m1)) (e :: concat (buckets m))).
  { cbn [m1 buckets]. rewrite Ebs, !concat_mid, <- app_assoc. cbn [app].
    rewrite !app_assoc. symmetry. apply Permutation_middle. }
  assert (L1 : length (buckets m1) = length (buckets m)).
  { cbn [m1 buckets]. rewrite Ebs, !app_length. reflexivity. }
  assert (P1 : placed (buckets m1)).
  { apply (placed_set (buckets m) bp b); [exact Ebs|apply I|]. intros x Hx. rewrite Lp.
    apply in_app_iff in Hx. destruct Hx as [Hx|[<-|[]]]; [|reflexivity].
    apply (mi_placed _ _ I i b x); [now apply nth_error_nth' | exact Hx]. }
  assert (U1 : nonempty (buckets m1) <= inUse m1).
  { pose proof (mi_use _ _ I) as Hu. rewrite Ebs, nonempty_app in Hu. cbn [m1 buckets inUse].
    rewrite nonempty_app. cbn [nonempty] in *. destruct b; cbn [app] in *; lia. }
  assert (Hnk : forall x, In x (concat (buckets m)) -> keq k (ekey x) = false).
  { intros x Hx. destruct (keq k (ekey x)) eqn:E; [|reflexivity]. exfalso.
    destruct (mi_vals _ _ I x Hx) as [E1 E2]. apply E2. rewrite E1, <- (mi_resp _ _ I _ _ E). exact Hf. }
  (* anything with these elements satisfies the map part of the invariant *)
  assert (Hgen : forall m2, (exists j, length (buckets m2) = 128 * 2 ^ j) -> placed (buckets m2) ->
    Permutation (concat (buckets m2)) (e :: concat (buckets m)) ->
    numElements m2 = S (numElements m) -> nonempty (buckets m2) <= inUse m2 ->
    4 * inUse m2 < 3 * length (buckets m2) -> minv m2 (mm_step keq f (MPut k v))).
  { intros m2 S2 P2 Q2 N2 U2 L2.
    assert (Hin : forall x, In x (concat (buckets m2)) <-> x = e \/ In x (concat (buckets m))).
    { intros x. split; intros Hx.
      - apply (Permutation_in _ Q2) in Hx. destruct Hx as [<-|Hx]; auto.
      - apply (Permutation_in _ (Permutation_sym Q2)). destruct Hx as [->|Hx]; [now left | now right]. }
    constructor; auto.
    - intros x Hx. apply Hin in Hx as [->|Hx]; [reflexivity | now apply I].
    - apply (distinct_perm (e :: concat (buckets m))); [now symmetry|]. constructor; [|apply I].
      apply Forall_forall. intros x Hx. unfold differ. cbn. now apply Hnk.
    - intros x Hx. cbn [mm_step]. apply Hin in Hx as [->|Hx].
      + cbn. rewrite krefl, Hf. split; [reflexivity | discriminate].
      + rewrite (Hnk x Hx). now apply I.
    - intros k' Hk'. cbn in Hk'. destruct (keq k k') eqn:Ek.
      + exists e. split; [apply Hin; now left|]. cbn. now rewrite ksym.
      + destruct (mi_live _ _ I k' Hk') as (x & Hx & Hkx). exists x. split; [apply Hin; now right | exact Hkx].
    - intros a c Hac. cbn. rewrite (mi_resp _ _ I _ _ Hac).
      destruct (keq k a) eqn:E1, (keq k c) eqn:E2; try reflexivity; exfalso.
      + rewrite (ktrans _ _ _ E1 Hac) in E2. discriminate.
      + rewrite ksym in Hac. rewrite (ktrans _ _ _ E2 Hac) in E1. discriminate.
    - rewrite N2, (mi_num _ _ I). now rewrite (Permutation_length Q2). }
  destruct (mi_size _ _ I) as [j Hj].
  destruct (Nat.leb_spec (3 * length (buckets m1)) (4 * inUse m1)) as [Hle|Hgt].
  - assert (Hb : b = []).
    { pose proof (mi_load _ _ I). cbn [m1 inUse] in Hle. rewrite L1 in Hle. destruct b; [reflexivity | lia]. }
    assert (Hin1 : 4 * inUse m1 = 3 * length (buckets m1)).
    { pose proof (mi_load _ _ I) as Hl. rewrite L1 in *. cbn [m1 inUse] in *. rewrite Hb in *. rewrite Hj in *. lia. }
    destruct (rehash_ok m1 bp e bq) as (m2 & E2 & L2 & P2 & Q2 & N2 & U2 & LD2).
    + lia.
    + exact P1.
    + cbn [m1 buckets]. now rewrite Hb.
    + lia.
    + exists m2. split; [exact E2|]. apply Hgen; auto.
      * exists (S j). rewrite L2, L1, Hj. cbn. lia.
      * now rewrite Q2.
      * rewrite N2, (Permutation_length Hperm1), (mi_num _ _ I). reflexivity.
      * lia.
  - exists m1. split; [reflexivity|]. apply Hgen; auto. exists j. now rewrite L1.
Qed.

Lemma put_ok m f k v : minv m f ->
  exists m', map_put keq m (H k) k v = Ret m' /\ minv m' (mm_step keq f (MPut k v)).
Proof.
  intros I. destruct (map_get keq m (H k) k) as [e|] eqn:E.
  - destruct (put_existing_ok m f k v e I E) as (m' & E1 & I' & _). eauto.
  - now apply put_new_ok.
Qed.

(** Removal. *)
Lemma remove_elem_spec k (b : bucket) : 
  match remove_elem keq k b with
  | Some b' => exists p e q, b = p ++ e :: q /\ b' = p ++ q /\ keq k (ekey e) = true
  | None => forall e, In e b -> keq k (ekey e) = false
  end.
Proof.
  induction b as [|x b IH]; cbn; [intros e []|]. destruct (keq k (ekey x)) eqn:E.
  - exists [], x, b. auto.
  - destruct (remove_elem keq k b) as [b'|].
    + destruct IH as (p & e & q & -> & -> & Hk). exists (x :: p), e, q. auto.
    + intros e [<-|He]; auto.
Qed.

Lemma remove_ok m f k : minv m f ->
  minv (fst (map_remove keq m (H k) k)) (mm_step keq f (MRemove k)) /\
  (snd (map_remove keq m (H k) k) = true <-> f k <> []).
Proof.
  intros I. unfold map_remove.
  set (i := bucket_index (H k) (length (buckets m))) in *.
  pose proof (size_pos _ (mi_size _ _ I)) as Hpos.
  assert (Hi : i < length (buckets m)) by now apply bucket_index_lt.
  destruct (bucket_split (buckets m) i Hi) as (bp & bq & Ebs & Lp & Hset).
  pose proof (remove_elem_spec k (nth i (buckets m) [])) as Hr.
  destruct (remove_elem keq k (nth i (buckets m) [])) as [b'|].
  - destruct Hr as (p & e & q & Eb & -> & Hke). rewrite Hset. cbn [fst snd].
    set (b := nth i (buckets m) []) in *.
    assert (Econ : concat (buckets m) = (concat bp ++ p) ++ e :: (q ++ concat bq)).
    { rewrite Ebs, concat_mid, Eb. now rewrite <- !app_assoc. }
    assert (Econ' : concat (bp ++ (p ++ q) :: bq) = (concat bp ++ p) ++ (q ++ concat bq)).
    { rewrite concat_mid. now rewrite <- !app_assoc. }
    assert (Hin : In e (concat (buckets m))) by (rewrite Econ; apply in_or_app; right; now left).
    pose proof (mi_distinct _ _ I) as Hd. rewrite Econ in Hd.
    apply (distinct_perm _ (e :: (concat bp ++ p) ++ q ++ concat bq)) in Hd; [|symmetry; apply Permutation_middle].
    inversion Hd as [|? ? HF Hd']; subst. rewrite Forall_forall in HF.
    assert (Hin' : forall x, In x ((concat bp ++ p) ++ q ++ concat bq) <->
                   In x (concat (buckets m)) /\ keq k (ekey x) = false).
    { intros x. split.
      - intros Hx. split; [rewrite Econ; rewrite !in_app_iff in *; cbn; rewrite !in_app_iff; tauto|].
        specialize (HF x Hx). unfold differ in HF. destruct (keq k (ekey x)) eqn:E; [|reflexivity].
        rewrite <- HF. symmetry. apply ktrans with k; [now rewrite ksym | exact E].
      - rewrite Econ. rewrite !in_app_iff. cbn [In]. rewrite !in_app_iff.
        intros [[[?|?]|[<-|[?|?]]] Hk]; auto; congruence. }
    split.
    2:{ split; [|reflexivity]. intros _. destruct (mi_vals _ _ I e Hin) as [E1 E2].
        rewrite (mi_resp _ _ I _ _ Hke), <- E1. exact E2. }
    constructor; cbn [buckets inUse numElements].
    + destruct (mi_size _ _ I) as [j Hj]. exists j. rewrite <- Hj, Ebs, !app_length. reflexivity.
    + apply (placed_set (buckets m) bp b); [exact Ebs|apply I|]. intros x Hx. rewrite Lp.
      apply (mi_placed _ _ I i b x); [now apply nth_error_nth'|]. rewrite Eb.
      rewrite in_app_iff in *. cbn. tauto.
    + rewrite Econ'. intros x Hx. apply Hin' in Hx. now apply I.
    + rewrite Econ'. exact Hd'.
    + rewrite Econ'. intros x Hx. apply Hin' in Hx as [Hx Hk]. cbn. rewrite Hk. now apply I.
    + intros k' Hk'. rewrite Econ'. cbn in Hk'. destruct (keq k k') eqn:Ek; [congruence|].
      destruct (mi_live _ _ I k' Hk') as (x & Hx & Hkx). exists x. split; [|exact Hkx].
      apply Hin'. split; [exact Hx|]. destruct (keq k (ekey x)) eqn:E; [|reflexivity].
      rewrite <- Ek. symmetry. apply ktrans with (ekey x); [exact E | now rewrite ksym].
    + intros a c Hac. cbn. rewrite (mi_resp _ _ I _ _ Hac).
      destruct (keq k a) eqn:E1, (keq k c) eqn:E2; try reflexivity; exfalso.
      * rewrite (ktrans _ _ _ E1 Hac) in E2. discriminate.
      * rewrite ksym in Hac. rewrite (ktrans _ _ _ E2 Hac) in E1. discriminate.
    + rewrite (mi_num _ _ I), Econ, Econ', !app_length. cbn. rewrite !app_length. lia.
    + etransitivity; [|apply I]. rewrite Ebs, !nonempty_app. cbn. rewrite Eb. destruct p, q; cbn; lia.
    + pose proof (mi_load _ _ I) as Hl. rewrite Ebs, !app_length in Hl. rewrite !app_length. exact Hl.
  - cbn [fst snd].
    assert (Hfk : f k = []).
    { destruct (f k) eqn:Ef; [reflexivity|]. exfalso.
      destruct (mi_live _ _ I k) as (e & He & Hk); [congruence|].
      pose proof (Hr e (same_bucket m f k e I He Hk)). congruence. }
    split; [|split; [discriminate | congruence]].
    assert (Hff : forall k', mm_step keq f (MRemove k) k' = f k').
    { intros k'. cbn. destruct (keq k k') eqn:E; [|reflexivity]. rewrite <- (mi_resp _ _ I _ _ E). now rewrite Hfk. }
    constructor; try apply I.
    + intros e He. rewrite Hff. now apply I.
    + intros k' Hk'. rewrite Hff in Hk'. now apply I.
    + intros a c Hac. rewrite !Hff. now apply I.
Qed.

Lemma step_ok m f o : minv m f -> exists m', map_step keq H m o = Ret m' /\ minv m' (mm_step keq f o).
Proof.
  intros I. destruct o as [k v|k|]; cbn [map_step].
  - now apply put_ok.
  - eexists; split; [reflexivity|]. now apply remove_ok.
  - eexists; split; [reflexivity|]. apply map_new_inv.
Qed.

Lemma run_ok ops : forall m f, minv m f ->
  exists m', map_run keq H m ops = Ret m' /\ minv m' (mm_run keq f ops).
Proof.
  induction ops as [|o ops IH]; intros m f I; cbn [map_run].
  - eauto.
  - destruct (step_ok m f o I) as (m1 & -> & I1). cbn [obind]. exact (IH m1 _ I1).
Qed.

(** ** Iteration *)
Lemma at_index_ok (bs : list bucket) : forall index counter, counter <= index ->
  at_index_loop bs index counter = nth_error (concat bs) (index - counter).
Proof.
  induction bs as [|b bs IH]; intros index counter Hc; cbn [at_index_loop concat].
  - now destruct (index - counter).
  - destruct b as [|x b]; [now apply IH|]. set (c := x :: b) in *.
    assert (Hl : 0 < length c) by (cbn; lia). clearbody c.
    destruct (Nat.leb_spec index (counter + length c - 1)) as [Hle|Hgt].
    + rewrite nth_error_app1 by lia. reflexivity.
    + rewrite nth_error_app2 by lia. rewrite IH by lia. f_equal. lia.
Qed.

Lemma iter_seek_ok fuel (m : hmap K V) : forall bi ii, length (buckets m) < bi + fuel ->
  exists it, iter_seek fuel m bi ii = Ret it /\
    match current it with
    | Some e => (exists b, nth_error (buckets m) (bucketIndex it) = Some b /\ nth_error b (insideIndex it) = Some e)
                /\ skipn ii (nth bi (buckets m) []) ++ concat (skipn (S bi) (buckets m))
                   = skipn (insideIndex it) (nth (bucketIndex it) (buckets m) [])
                     ++ concat (skipn (S (bucketIndex it)) (buckets m))
    | None => skipn ii (nth bi (buckets m) []) ++ concat (skipn (S bi) (buckets m)) = []
    end.
Proof.
  induction fuel as [|fuel IH]; intros bi ii Hf; cbn [iter_seek].
  - destruct (nth_error (buckets m) bi) as [b|] eqn:Eb.
    { assert (bi < length (buckets m)) by (apply nth_error_Some; congruence). lia. }
    eexists; split; [reflexivity|]. cbn [current]. apply nth_error_None in Eb.
    rewrite nth_overflow, skipn_nil, skipn_all2 by lia. reflexivity.
  - destruct (nth_error (buckets m) bi) as [b|] eqn:Eb.
    2:{ eexists; split; [reflexivity|]. cbn [current]. apply nth_error_None in Eb.
        rewrite nth_overflow, skipn_nil, skipn_all2 by lia. reflexivity. }
    destruct (nth_error b ii) as [e|] eqn:Ee.
    { eexists; split; [reflexivity|]. cbn [current]. split; eauto. }
    destruct (IH (S bi) 0) as (it & E & Hit); [lia|]. exists it. split; [exact E|].
    replace (skipn ii (nth bi (buckets m) []) ++ concat (skipn (S bi) (buckets m)))
      with (skipn 0 (nth (S bi) (buckets m) []) ++ concat (skipn (S (S bi)) (buckets m))); [exact Hit|].
    rewrite (nth_error_nth _ _ _ Eb). apply nth_error_None in Ee. rewrite (skipn_all2 b) by lia.
    rewrite skipn_O. cbn [app].
    destruct (nth_error (buckets m) (S bi)) as [b2|] eqn:Eb2.
    + rewrite (nth_error_nth _ _ _ Eb2). 
      assert (Es : skipn (S bi) (buckets m) = b2 :: skipn (S (S bi)) (buckets m)).
      { clear -Eb2. revert Eb2. generalize (S bi) as n. generalize (buckets m) as l.
        induction l as [|x l IHl]; intros [|n] E; try discriminate.
        - cbn in E. injection E as ->. reflexivity.
        - rewrite !skipn_cons. apply IHl, E. }
      rewrite Es. reflexivity.
    + apply nth_error_None in Eb2. rewrite nth_overflow by lia. rewrite !skipn_all2 by lia. reflexivity.
Qed.

Lemma iter_all_ok (m : hmap K V) fuel : forall it,
  match current it with
  | Some e => exists b, nth_error (buckets m) (bucketIndex it) = Some b /\ nth_error b (insideIndex it) = Some e
  | None => True
  end ->
  let rest := match current it with
              | Some _ => skipn (insideIndex it) (nth (bucketIndex it) (buckets m) [])
                          ++ concat (skipn (S (bucketIndex it)) (buckets m))
              | None => []
              end in
  length rest <= fuel ->
  @iter_all K V fuel m it = Ret rest.
Proof.
  induction fuel as [|fuel IH]; intros it Hit rest Hlen; unfold rest in *; clear rest; cbn [iter_all];
    destruct (current it) as [e|] eqn:Ec; try reflexivity.
  - destruct Hit as (b & Eb & Ee). rewrite (nth_error_nth _ _ _ Eb) in Hlen.
    assert (insideIndex it < length b) by (apply nth_error_Some; congruence).
    rewrite app_length, skipn_length in Hlen. lia.
  - destruct Hit as (b & Eb & Ee). rewrite (nth_error_nth _ _ _ Eb) in *.
    assert (Es : skipn (insideIndex it) b = e :: skipn (S (insideIndex it)) b).
    { clear -Ee. revert Ee. generalize (insideIndex it) as n. 
      induction b as [|x l IHl]; intros [|n] E; try discriminate.
      - cbn in E. injection E as ->. reflexivity.
      - rewrite !skipn_cons. apply IHl, E. }
    rewrite Es in *. cbn [app length] in Hlen.
    unfold iter_next.
    destruct (iter_seek_ok (S (length (buckets m))) m (bucketIndex it) (S (insideIndex it))) as (it' & -> & Hit');
      [lia|]. cbn [obind]. rewrite (nth_error_nth _ _ _ Eb) in Hit'.
    rewrite (IH it').
    + cbn [obind app]. do 2 f_equal. destruct (current it'); [now destruct Hit' as [_ ->] | now rewrite Hit'].
    + destruct (current it'); [now destruct Hit' | exact I].
    + destruct (current it'); [destruct Hit' as [_ <-]; lia | cbn; lia].
Qed.

Lemma map_iterate_ok m f : minv m f -> map_iterate m = Ret (concat (buckets m)).
Proof.
  intros I. unfold map_iterate, iter_init.
  destruct (iter_seek_ok (S (length (buckets m))) m 0 0) as (it & -> & Hit); [lia|]. cbn [obind].
  rewrite skipn_O in Hit.
  assert (E : nth 0 (buckets m) [] ++ concat (skipn 1 (buckets m)) = concat (buckets m)).
  { destruct (buckets m); reflexivity. }
  rewrite E in Hit.
  rewrite iter_all_ok.
  - destruct (current it); [now destruct Hit as [_ <-] | now rewrite Hit].
  - destruct (current it); [now destruct Hit | exact Logic.I].
  - rewrite (mi_num _ _ I). destruct (current it); [destruct Hit as [_ <-]; lia | cbn; lia].
Qed.

(** Backward indices address the elements in some order, each once. *)
Fixpoint back_list (bs : list bucket) : list elem :=
  match bs with
  | [] => []
  | b :: t => match b with [] => back_list t | x :: r => (x :: rev r) ++ back_list t end
  end.
Lemma nth_rev_tail (x : elem) r j : j <= length r ->
  nth_error (x :: rev r) j = match norm_index (S (length r)) (- Z.of_nat j) with
                             | Some p => nth_error (x :: r) p
                             | None => None
                             end.
Proof.
  intros Hj. destruct j as [|j].
  - cbn -[norm_index]. unfold norm_index, size_of_ptrdiff. cbn. reflexivity.
  - unfold norm_index. replace (- Z.of_nat (S j) <? 0)%Z with true by lia.
    replace ((0 <=? Z.of_nat (S (length r)) + - Z.of_nat (S j)) &&
       (Z.of_nat (S (length r)) + - Z.of_nat (S j) <? Z.of_nat (S (length r))))%Z with true by lia.
    replace (Z.to_nat (Z.of_nat (S (length r)) + - Z.of_nat (S j))) with (S (length r - S j)) by lia.
    cbn [nth_error]. clear -Hj. revert j Hj; induction r as [|y r IH] using rev_ind; intros j Hj; [cbn in Hj; lia|].
    rewrite rev_app_distr, app_length in *. cbn [rev app length] in *. destruct j as [|j].
    + cbn. rewrite nth_error_app2 by lia. replace (length r + 1 - 1 - length r) with 0 by lia. reflexivity.
    + cbn [nth_error]. rewrite IH by lia. rewrite nth_error_app1 by lia. f_equal. lia.
Qed.
Lemma at_index_back_ok (bs : list bucket) : forall index counter, counter <= index ->
  at_index_loop_back bs index counter = nth_error (back_list bs) (index - counter).
Proof.
  induction bs as [|b bs IH]; intros index counter Hc; cbn [at_index_loop_back back_list].
  - now destruct (index - counter).
  - destruct b as [|x r]; [now apply IH|].
    assert (Hl : length (x :: rev r) = length (x :: r)) by (cbn; now rewrite rev_length).
    destruct (Nat.leb_spec index (counter + length (x :: r) - 1)) as [Hle|Hgt].
    + cbn [length] in *. rewrite nth_error_app1 by (cbn; rewrite rev_length; lia).
      rewrite nth_rev_tail by lia. reflexivity.
    + rewrite nth_error_app2 by (cbn [length] in *; rewrite rev_length; lia). rewrite IH by (cbn [length] in *; lia).
      f_equal. cbn [length] in *. rewrite rev_length. lia.
Qed.
Lemma back_list_perm bs : Permutation (back_list (rev bs)) (concat bs).
Proof.
  assert (Ha : forall a b, back_list (a ++ b) = back_list a ++ back_list b).
  { induction a as [|x a IH]; intros b; cbn; [reflexivity|]. destruct x; rewrite IH; [reflexivity|].
    cbn. now rewrite app_assoc. }
  induction bs as [|b bs IH]; cbn; [constructor|]. rewrite Ha. cbn [back_list].
  rewrite Permutation_app_comm. apply Permutation_app; [|exact IH].
  destruct b as [|x r]; [constructor|]. rewrite app_nil_r. constructor. symmetry. apply Permutation_rev.
Qed.

Lemma minv_lists_keys m f : minv m f -> lists_keys keq f (map (@ekey K V) (concat (buckets m))).
Proof.
  intros I. split; [|split].
  - pose proof (mi_distinct _ _ I) as Hd. unfold distinct in Hd.
    induction Hd as [|e l HF Hd IH]; cbn; [constructor|]. constructor; [|exact IH].
    apply Forall_map. exact HF.
  - intros k Hk. apply in_map_iff in Hk as (e & <- & He). destruct (mi_vals _ _ I e He) as [<- ?]. assumption.
  - intros k Hk. destruct (mi_live _ _ I k Hk) as (e & He & Hke). exists (ekey e). split; [now apply in_map | exact Hke].
Qed.

(** ** Adding a map to another *)
Lemma put_values_ok e vs : ehash e = H (ekey e) -> forall m f, minv m f ->
  exists m' f', put_values keq m e vs = Ret m' /\ minv m' f' /\ forall k, f' k = f k ++ (if keq (ekey e) k then vs else []).
Proof.
  intros EH. induction vs as [|v vs IH]; intros m f I; cbn [put_values].
  - exists m, f. split; [reflexivity|]. split; [exact I|]. intros k. destruct (keq _ _); now rewrite app_nil_r.
  - rewrite EH. destruct (put_ok m f (ekey e) v I) as (m1 & E1 & I1). rewrite E1. cbn [obind]. destruct (IH m1 _ I1) as (m2 & f2 & E2 & I2 & F2). exists m2, f2. split; [exact E2|]. split; [exact I2|].
    intros k. rewrite F2. cbn [mm_step]. destruct (keq (ekey e) k); [|now rewrite app_nil_r]. now rewrite <- app_assoc.
Qed.
Lemma add_elements_ok es : (forall e, In e es -> ehash e = H (ekey e)) -> forall m f, minv m f ->
  exists m' f', add_elements keq m es = Ret m' /\ minv m' f' /\ forall k, f' k = f k ++ concat (map (fun e => if keq (ekey e) k then evals e else []) es).
Proof.
  induction es as [|e es IH]; intros EH m f I; cbn [add_elements].
  - exists m, f. split; [reflexivity|]. split; [exact I|]. intros k. cbn. now rewrite app_nil_r.
  - destruct (put_values_ok e (evals e) (EH e (or_introl eq_refl)) m f I) as (m1 & f1 & E1 & I1 & F1). rewrite E1. cbn [obind].
    destruct (IH (fun x J => EH x (or_intror J)) m1 f1 I1) as (m2 & f2 & E2 & I2 & F2). exists m2, f2. split; [exact E2|]. split; [exact I2|]. intros k. rewrite F2, F1. cbn. now rewrite app_assoc.
Qed.
Lemma values_of_all m f k : minv m f -> concat (map (fun e => if keq (ekey e) k then evals e else []) (concat (buckets m))) = f k.
Proof.
  intros I. assert (N : forall l : list elem, (forall e, In e l -> keq k (ekey e) = false) -> concat (map (fun e => if keq (ekey e) k then evals e else []) l) = []).
  { induction l as [|e l IH]; intros J; [reflexivity|]. cbn. rewrite ksym, (J e (or_introl eq_refl)). apply IH. intros x Hx. apply J. now right. }
  destruct (f k) as [|v vs] eqn:EF.
  - apply N. intros e He. destruct (keq k (ekey e)) eqn:EK; [|reflexivity]. destruct (mi_vals _ _ I e He) as (E & NE). rewrite <- (mi_resp _ _ I k (ekey e) EK), EF in E. contradiction.
  - destruct (mi_live _ _ I k) as (e & He & EK); [rewrite EF; discriminate|]. apply in_split in He as (l1 & l2 & EL).
    pose proof (mi_distinct _ _ I) as DD. rewrite EL in DD. 
    assert (E : evals e = v :: vs) by (destruct (mi_vals _ _ I e) as (E & _); [rewrite EL; apply in_or_app; right; now left|]; rewrite E, <- (mi_resp _ _ I k (ekey e) EK); exact EF).
    assert (O : forall x, In x l1 \/ In x l2 -> keq k (ekey x) = false).
    { intros x J. destruct (keq k (ekey x)) eqn:EX; [|reflexivity]. exfalso. assert (EE : keq (ekey e) (ekey x) = true) by (apply ktrans with k; [now rewrite ksym|exact EX]).
      assert (P : Permutation (l1 ++ e :: l2) (e :: l1 ++ l2)) by (symmetry; apply Permutation_middle). apply (distinct_perm _ _ P) in DD. inversion DD as [|? ? HF _]; subst.
      rewrite Forall_forall in HF. specialize (HF x). unfold differ in HF. rewrite EE in HF. assert (F : true = false) by (apply HF; apply in_or_app; tauto). discriminate. }
    rewrite EL, map_app, concat_app. cbn. rewrite (N l1), (N l2) by auto. cbn. rewrite ksym, EK, app_nil_r. exact E.
Qed.
Lemma add_map_ok m f m2 g : minv m f -> minv m2 g -> exists m' f', map_add_map keq m m2 = Ret m' /\ minv m' f' /\ forall k, f' k = f k ++ g k.
Proof.
  intros I I2. unfold map_add_map. destruct (add_elements_ok (concat (buckets m2)) (mi_hash _ _ I2) m f I) as (m' & f' & E & I' & F). exists m', f'. split; [exact E|]. split; [exact I'|].
  intros k. now rewrite F, (values_of_all m2 g k I2).
Qed.

(** ** The table is bounded by the number of operations *)
Lemma rehash_insert_counts (m : hmap K V) (e : elem) :
  length (buckets (rehash_insert m e)) = length (buckets m) \/ length (buckets m) = 0.
Proof.
  destruct (Nat.eq_dec (length (buckets m)) 0) as [|Hn]; [now right|]. left.
  unfold rehash_insert, set_bucket. cbn [buckets]. rewrite app_length, firstn_length. cbn [length].
  rewrite skipn_length. pose proof (bucket_index_lt (ehash e) (length (buckets m))). lia.
Qed.
Lemma rehash_fold_counts (l : list elem) : forall (m : hmap K V), 0 < length (buckets m) ->
  let m' := fold_left rehash_insert l m in
  length (buckets m') = length (buckets m) /\ numElements m' = length l + numElements m /\
  inUse m' <= length l + inUse m.
Proof.
  induction l as [|e l IH]; intros m Hp; cbn [fold_left]; [cbn; lia|].
  destruct (rehash_insert_counts m e) as [L|L]; [|lia].
  destruct (IH (rehash_insert m e)) as (A & B & C); [lia|]. cbn zeta in *. rewrite A, B.
  assert (inUse (rehash_insert m e) <= S (inUse m)) by (unfold rehash_insert; cbn; destruct (nth _ _ _); lia).
  assert (numElements (rehash_insert m e) = S (numElements m)) by reflexivity.
  cbn [length]. lia.
Qed.

Lemma Ret_inj {Y} (a b : Y) : Ret a = Ret b -> a = b.
Proof. congruence. Qed.
Lemma size_bound_run ops : forall (m : hmap K V), map_run keq H map_new ops = Ret m ->
  inUse m <= length ops /\ numElements m <= length ops /\
  (length (buckets m) = 128 \/ 3 * length (buckets m) <= 8 * length ops).
Proof.
  induction ops as [|o ops IH] using rev_ind; intros m E.
  - cbn [map_run] in E. injection E as <-. unfold map_new. cbn [inUse numElements buckets length]. rewrite repeat_length. lia.
  - destruct (run_ok ops map_new mm_empty map_new_inv) as (m0 & E0 & I).
    destruct (IH m0 E0) as (IHu & IHn & IHl).
    assert (E1 : map_step keq H m0 o = Ret m).
    { clear -E E0. revert E E0. generalize (@map_new K V). induction ops as [|a ops IH]; intros m1 E E0; cbn [app map_run] in *.
      - injection E0 as ->. destruct (map_step keq H m0 o); [exact E|discriminate..].
      - destruct (map_step keq H m1 a) as [h| | | | |]; cbn [obind] in *; try discriminate. now apply (IH h). }
    rewrite app_length. cbn [length]. destruct o as [k v|k|]; cbn [map_step] in E1.
    + unfold map_put in E1. pose proof (size_pos _ (mi_size _ _ I)) as Hp.
      set (i := bucket_index (H k) (length (buckets m0))) in *.
      assert (Hi : i < length (buckets m0)) by now apply bucket_index_lt.
      destruct (bucket_split (buckets m0) i Hi) as (bp & bq & Ebs & Lp & Hset). rewrite !Hset in E1.
      assert (EL : length (buckets m0) = length bp + S (length bq)) by (rewrite Ebs at 1; rewrite app_length; reflexivity).
      destruct (map_get _ _ _ _).
      * injection E1 as <-. cbn [inUse numElements buckets]. rewrite app_length. cbn [length]. lia.
      * cbn [buckets inUse] in E1. set (m1 := mkMap _ _ _) in E1.
        assert (U1 : inUse m1 <= S (inUse m0)) by (cbn; destruct (nth _ _ _); lia).
        assert (L1 : length (buckets m1) = length (buckets m0)) by (cbn [buckets m1]; rewrite app_length; cbn; lia).
        assert (N1 : numElements m1 = S (numElements m0)) by reflexivity.
        assert (C1 : length (concat (buckets m1)) = S (numElements m0)).
        { rewrite (mi_num _ _ I). rewrite Ebs at 1. cbn [buckets m1]. rewrite !concat_mid, !app_length. cbn. lia. }
        change (length (bp ++ (nth i (buckets m0) [] ++ [mkElem (H k) k [v]]) :: bq)) with (length (buckets m1)) in E1.
        change (match nth i (buckets m0) [] with [] => S (inUse m0) | _ :: _ => inUse m0 end) with (inUse m1) in E1.
        clearbody m1. destruct (Nat.leb_spec (3 * length (buckets m1)) (4 * inUse m1)).
        -- unfold map_rehash in E1. clear Hset. destruct (rehash_fold_counts (concat (buckets m1)) (mkMap (repeat [] (2 * length (buckets m1))) 0 0)) as (A & B & C).
           { cbn [buckets]. rewrite repeat_length. lia. }
           cbn zeta in *. cbn [buckets numElements inUse] in A, B, C. rewrite repeat_length in A.
           destruct (Nat.ltb _ _); [|discriminate]. apply Ret_inj in E1. rewrite E1 in A, B, C. lia.
        -- injection E1 as <-. lia.
    + unfold map_remove in E1. destruct (remove_elem _ _ _); cbn [fst] in E1; injection E1 as <-; [|lia].
      cbn [inUse numElements buckets]. pose proof (size_pos _ (mi_size _ _ I)) as Hp.
      set (i := bucket_index (H k) (length (buckets m0))) in *.
      assert (Hi : i < length (buckets m0)) by now apply bucket_index_lt.
      destruct (bucket_split (buckets m0) i Hi) as (bp & bq & Ebs & Lp & Hset). rewrite Hset.
      assert (EL : length (buckets m0) = length bp + S (length bq)) by (rewrite Ebs at 1; rewrite app_length; reflexivity).
      rewrite app_length. cbn [length]. lia.
    + injection E1 as <-. unfold map_clear, map_new. cbn [inUse numElements buckets]. rewrite repeat_length. lia.
Qed.
Lemma size_bound ops (m : hmap K V) : map_run keq H map_new ops = Ret m ->
  length (buckets m) = 128 \/ 3 * length (buckets m) <= 8 * length ops.
Proof. intros E. apply (size_bound_run ops m E). Qed.

End P.

(** ** Unbounded growth under put/remove of one key *)
Section Grow.
Notation km := (hmap N N).

(** One put/remove cycle of key 0 (hash 0) on a table without elements. *)
Definition cycle : list (map_op N N) := [MPut 0%N 0%N; MRemove 0%N].

Lemma empty_run_cycle nb u : 0 < nb -> 4 * S u < 3 * nb ->
  map_run N.eqb (fun k => k) (mkMap (repeat [] nb) u 0) cycle = Ret (mkMap (repeat [] nb) (S u) 0).
Proof.
  intros Hn Hu. destruct nb as [|nb]; [lia|].
  unfold cycle. cbn [map_run map_step obind].
  unfold map_put, map_get. cbn [buckets inUse numElements]. rewrite repeat_length.
  unfold bucket_index. rewrite N.mod_0_l by lia. cbn [N.to_nat repeat nth find_elem].
  unfold set_bucket. cbn [firstn skipn app buckets inUse numElements length]. rewrite repeat_length.
  destruct (Nat.leb_spec (3 * S nb) (4 * S u)); [lia|]. cbn [obind].
  unfold map_remove. cbn [buckets length]. rewrite repeat_length.
  unfold bucket_index. rewrite N.mod_0_l by lia. cbn. reflexivity.
Qed.

Lemma grow_cycle nb u : 0 < nb -> 3 * nb <= 4 * S u -> 
  exists u', map_run N.eqb (fun k => k) (mkMap (repeat [] nb) u 0) cycle
             = Ret (mkMap (repeat [] (2 * nb)) u' 0) /\ u' = 1.
Proof.
  intros Hn Hu. destruct nb as [|nb]; [lia|].
  unfold cycle. cbn [map_run map_step obind].
  unfold map_put, map_get. cbn [buckets inUse numElements]. rewrite repeat_length.
  unfold bucket_index. rewrite N.mod_0_l by lia. cbn [N.to_nat repeat nth find_elem].
  unfold set_bucket. cbn [firstn skipn app buckets inUse numElements length]. rewrite repeat_length.
  destruct (Nat.leb_spec (3 * S nb) (4 * S u)); [|lia].
  unfold map_rehash. cbn [buckets length concat app]. rewrite repeat_length.
  rewrite (concat_repeat_nil (K := N) (V := N)).
  cbn [fold_left]. unfold rehash_insert. cbn [buckets ehash inUse numElements]. rewrite repeat_length.
  unfold bucket_index. rewrite N.mod_0_l by lia. cbn [N.to_nat].
  replace (2 * S nb) with (S (S (2 * nb))) by lia. cbn [repeat nth app]. unfold set_bucket.
  cbn [firstn skipn app buckets inUse length]. rewrite repeat_length.
  destruct (Nat.ltb_spec (4 * 1) (3 * S (S (2 * nb)))); [|lia]. cbn [obind].
  exists 1. split; [|reflexivity]. unfold map_remove. cbn [buckets length]. rewrite repeat_length.
  unfold bucket_index. rewrite N.mod_0_l by lia. cbn. reflexivity.
Qed.

Fixpoint cycles (n : nat) : list (map_op N N) := match n with O => [] | S k => cycle ++ cycles k end.

Lemma run_app (a b : list (map_op N N)) : forall m,
  map_run N.eqb (fun k => k) m (a ++ b) = obind (map_run N.eqb (fun k => k) m a) (fun m' => map_run N.eqb (fun k => k) m' b).
Proof.
  induction a as [|o a IH]; intros m; [reflexivity|]. cbn [app map_run].
  destruct (map_step N.eqb (fun k => k) m o); cbn [obind]; auto.
Qed.

Lemma doubling nb : 0 < nb -> forall d u, 3 * nb <= 4 * (u + d) -> 4 * u < 3 * nb ->
  exists n, map_run N.eqb (fun k => k) (mkMap (repeat [] nb) u 0) (cycles n)
            = Ret (mkMap (repeat [] (2 * nb)) 1 0).
Proof.
  intros Hn. induction d as [|d IH]; intros u Hd Hu; [lia|].
  destruct (Nat.le_gt_cases (3 * nb) (4 * S u)) as [Hle|Hgt].
  - destruct (grow_cycle nb u Hn Hle) as (u' & E & ->). exists 1. cbn [cycles]. rewrite app_nil_r. exact E.
  - destruct (IH (S u)) as (n & E); [lia|lia|]. exists (S n). cbn [cycles]. rewrite run_app.
    rewrite empty_run_cycle by lia. exact E.
Qed.

Lemma cycles_app a : forall b, cycles (a + b) = cycles a ++ cycles b.
Proof. induction a as [|a IH]; intros b; cbn [Nat.add cycles]; [reflexivity|]. now rewrite IH, app_assoc. Qed.

Lemma unbounded_growth j : exists n u,
  map_run N.eqb (fun k => k) map_new (cycles n) = Ret (mkMap (repeat [] (128 * 2 ^ j)) u 0) /\ u <= 1.
Proof.
  induction j as [|j (n & u & E & Hu)].
  - exists 0, 0. split; [reflexivity | lia].
  - pose proof (Nat.pow_nonzero 2 j).
    destruct (doubling (128 * 2 ^ j)) with (d := 128 * 2 ^ j) (u := u) as (n2 & E2); [lia|lia|lia|].
    exists (n + n2), 1. split; [|lia]. rewrite cycles_app, run_app, E. cbn [obind]. rewrite E2.
    do 2 f_equal. f_equal. rewrite Nat.pow_succ_r'. lia.
Qed.
End Grow.
