(** -= and -== do what SpecMinus.v says. *)
From Coq Require Import NArith ZArith Bool Lia Arith List String Permutation.
From Coq Require Import ZifyBool ZifyNat ZifyN.
From Coq Require Import Floats.SpecFloat.
From Verif Require Import Base ListLemmas Vec OString HMap HMapProofs Heap SpecHeap GcProofs VmProofs ValueOps Env Copy ToText Builtins Specials Eval Boot Semver SafeBase SafeRead SafeLib SafeBuiltins SafeSpecials SafeEval SpecTrace SpecSpecial SpecForm SpecCall SpecDefine SpecEval SpecPrint SpecStr SpecBuiltin SpecWrite SpecSearch SpecMinus SpecSeq SpecVec SpecSet VecProofs OStringProofs TraceProofs SpecialProofs SpecialEval CallProofs CopyProofs DefineProofs PrintProofs BuiltinProofs SpecReal SpecSemver SemverChange TextNumber WriteProofs SetProofs CompareMono.
Import ListNotations.
Local Open Scope N_scope.
Local Open Scope list_scope.

Lemma remove_fuel sub : forall f g s acc p, (f <= g)%nat -> remove_all_loop f s sub acc = Ret p -> remove_all_loop g s sub acc = Ret p.
Proof.
  induction f as [|f IH]; intros g s acc p L E.
  - destruct g; [exact E|]. cbn [remove_all_loop] in *. destruct (ucs s); [exact E|]. destruct (str_find_first s 0 sub); [discriminate|exact E].
  - destruct g as [|g]; [lia|]. cbn [remove_all_loop] in *. destruct (ucs s); [exact E|]. destruct (str_find_first s 0 sub); [|exact E].
    destruct (str_remove_chars s (Z.of_nat n0) (List.length sub)) as (s' & m). apply IH; [lia|exact E].
Qed.
Lemma cut_spec f v u p : str_remove_all f (text_str v) u = Ret p -> cut_out u v (ucs (fst p)).
Proof.
  intros E NU LN. unfold str_remove_all in E. destruct (remove_all_loop_spec u NU (Nat.max f (List.length v)) (mkStr (ucs (text_str v)) [] (err (text_str v))) 0) as (s' & n & E' & _ & NO & RM).
  - left. reflexivity.
  - exact LN.
  - cbn. lia.
  - apply (remove_fuel u f (Nat.max f (List.length v))) in E; [|lia]. rewrite E in E'. injection E' as ->. cbn [fst]. split; [exact NO|]. exists n. exact RM.
Qed.

Lemma wp_bind_inv {X Y} (m : M X) (k : X -> M Y) (Q : Y -> vm -> Prop) s : wp (bind m k) Q s -> wp m (fun x s' => wp (k x) Q s') s.
Proof. unfold SafeBase.wp, bind, obind. destruct (m s) as [(x & s')| | | | |]; auto. Qed.

Section MinusEq.
Context (ev : evaluator) (a : ref) (s0 : vm) (c : cell) (xs : list ref) (A : Inv [a] s0) (L : lookup (all s0) a = Some c) (E : cdata c = DVec xs).
Context (self : ref) (JS : In self xs).
Notation upto := (upto ev a s0 self).
Notation grown := (grown ev a s0 self).
Ltac skipped_text H D D' ET := apply wp_ret, grown_none; [exact H|]; eapply add_skipped; [eapply (upto_data ev a s0 self _ _ _ _ _ H D D'); discriminate|intros F; exact F|intros ? ? F; inversion F; subst; contradiction|intros ? ? ? F; exact F].
Ltac skipped H D D' := apply wp_ret, grown_none; [exact H|]; eapply add_skipped; [eapply (upto_data ev a s0 self _ _ _ _ _ H D D'); discriminate|intros F; exact F|intros ? ? F; inversion F|intros ? ? ? F; exact F].
Lemma integer_sub_spec : forall f x evs s, upto evs s -> wp (integer_sub f self x) (grown (added difference skip s0 self x) evs) s.
Proof using L E JS.
  induction f as [|f IH]; intros x evs s H; cbn [integer_sub]; [apply wp_nofuel|].
  apply wp_bind, t_get. intros d D. apply wp_bind, t_get. intros e D'. destruct d; try apply wp_abort.
  destruct e as [ | |y|y|y| | | |l| | | | | | | | |]; try apply wp_unmodelled; try (skipped H D D').
  - apply wp_bind, wp_lift; [discriminate|]. intros w EZ. apply int32_fits in EZ as (-> & F). eapply upto_put; [exact L|exact E|exact JS|exact H|easy|]. intros s' H' _. eexists. split; [exact H'|]. eapply add_value; [exact D|exact D'|now constructor].
  - eapply upto_put; [exact L|exact E|exact JS|exact H|easy|]. intros s' H' _. eexists. split; [exact H'|]. eapply add_value; [exact D|exact D'|]. rewrite <- of_int_eq. constructor.
  - apply wp_bind, wp_lift; [discriminate|]. intros o EO. apply text_number_spec in EO. destruct o as [i|]; [|skipped_text H D D' EO]. destruct EO as (i' & NU & LI & ->).
    apply wp_bind, wp_lift; [discriminate|]. intros w EZ. apply long_op_cut in EZ as (LO & CU). eapply upto_put; [exact L|exact E|exact JS|exact H|easy|]. intros s' H' _. eexists. split; [exact H'|]. eapply add_value; [exact D|exact D'|]. eapply diff_text; eauto.
  - assert (D0 : data_at s0 x = Some (DVec l)) by (eapply (upto_data ev a s0 self _ _ _ _ _ H D D'); discriminate).
    eapply wp_mono; [apply (grown_all ev a s0 self difference skip _ IH l evs s H)|]. intros [] s' (evs' & H' & K). exists evs'. split; [exact H'|]. eapply add_vector; eauto.
Qed.
Lemma real_sub_spec : forall f x evs s, upto evs s -> wp (real_sub f self x) (grown (added difference skip s0 self x) evs) s.
Proof using L E JS.
  induction f as [|f IH]; intros x evs s H; cbn [real_sub]; [apply wp_nofuel|].
  apply wp_bind, t_get. intros d D. apply wp_bind, t_get. intros e D'. destruct d; try apply wp_abort.
  destruct e as [ | |y|y|y| | | |l| | | | | | | | |]; try apply wp_unmodelled; try (skipped H D D').
  - eapply upto_put; [exact L|exact E|exact JS|exact H|easy|]. intros s' H' _. eexists. split; [exact H'|]. eapply add_value; [exact D|exact D'|]. rewrite <- of_int_eq. constructor.
  - eapply upto_put; [exact L|exact E|exact JS|exact H|easy|]. intros s' H' _. eexists. split; [exact H'|]. eapply add_value; [exact D|exact D'|]. constructor.
  - apply wp_bind, wp_lift; [discriminate|]. intros o EO. apply text_number_spec in EO. destruct o as [i|]; [|skipped_text H D D' EO]. destruct EO as (i' & NU & LI & ->).
    eapply upto_put; [exact L|exact E|exact JS|exact H|easy|]. intros s' H' _. eexists. split; [exact H'|]. eapply add_value; [exact D|exact D'|]. rewrite <- of_int_eq. eapply diff_real_text; eauto.
  - assert (D0 : data_at s0 x = Some (DVec l)) by (eapply (upto_data ev a s0 self _ _ _ _ _ H D D'); discriminate).
    eapply wp_mono; [apply (grown_all ev a s0 self difference skip _ IH l evs s H)|]. intros [] s' (evs' & H' & K). exists evs'. split; [exact H'|]. eapply add_vector; eauto.
Qed.
(** Versions. *)
Lemma lowers_snoc x l evs y v w v' s1 s2 : lowers x l evs -> y <> x -> data_at s1 x = Some (DSemver v) -> data_at s1 y = Some (DSemver w) -> version_changed false v w v' true ->
  lowers x (l ++ [y]) (evs ++ [Put x (DSemver v') s1 s2]).
Proof using. intros C N D DY CO. induction C as [|y1 t v1 w1 v1' s3 s4 evs N1 D1 DY1 CO1 C IH|t v1 p v1' s3 s4 evs D1 CO1 C IH]; cbn [app]; [eapply lower_next; eauto; constructor|eapply lower_next; eauto|eapply lower_self; eauto]. Qed.
Lemma lowers_self_snoc x l evs v p v' s1 s2 : lowers x l evs -> data_at s1 x = Some (DSemver v) -> version_changed false v (mkSemver (major v) (minor v) (patch v) p []) v' true ->
  lowers x (l ++ [x]) (evs ++ [Put x (DSemver v') s1 s2]).
Proof using. intros C D CO. induction C as [|y1 t v1 w1 v1' s3 s4 evs N1 D1 DY1 CO1 C IH|t v1 q v1' s3 s4 evs D1 CO1 C IH]; cbn [app]; [eapply lower_self; eauto; constructor|eapply lower_next; eauto|eapply lower_self; eauto]. Qed.
Lemma lowers_spec : forall t l evs s, upto evs s -> lowers self l evs ->
  wp (ok <- subtract_versions self t ;; if (ok : bool) then ret self else new_error)
   (fun r s' => exists evs', trace ev (stack s0) s0 evs' s' /\
     ((lowers self (l ++ t) evs' /\ r = self) \/ exists p y u evs1 evs2, l ++ t = p ++ y :: u /\ evs' = evs1 ++ evs2 /\ lowers self p evs1 /\ refuses s0 self y evs2 /\ complains s0 s' r)) s.
Proof using L E JS.
  induction t as [|y t IH]; intros l evs s H C; cbn [subtract_versions].
  - apply wp_bind, wp_ret, wp_ret. exists evs. split; [exact (tr_tr _ _ _ _ _ _ _ (proj1 H))|]. left. rewrite app_nil_r. auto.
  - apply wp_bind, wp_bind. unfold version_change at 1. apply wp_bind, t_get. intros d D. apply wp_bind, t_get. intros e D'. destruct d as [ | | | | | | | | | | | | | | | | |v]; try apply wp_abort.
    set (Q := fun (r : ref) s' => exists evs', trace ev (stack s0) s0 evs' s' /\
     ((lowers self (l ++ y :: t) evs' /\ r = self) \/ exists p y1 u evs1 evs2, l ++ y :: t = p ++ y1 :: u /\ evs' = evs1 ++ evs2 /\ lowers self p evs1 /\ refuses s0 self y1 evs2 /\ complains s0 s' r)).
    assert (NO : (forall w, e <> DSemver w) -> wp (ret false) (fun ok s' => wp (if (ok : bool) then subtract_versions self t else ret false) (fun ok s' => wp (if (ok : bool) then ret self else new_error) Q s') s') s).
    { intros N. apply wp_ret, wp_ret. eapply tr_complain; [exact (proj1 H)|]. intros r s' T CO. exists evs. split; [exact T|]. right. exists l, y, t, evs, []. split; [reflexivity|]. split; [now rewrite app_nil_r|]. split; [exact C|]. split; [|exact CO].
      left. exists e. split; [reflexivity|]. split; [eapply (upto_data ev a s0 self _ _ _ _ _ H D D'); apply N|exact N]. }
    destruct e as [ | | | | | | | | | | | | | | | | |w]; try (apply NO; intros; discriminate). destruct (N.eqb_spec self y) as [<-|NS].
    { assert (w = v) by congruence. subst w. cbv zeta. pose proof (self_refused false v) as RF. pose proof (self_subtracted v) as SB. cbv zeta in RF, SB. destruct (semver_add_or_subtract v _ false) as (v' & ok). cbn [fst snd] in *. destruct ok; cbn [negb]; apply wp_bind.
      - destruct (SB eq_refl (List.length (pre v))) as (p & VC). eapply upto_put; [exact L|exact E|exact JS|exact H|easy|]. intros s1 H1 D1. apply wp_ret.
        assert (W := IH (l ++ [self]) _ s1 H1 (lowers_self_snoc _ _ _ _ _ _ _ s1 C D VC)). rewrite <- app_assoc in W. apply wp_bind_inv in W. exact W.
      - eapply upto_put; [exact L|exact E|exact JS|exact H|easy|]. intros s1 H1 D1. apply wp_ret, wp_ret. eapply tr_complain; [exact (proj1 H1)|]. intros r s' T CO. eexists. split; [exact T|]. right. exists l, self, t, evs. eexists. split; [reflexivity|]. split; [reflexivity|]. split; [exact C|]. split; [|exact CO].
        right. exists v, v, v'. eexists _, _. split; [reflexivity|]. split; [exact D|]. split; [exact D|]. now apply RF. }
    pose proof (semver_changed false v w) as VC. cbv zeta in VC |- *. destruct (semver_add_or_subtract v w false) as (v' & ok). cbn [fst snd] in *.
    apply wp_bind. eapply upto_put; [exact L|exact E|exact JS|exact H|easy|]. intros s1 H1 D1. apply wp_ret. destruct ok.
    + assert (W := IH (l ++ [y]) _ s1 H1 (lowers_snoc _ _ _ _ _ _ _ _ s1 C (not_eq_sym NS) D D' VC)). rewrite <- app_assoc in W. apply wp_bind_inv in W. exact W.
    + apply wp_ret. eapply tr_complain; [exact (proj1 H1)|]. intros r s' T CO. eexists. split; [exact T|]. right. exists l, y, t, evs. eexists. split; [reflexivity|]. split; [reflexivity|]. split; [exact C|]. split; [|exact CO].
      right. exists v, w, v'. eexists _, _. split; [reflexivity|]. auto.
Qed.
(** Elements of a vector. *)
Lemma sweep_spec (sm : heap -> ref -> outcome bool) (P : vm -> ref -> Prop) :
  (forall s v b, sm (all s) v = Ret b -> (b = true <-> P s v)) ->
  forall rest kept evs s, upto evs s -> data_at s self = Some (DVec (kept ++ rest)) ->
  wp (remove_where sm self (List.length rest) (List.length kept)) (fun _ s' => exists evs', upto (evs ++ evs') s' /\ sweep P self s kept rest evs' s' /\ exists l', data_at s' self = Some (DVec l')) s.
Proof using L E JS.
  intros SM. induction rest as [|v rest IH]; intros kept evs s H D; cbn [List.length remove_where].
  - apply wp_ret. exists []. rewrite app_nil_r. split; [exact H|]. split; [constructor|eauto].
  - apply wp_bind. unfold vec_of. apply wp_bind, t_get. intros d D'. rewrite D in D'. injection D' as <-. apply wp_ret.
    rewrite nth_error_app2 by lia. rewrite Nat.sub_diag. cbn [nth_error]. apply wp_bind, wp_heap; [discriminate|]. intros b EB. pose proof (SM s v b EB) as SB. destruct b.
    + assert (EL : firstn (List.length kept) (kept ++ v :: rest) ++ skipn (S (List.length kept)) (kept ++ v :: rest) = kept ++ rest).
      { rewrite firstn_app, Nat.sub_diag, firstn_all, firstn_O, app_nil_r. f_equal. rewrite skipn_app. rewrite skipn_all2 by lia. replace (S (List.length kept) - List.length kept)%nat with 1%nat by lia. reflexivity. }
      rewrite EL. apply wp_bind. eapply upto_put; [exact L|exact E|exact JS|exact H| |].
      * intros y R. eapply dref_good; [exact H|exact D|]. cbn in *. apply in_app_or in R as [R|R]; apply in_or_app; [now left|right; now right].
      * intros s1 H1 D1. eapply wp_mono; [apply (IH kept _ s1 H1 D1)|]. intros [] s2 (evs2 & H2 & K2 & V2). rewrite <- app_assoc in H2. eexists. split; [exact H2|]. split; [|exact V2]. eapply sweep_drop; [now apply SB|exact K2].
    + replace (S (List.length kept)) with (List.length (kept ++ [v])) by (rewrite app_length; cbn; lia). eapply wp_mono; [apply (IH (kept ++ [v]) evs s H)|].
      * rewrite <- app_assoc. exact D.
      * intros [] s2 (evs2 & H2 & K2 & V2). exists evs2. split; [exact H2|]. split; [|exact V2]. eapply sweep_keep; [|exact K2]. intros F. apply SB in F. discriminate.
Qed.
Lemma sweeps_spec (sm : ref -> heap -> ref -> outcome bool) (like : vm -> ref -> ref -> Prop) :
  (forall s y v b, sm y (all s) v = Ret b -> (b = true <-> like s y v)) ->
  forall t evs s, upto evs s -> (exists l, data_at s self = Some (DVec l)) ->
  wp (iterM (fun y => q <- vec_of self ;; remove_where (sm y) self (List.length q) 0) t) (fun _ s' => exists evs', upto (evs ++ evs') s' /\ sweeps like self s t evs') s.
Proof using L E JS.
  intros SM. induction t as [|y t IH]; intros evs s H (l & D); cbn [iterM].
  - apply wp_ret. exists []. rewrite app_nil_r. split; [exact H|constructor].
  - apply wp_bind, wp_bind. unfold vec_of. apply wp_bind, t_get. intros d D'. rewrite D in D'. injection D' as <-. apply wp_ret.
    eapply wp_mono; [apply (sweep_spec (sm y) (fun s v => like s y v) (fun s v b => SM s y v b) l [] evs s H D)|]. intros [] s1 (evs1 & H1 & K1 & V1).
    eapply wp_mono; [apply (IH _ s1 H1 V1)|]. intros [] s2 (evs2 & H2 & K2). exists (evs1 ++ evs2). rewrite app_assoc. split; [exact H2|]. econstructor; eauto.
Qed.
Lemma vequal_same n s y v b : vequal n (all s) y v = Ret b -> (b = true <-> same s y v).
Proof using.
  unfold vequal. destruct (vcompare n (all s) y v) as [z| | | | |] eqn:C; try discriminate. cbn [obind]. intros [= <-]. split.
  - intros B. exists n. rewrite C. f_equal. lia.
  - intros (n' & C'). pose proof (vcompare_det _ _ _ _ _ _ _ C C'). lia.
Qed.
(** Texts. *)
Lemma upto_last evs s d s1 s2 : upto (evs ++ [Put self d s1 s2]) s -> last_after s0 (evs ++ [Put self d s1 s2]) = s2.
Proof using. intros _. unfold last_after. rewrite map_app. cbn [map]. apply List.last_last. Qed.
Lemma cuts_snoc x l evs y u v v' s1 s2 : cuts x l evs -> data_at s1 x = Some (DStr v) -> (data_at s1 y = Some (DStr u) \/ data_at s1 y = Some (DChar u)) -> cut_out u v v' ->
  cuts x (l ++ [y]) (evs ++ [Put x (DStr v') s1 s2]).
Proof using. intros C D DY CO. induction C as [|y1 t u1 v1 v1' s3 s4 evs D1 DY1 CO1 C IH]; cbn [app]; [eapply cuts_next; eauto; constructor|eapply cuts_next; eauto]. Qed.
Lemma cuts_spec f : forall t l evs s, upto evs s -> cuts self l evs -> last_after s0 evs = s -> (exists v, data_at s self = Some (DStr v)) ->
  wp (ok <- remove_each_text f self t ;; if (ok : bool) then ret self else new_error)
   (fun r s' => exists evs', trace ev (stack s0) s0 evs' s' /\
     ((cuts self (l ++ t) evs' /\ r = self) \/ exists p y u e, l ++ t = p ++ y :: u /\ cuts self p evs' /\ data_at (last_after s0 evs') y = Some e /\ ~ is_str_or_char e /\ complains s0 s' r)) s.
Proof using L E JS.
  induction t as [|y t IH]; intros l evs s H C LA (v & D); cbn [remove_each_text].
  - apply wp_bind, wp_ret, wp_ret. exists evs. split; [exact (tr_tr _ _ _ _ _ _ _ (proj1 H))|]. left. rewrite app_nil_r. auto.
  - apply wp_bind. apply wp_bind, t_get. intros d D'. rewrite D in D'. injection D' as <-. apply wp_bind, t_get. intros e DE.
    assert (NO : ~ is_str_or_char e -> wp (ret false) (fun ok s' => wp (if (ok : bool) then ret self else new_error)
      (fun r s' => exists evs', trace ev (stack s0) s0 evs' s' /\
     ((cuts self (l ++ y :: t) evs' /\ r = self) \/ exists p y1 u e, l ++ y :: t = p ++ y1 :: u /\ cuts self p evs' /\ data_at (last_after s0 evs') y1 = Some e /\ ~ is_str_or_char e /\ complains s0 s' r)) s') s).
    { intros N. apply wp_ret. eapply tr_complain; [exact (proj1 H)|]. intros r s' T CO. exists evs. split; [exact T|]. right. exists l, y, t, e. rewrite LA. auto. }
    assert (YES : forall u, (data_at s y = Some (DStr u) \/ data_at s y = Some (DChar u)) -> wp (p <- lift (str_remove_all f (text_str v) u) ;; put self (DStr (ucs (fst p))) ;;; remove_each_text f self t) (fun ok s' => wp (if (ok : bool) then ret self else new_error)
      (fun r s' => exists evs', trace ev (stack s0) s0 evs' s' /\
     ((cuts self (l ++ y :: t) evs' /\ r = self) \/ exists p y1 u e, l ++ y :: t = p ++ y1 :: u /\ cuts self p evs' /\ data_at (last_after s0 evs') y1 = Some e /\ ~ is_str_or_char e /\ complains s0 s' r)) s') s).
    { intros u DU. apply wp_bind, wp_lift; [discriminate|]. intros p EP. apply cut_spec in EP. apply wp_bind.
      eapply upto_put; [exact L|exact E|exact JS|exact H|easy|]. intros s1 H1 D1.
      assert (W := IH (l ++ [y]) _ s1 H1 (cuts_snoc _ _ _ _ _ _ _ _ s1 C D DU EP) (upto_last _ _ _ _ _ H1) (ex_intro _ _ D1)). rewrite <- app_assoc in W. apply wp_bind_inv in W. exact W. }
    destruct e; try (apply NO; intros F; exact F); apply YES; auto.
Qed.
(** Keys. *)
Lemma removes_snoc x l evs k m m' s1 s2 : removes x l evs -> data_at s1 x = Some (DMap m) -> without s1 m k m' -> removes x (l ++ [k]) (evs ++ [Put x (DMap m') s1 s2]).
Proof using. intros C D W. induction C as [|k1 t m1 m1' s3 s4 evs D1 W1 C IH]; cbn [app]; [eapply removes_next; eauto; constructor|eapply removes_next; eauto]. Qed.
Lemma remove_without n m hk k e s m' s' : vmap_find n m hk k s = Ret (Some e, s') -> fst (map_remove (fun _ k' => k' =? ekey e) m hk k) = m' -> without s m k m'.
Proof using.
  intros EF EM PR. unfold vmap_find, heap_op in EF. destruct (find_o (vcompare n (all s)) k (nth (bucket_index hk (List.length (buckets m))) (buckets m) [])) as [o| | | | |] eqn:EO; try discriminate.
  cbn in EF. injection EF as -> _. destruct (find_equal _ _ _ EO) as (J & C0).
  destruct (removed_entry (fun _ k' => k' =? ekey e) m hk k (ekey e) e (fun _ _ => eq_refl) PR J eq_refl) as (e' & mm & rest & EM' & EK & PM1 & PE & EC).
  assert (EQ : m' = mm) by (exact (eq_trans (eq_sym EM) EM')). clear EM EM'. subst m'. split; [exact PM1|]. exists e'. subst rest. split; [|split; [|exact PE]].
  - eapply Permutation_in; [symmetry; exact PE|now left].
  - exists n. now rewrite EK.
Qed.
Lemma keys_spec f : forall t l evs s, upto evs s -> removes self l evs -> last_after s0 evs = s -> (exists m, data_at s self = Some (DMap m)) ->
  wp (ok <- remove_keys f self t ;; if (ok : bool) then ret self else new_error)
   (fun r s' => exists evs', trace ev (stack s0) s0 evs' s' /\
     ((removes self (l ++ t) evs' /\ r = self) \/ exists p y u m, l ++ t = p ++ y :: u /\ removes self p evs' /\ data_at (last_after s0 evs') self = Some (DMap m) /\ absent (last_after s0 evs') m y /\ complains s0 s' r)) s.
Proof using L E JS.
  induction t as [|k t IH]; intros l evs s H C LA (m & D); cbn [remove_keys].
  - apply wp_bind, wp_ret, wp_ret. exists evs. split; [exact (tr_tr _ _ _ _ _ _ _ (proj1 H))|]. left. rewrite app_nil_r. auto.
  - apply wp_bind. apply wp_bind. unfold hash_of. apply wp_heap; [discriminate|]. intros hk EH. apply wp_bind. unfold map_of. apply wp_bind, t_get. intros d D'. rewrite D in D'. injection D' as <-. apply wp_ret.
    apply wp_bind. unfold vmap_find at 1. apply wp_heap; [discriminate|]. intros o EO. destruct o as [e|].
    + apply wp_bind. unfold vmap_remove. apply wp_bind. unfold vmap_find at 1. apply wp_heap; [discriminate|]. intros o' EO'. rewrite EO in EO'. injection EO' as <-. apply wp_ret.
      set (m' := fst (map_remove (fun _ k' => k' =? ekey e) m hk k)).
      assert (W : without s m k m') by (eapply (remove_without f m hk k e s m' s); [unfold vmap_find, heap_op; rewrite EO; reflexivity|reflexivity]).
      apply wp_bind. eapply upto_put; [exact L|exact E|exact JS|exact H| |].
      * intros y R. eapply dref_good; [exact H|exact D|]. eapply map_remove_ref; exact R.
      * intros s1 H1 D1. assert (W1 := IH (l ++ [k]) _ s1 H1 (removes_snoc _ _ _ _ _ _ _ s1 C D W) (upto_last _ _ _ _ _ H1) (ex_intro _ _ D1)). rewrite <- app_assoc in W1. apply wp_bind_inv in W1. exact W1.
    + apply wp_ret. eapply tr_complain; [exact (proj1 H)|]. intros r s' T CO. exists evs. split; [exact T|]. right. exists l, k, t, m. rewrite LA. split; [reflexivity|]. split; [exact C|]. split; [exact D|]. split; [|exact CO].
      exists f, hk. split; [exact EH|]. now apply find_all_differ.
Qed.
End MinusEq.
Lemma upto_start ev a s x : Inv [a] s -> upto ev a s x [] s.
Proof. intros A. split; [now apply tr_start|reflexivity]. Qed.
Lemma minus_eq_writer : writer BiMinusEq minus_eq_result.
Proof.
  apply writer_intro. intros n m a env xs s c A IE L E. cbn [builtin_call]. unfold b_minus_eq. apply wp_bind. eapply args_vec; [exact L|exact E|exact (args_start a s A)|].
  destruct xs as [|x t]; [eapply tr_complain; [exact (tr_start (Eval.eval m) [a] s A)|]; intros r s' T C; exists []; split; [exact T|]; split; [reflexivity|exact C]|].
  assert (JX : In x (x :: t)) by now left. pose proof (upto_start (Eval.eval m) a s x A) as U.
  apply wp_bind, t_get. intros d D.
  assert (NO : match d with DInt _ | DReal _ | DVec _ | DStr _ | DMap _ | DChar _ | DSemver _ | DErr _ _ => False | _ => True end -> wp new_error (fun r s' => exists evs, trace (Eval.eval m) (stack s) s evs s' /\ minus_eq_result s (x :: t) evs s' r) s).
  { intros N. eapply tr_complain; [exact (tr_start (Eval.eval m) [a] s A)|]. intros r s' T C. exists []. split; [exact T|]. exists d. split; [exact D|]. destruct d; try contradiction; try exact I; split; auto. }
  destruct d as [ |db|dz|df|dt|dt|dt|dmsg dline|l|mm|l max|l|db denc|df|df|dp|dp|dv]; try (apply NO; exact I); try apply wp_unmodelled.
  - apply wp_bind. eapply wp_mono; [apply (grown_all (Eval.eval m) a s x difference skip _ (integer_sub_spec (Eval.eval m) a s c _ L E x JX n) t [] s U)|]. intros [] s' (evs & H & K). apply wp_ret. exists evs. split; [exact (tr_tr _ _ _ _ _ _ _ (proj1 H))|]. eexists. split; [exact D|]. split; [exact K|reflexivity].
  - apply wp_bind. eapply wp_mono; [apply (grown_all (Eval.eval m) a s x difference skip _ (real_sub_spec (Eval.eval m) a s c _ L E x JX n) t [] s U)|]. intros [] s' (evs & H & K). apply wp_ret. exists evs. split; [exact (tr_tr _ _ _ _ _ _ _ (proj1 H))|]. eexists. split; [exact D|]. split; [exact K|reflexivity].
  - eapply wp_mono; [apply (cuts_spec (Eval.eval m) a s c _ L E x JX n t [] [] s U (cuts_end x) eq_refl (ex_intro _ _ D))|]. cbv beta. intros r s' (evs & T & R). exists evs. split; [exact T|]. eexists. split; [exact D|]. exact R.
  - destruct t as [|y t]; [apply wp_ret; exists []; split; [apply t_done, keeps_refl|]; eexists; split; [exact D|]; split; reflexivity|].
    assert (AB : forall k : M ref, wp (character_sub x y ;;; abort) (fun r s' => exists evs, trace (Eval.eval m) (stack s) s evs s' /\ minus_eq_result s (x :: y :: t) evs s' r) s).
    { intros _. unfold character_sub. apply wp_bind. apply wp_bind, t_get. intros d D2. rewrite D in D2. injection D2 as <-. apply wp_bind, t_get. intros e D'.
      assert (PA : forall d', (forall z, ~ dref d' z) -> wp (put x d') (fun _ s' => wp abort (fun r s' => exists evs, trace (Eval.eval m) (stack s) s evs s' /\ minus_eq_result s (x :: y :: t) evs s' r) s') s).
      { intros d' ND. eapply upto_put; [exact L|exact E|exact JX|exact U|intros z R; elim (ND z R)|]. intros s1 H1 D1. apply wp_abort. }
      destruct e as [ | |z| | |w| | | | | | | | | | | |]; try (destruct dt; apply wp_ret; apply wp_abort).
      - destruct dt; apply wp_bind; apply (code_shift_spec _ (- z)); try (intros; lia); intros u SH; apply PA; easy.
      - destruct dt as [|b0 dt], w as [|b1 w]; try apply wp_abort. apply PA. easy. }
    destruct t as [|y2 t]; [|exact (AB abort)]. clear AB. apply wp_bind. unfold character_sub. apply wp_bind, t_get. intros d D2. rewrite D in D2. injection D2 as <-. apply wp_bind, t_get. intros e D'.
    assert (SK : match e with DInt _ | DChar _ => False | _ => True end -> wp (ret tt) (fun _ s' => wp (ret x) (fun r s' => exists evs, trace (Eval.eval m) (stack s) s evs s' /\ minus_eq_result s [x; y] evs s' r) s') s).
    { intros N. apply wp_ret, wp_ret. exists []. split; [apply t_done, keeps_refl|]. eexists. split; [exact D|]. split; [reflexivity|]. exists e. split; [exact D'|]. destruct e; try contradiction; auto. }
    destruct e as [ | |z| | |w| | | | | | | | | | | |]; try (destruct dt; apply SK; exact I).
    + assert (W : wp (u <- code_shift dt (fun c => c - z)%Z ;; put x (DChar u)) (fun _ s' => wp (ret x) (fun r s' => exists evs, trace (Eval.eval m) (stack s) s evs s' /\ minus_eq_result s [x; y] evs s' r) s') s); [|destruct dt; exact W].
      apply wp_bind. apply (code_shift_spec _ (- z)); [intros; lia|]. intros u SH. eapply upto_put; [exact L|exact E|exact JX|exact U|easy|]. intros s1 H1 D1. apply wp_ret. eexists. split; [exact (tr_tr _ _ _ _ _ _ _ (proj1 H1))|].
      eexists. split; [exact D|]. split; [reflexivity|]. eexists. split; [exact D'|]. eexists u, _, _. split; [exact SH|reflexivity].
    + destruct dt as [|b0 dt], w as [|b1 w]; try apply wp_abort. eapply upto_put; [exact L|exact E|exact JX|exact U|easy|]. intros s1 H1 D1. apply wp_ret. eexists. split; [exact (tr_tr _ _ _ _ _ _ _ (proj1 H1))|].
      eexists. split; [exact D|]. split; [reflexivity|]. eexists. split; [exact D'|]. eexists b1, w, _, _, _. split; [reflexivity|]. split; [|reflexivity]. exists b0, dt. eexists. split; [reflexivity|]. split; [reflexivity|]. apply mod_cut.
  - apply wp_ret. exists []. split; [apply t_done, keeps_refl|]. eexists. split; [exact D|]. split; reflexivity.
  - apply wp_bind. eapply wp_mono; [apply (sweeps_spec (Eval.eval m) a s c _ L E x JX (fun y h v => vequal n h y v) same (fun s y v b => vequal_same n s y v b) t [] s U (ex_intro _ _ D))|]. intros [] s' (evs & H & K). apply wp_ret. exists evs. split; [exact (tr_tr _ _ _ _ _ _ _ (proj1 H))|]. eexists. split; [exact D|]. split; [exact K|reflexivity].
  - eapply wp_mono; [apply (keys_spec (Eval.eval m) a s c _ L E x JX n t [] [] s U (removes_end x) eq_refl (ex_intro _ _ D))|]. cbv beta. intros r s' (evs & T & R). exists evs. split; [exact T|]. eexists. split; [exact D|]. exact R.
  - eapply wp_mono; [apply (lowers_spec (Eval.eval m) a s c _ L E x JX t [] [] s U (lower_end x))|]. cbv beta. intros r s' (evs & T & R). exists evs. split; [exact T|]. eexists. split; [exact D|]. exact R.
Qed.
Lemma minus_eq_eq_writer : writer BiMinusEqEq minus_eq_eq_result.
Proof.
  apply writer_intro. intros n m a env xs s c A IE L E. cbn [builtin_call]. unfold b_minus_eq_eq. apply wp_bind. eapply args_vec; [exact L|exact E|exact (args_start a s A)|].
  destruct xs as [|x t]; [eapply tr_complain; [exact (tr_start (Eval.eval m) [a] s A)|]; intros r s' T C; exists []; split; [exact T|]; split; [reflexivity|exact C]|].
  assert (JX : In x (x :: t)) by now left. pose proof (upto_start (Eval.eval m) a s x A) as U.
  apply wp_bind, t_get. intros d D.
  assert (NO : match d with DVec _ | DErr _ _ => False | _ => True end -> wp new_error (fun r s' => exists evs, trace (Eval.eval m) (stack s) s evs s' /\ minus_eq_eq_result s (x :: t) evs s' r) s).
  { intros N. eapply tr_complain; [exact (tr_start (Eval.eval m) [a] s A)|]. intros r s' T C. exists []. split; [exact T|]. exists d. split; [exact D|]. destruct d; try contradiction; split; auto. }
  destruct d as [ |db|dz|df|dt|dt|dt|dmsg dline|l|mm|l max|l|db denc|df|df|dp|dp|dv]; try (apply NO; exact I).
  - apply wp_ret. exists []. split; [apply t_done, keeps_refl|]. eexists. split; [exact D|]. split; reflexivity.
  - apply wp_bind. eapply wp_mono; [apply (sweeps_spec (Eval.eval m) a s c _ L E x JX (fun y _ v => Ret (y =? v)) (fun _ y v => y = v)) with (t := t) (evs := []) (s := s); [|exact U|eauto]|].
    + intros s1 y v b [= <-]. apply N.eqb_eq.
    + intros [] s' (evs & H & K). apply wp_ret. exists evs. split; [exact (tr_tr _ _ _ _ _ _ _ (proj1 H))|]. eexists. split; [exact D|]. split; [exact K|reflexivity].
Qed.
