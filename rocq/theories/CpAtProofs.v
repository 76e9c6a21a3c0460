(** cp@ does what SpecCpAt.v says. *)
From Coq Require Import NArith ZArith Bool Lia Arith List String Permutation.
From Coq Require Import Floats.SpecFloat.
From Coq Require Import ZifyBool ZifyNat ZifyN.
From Verif Require Import Base ListLemmas Vec OString HMap HMapProofs Heap SpecHeap GcProofs VmProofs ValueOps Env Copy Builtins Specials Eval Boot Semver SpecSemver SafeBase SafeRead SafeLib SafeBuiltins SafeSpecials SafeEval SpecTrace SpecSpecial SpecForm SpecCall SpecDefine SpecEval SpecCopy SpecBuiltin SpecSearch SpecWrite SpecPlus SpecCpAt SpecSeq SpecVec OStringProofs VecProofs TraceProofs SpecialProofs SpecialEval CallProofs CopyProofs DefineProofs BuiltinProofs SearchProofs GenerateProofs RootProofs.
Import ListNotations.
Local Open Scope N_scope.
Local Open Scope list_scope.

Lemma inv_rooted P r s1 : Inv P s1 -> r < nextId s1 -> Inv P (rooted r s1).
Proof.
  intros [I1 I2 I3 I4 I5 I6 I7 I8] LT. constructor; auto; cbn.
  - intros x [J|[<-|[]]]%in_app_or; [now apply I4|split; [exact LT|discriminate]].
  - intros x J. apply in_or_app. left. now apply I5.
  - destruct I6 as (X1 & X2 & X3). split; [exact X1|]. split; [exact X2|discriminate].
Qed.
Lemma rooted_step {X} r (m : M X) (Q : X -> vm -> Prop) P s1 x s' : rel r X m m -> Inv P s1 -> r < nextId s1 -> wp m Q (rooted r s1) -> m s1 = Ret (x, s') -> lookup (all s') r <> None -> Q x (rooted r s').
Proof.
  intros R A LT W E NG. specialize (R s1 (i_ids _ _ _ A) LT). rewrite E in R. destruct R as (_ & _ & _ & [G|R]); [elim NG; exact G|]. exact (wp_ret_inv _ _ _ _ _ W R).
Qed.
Lemma push_dangling r y s1 : lookup (all s1) r = None -> vec_push r y s1 = Dangling.
Proof. intros L. unfold vec_push, get, bind, get_cell. rewrite L. reflexivity. Qed.
Lemma in_rooted r s1 : In r (stack (rooted r s1)).
Proof. cbn. apply in_or_app. right. now left. Qed.

Lemma forall2_change {X Y} (R R' : X -> Y -> Prop) l l' : Forall2 R l l' -> (forall x y, In x l -> R x y -> R' x y) -> Forall2 R' l l'.
Proof. induction 1; intros K; constructor; [apply K; [now left|assumption]|]. apply IHForall2. intros z w J. apply K. now right. Qed.

Section Range.
Context (a : ref) (s : vm) (r : ref) (NR : nextId s <= r) (NA : ~ In r [a]).
Let H1 (s1 : vm) : Prop := At true [a] s [] (fun y => y = r) s1.
Lemma h_lt s1 : H1 s1 -> r < nextId s1.
Proof using. intros H. apply (a_good _ _ _ _ _ _ _ H). reflexivity. Qed.
(** The result gets one more element. *)
Lemma push_more l' y' s4 : building r (DVec l') None s4 -> (forall z, reachable (all s4) [y'] z -> r < z) ->
  wp (vec_push r y') (fun _ s5 => building r (DVec (l' ++ [y'])) None s5 /\ (forall z, In z (l' ++ [y']) -> kept (all s4) (all s5) z)) s4.
Proof using.
  intros (cx & L & E & O & F) FY. unfold SafeBase.wp. rewrite (proj2 is_seq_push r cx l' y' s4 L E). rewrite (put_eq s4 r cx _ L).
  set (c5 := mkCell (DVec (l' ++ [y'])) (cdoc cx) (cdocvec cx) (cmark cx) (caddr cx)).
  assert (KE : forall z, In z (l' ++ [y']) -> forall u, reachable (all s4) [z] u -> r < u).
  { intros z J u R. apply in_app_or in J as [J|[<-|[]]]; [|now apply FY]. eapply F; [|exact R]. apply refers_iff. right. now rewrite E. }
  split; [|intros z J; cbn [all with_all]; apply beyond_kept; exact (KE z J)].
  exists c5. cbn [all with_all]. split; [rewrite lookup_update, N.eqb_refl, L; reflexivity|]. split; [reflexivity|]. split; [exact O|].
  intros z u R RU. apply refers_iff in R as [R|R]; [cbn in R; rewrite O in R; discriminate|]. cbn in R.
  apply (KE z R). apply (kept_reach (all s4) (update (all s4) r c5)); [|exact RU]. apply beyond_kept. exact (KE z R).
Qed.
Lemma kept_rooted P G s1 s2 : At true P (rooted r s1) [] G (rooted r s2) -> kept (all s1) (all s2) r.
Proof using. intros H. apply (kept_stack P (rooted r s1) [] G (rooted r s2) r H). apply re_root, in_rooted. Qed.

Lemma elements_spec n x l : data_at s x = Some (DVec l) -> reach s x -> forall k i s1 done l', H1 s1 -> building r (DVec l') None s1 -> copied_all (all s) (all s1) done l' ->
  (forall y, In y (firstn k (skipn i l)) -> plain_maps (all s) y) ->
  wp (cp_elements n x r k i) (fun _ s' => exists l2, building r (DVec l2) None s' /\ copied_all (all s) (all s') (done ++ firstn k (skipn i l)) l2) s1.
Proof using NR NA.
  intros DX RX. induction k as [|k IH]; intros i s1 done l' H B C PM; cbn [cp_elements].
  - apply wp_ret. exists l'. cbn [firstn]. rewrite app_nil_r. auto.
  - apply wp_bind, wp_vec_of; [discriminate|]. intros cx l0 LX EX.
    assert (l0 = l). { assert (D : data_at s1 x = data_at s x) by (eapply q_data; eauto). rewrite DX in D. unfold data_at in D. rewrite LX in D. cbn in D. congruence. } subst l0.
    destruct (nth_error l i) as [y|] eqn:EY; [|apply wp_undef].
    assert (SK : skipn i l = y :: skipn (S i) l). { clear - EY. revert i EY. induction l as [|w l IHl]; intros [|i] EY; cbn in EY; try discriminate; [injection EY as ->; reflexivity|]. cbn [skipn]. rewrite (IHl i EY). reflexivity. }
    rewrite SK in *. cbn [firstn] in *.
    assert (RY : reach s y). { unfold data_at in DX. destruct (lookup (all s) x) as [c0|] eqn:L0; [|discriminate]. injection DX as E0. apply (re_step _ _ x c0 y RX L0). apply refers_iff. right. rewrite E0. eapply nth_error_In; eauto. }
    pose proof (h_lt _ H) as LT. pose proof (a_inv _ _ _ _ _ _ _ H) as I1.
    assert (KY : kept (all s) (all s1) y) by (eapply kept_stack; eauto).
    apply wp_bind. pose proof (SafeBuiltins.r_copy true true [a] s n y [] _ (fun y' s2 => At true [a] s [] (eq y') s2 /\ nextId s1 <= y') s1 H (or_introl eq_refl) (fun y' s2 K1 K2 => conj K1 K2)) as W0.
    unfold SafeBase.wp at 1. destruct (copy n y s1) as [[y' s2]| | | | |] eqn:EC; try exact I; try reflexivity.
    pose proof (wp_ret_inv _ _ _ _ _ W0 EC) as (H2 & NY). clear W0.
    apply wp_bind. destruct (lookup (all s2) r) as [cr|] eqn:LR; [|unfold SafeBase.wp; rewrite push_dangling by exact LR; reflexivity].
    pose proof (rooted_step r _ _ [a] s1 y' s2 (rel_copy r n y) I1 LT (copy_spec n [a] (rooted r s1) y (inv_rooted _ _ _ I1 LT) ltac:(unfold reach; cbn; eapply reachable_more; [|eapply at_reach; [exact H|reflexivity|exact RY]]; intros z J; apply re_root, in_or_app; now left) ltac:(eapply plain_maps_kept; [exact KY|apply PM; now left])) EC ltac:(congruence)) as (A2 & _ & CY & FR & _).
    assert (FY : forall z, reachable (all s2) [y'] z -> r < z) by (intros z R; apply FR in R; cbn in R; lia).
    pose proof (kept_rooted _ _ _ _ A2) as K2. pose proof (building_kept _ _ _ _ _ B K2) as B2.
    assert (C2 : copied_all (all s) (all s2) done l') by (eapply building_all; [exact B|exact K2|auto|exact C]).
    assert (CY2 : copied (all s) (all s2) y y'). { destruct (copied_kept (all s1) (all s2) (all s) (all s2)) as (T & _). apply T; [exact CY|now apply kept_sym|easy]. }
    pose proof (push_more l' y' s2 B2 FY) as WP.
    assert (W5 : wp (vec_push r y') (fun _ s5 => H1 s5) s2).
    { eapply (push_fresh true [a] s r y'); [reflexivity|split; auto|pose proof (a_next _ _ _ _ _ _ _ A2) as NX2; cbn in NX2; lia|exact H2|]. apply (a_good _ _ _ _ _ _ _ H2). reflexivity. }
    unfold SafeBase.wp at 1. destruct (vec_push r y' s2) as [[[] s5]| | | | |] eqn:EP; try exact I; try reflexivity.
    pose proof (wp_ret_inv _ _ _ _ _ WP EP) as (B5 & K5). pose proof (wp_ret_inv _ _ _ _ _ W5 EP) as H5.
    eapply wp_mono; [eapply (IH (S i) s5 (done ++ [y]) (l' ++ [y']) H5 B5)|].
    + destruct (copied_kept (all s) (all s2) (all s) (all s5)) as (_ & _ & _ & T & _). apply T; [apply copied_app; [exact C2|repeat constructor; exact CY2]|easy|exact K5].
    + intros z J. apply PM. now right.
    + intros u s6 (l2 & B6 & C6). exists l2. split; [exact B6|]. now rewrite <- app_assoc in C6.
Qed.
Lemma elements_count n x l : data_at s x = Some (DVec l) -> reach s x -> forall k i s1, H1 s1 ->
  wp (cp_elements n x r k i) (fun _ _ => k = 0%nat \/ (i + k <= List.length l)%nat) s1.
Proof using NR NA.
  intros DX RX. induction k as [|k IH]; intros i s1 H; cbn [cp_elements]; [apply wp_ret; auto|].
  apply wp_bind, wp_vec_of; [discriminate|]. intros cx l0 LX EX.
  assert (l0 = l). { assert (D : data_at s1 x = data_at s x) by (eapply q_data; eauto). rewrite DX in D. unfold data_at in D. rewrite LX in D. cbn in D. congruence. } subst l0.
  destruct (nth_error l i) as [y|] eqn:EY; [|apply wp_undef]. assert (LI : (i < List.length l)%nat) by (apply nth_error_Some; congruence). pose proof (h_lt _ H) as LT.
  apply wp_bind. eapply (SafeBuiltins.r_copy true true [a] s n y []); [exact H|now left|]. intros y' s2 H2 NY.
  assert (GY : good [a] s2 y') by (apply (a_good _ _ _ _ _ _ _ H2); reflexivity). assert (y' < nextId s2) by apply GY.
  apply wp_bind. eapply wp_mono; [eapply (push_fresh true [a] s r y'); [reflexivity|split; auto|lia|exact H2|exact GY]|]. intros u s3 H3.
  eapply wp_mono; [apply (IH (S i) s3 H3)|]. intros _ s4 [->|K]; right; lia.
Qed.
Lemma chars_spec : forall cs s1 ws u, H1 s1 -> building r (DVec ws) None s1 -> Forall2 (fun w ch => r < w /\ data_at s1 w = Some (DChar [ch])) ws u ->
  wp (cp_chars r cs) (fun _ s' => exists ws', building r (DVec ws') None s' /\ Forall2 (fun w ch => r < w /\ data_at s' w = Some (DChar [ch])) ws' (u ++ cs)) s1.
Proof using NR NA.
  induction cs as [|ch cs IH]; intros s1 ws u H B F; cbn [cp_chars].
  - apply wp_ret. exists ws. rewrite app_nil_r. auto.
  - pose proof (h_lt _ H) as LT. pose proof (a_inv _ _ _ _ _ _ _ H) as I1. apply wp_bind.
    assert (W0 : wp (alloc (DChar [ch])) (fun w s2 => At true [a] s [] (eq w) s2) s1) by (eapply q_alloc; [exact H|easy|]; auto).
    unfold SafeBase.wp at 1. destruct (alloc (DChar [ch]) s1) as [[w s2]| | | | |] eqn:EC; try exact I; try reflexivity.
    pose proof (wp_ret_inv _ _ _ _ _ W0 EC) as H2. clear W0.
    apply wp_bind. destruct (lookup (all s2) r) as [cr|] eqn:LR; [|unfold SafeBase.wp; rewrite push_dangling by exact LR; reflexivity].
    assert (W1 : wp (alloc (DChar [ch])) (fun w s2 => At true [a] (rooted r s1) [] (eq w) s2 /\ makes (rooted r s1) s2 w (DChar [ch])) (rooted r s1)).
    { eapply q_alloc; [exact (at_start true true [a] (rooted r s1) (inv_rooted _ _ _ I1 LT))|easy|]. auto. }
    pose proof (rooted_step r _ _ [a] s1 w s2 (rel_alloc r _) I1 LT W1 EC ltac:(congruence)) as (A2 & NW & DW). cbn in NW. change (data_at (rooted r s2) w) with (data_at s2 w) in DW.
    assert (FY : forall z, reachable (all s2) [w] z -> r < z).
    { intros z R. destruct (EnvProofs.ae_cell _ _ _ _ (EnvProofs.alloc_ret _ _ _ _ (i_ids _ _ _ I1) EC)) as (ad & LW).
      destruct (reach_inv _ _ _ _ LW R) as [->|(q & RF & RQ)]; [lia|]. apply refers_iff in RF. cbn in RF. destruct RF as [RF|RF]; [discriminate RF|elim RF]. }
    pose proof (kept_rooted _ _ _ _ A2) as K2. pose proof (building_kept _ _ _ _ _ B K2) as B2.
    assert (F2 : Forall2 (fun w ch => r < w /\ data_at s2 w = Some (DChar [ch])) (ws ++ [w]) (u ++ [ch])).
    { apply Forall2_app; [|constructor; [split; [lia|exact DW]|constructor]]. apply (forall2_change _ _ _ _ F). intros z cz J (LZ & DZ). split; [exact LZ|].
      destruct B as (cx & L & E & _). unfold data_at in *. rewrite K2; [exact DZ|]. apply (re_step _ _ r cx z); [apply re_root; now left|exact L|]. apply refers_iff. right. now rewrite E. }
    pose proof (push_more ws w s2 B2 FY) as WP.
    assert (W5 : wp (vec_push r w) (fun _ s5 => H1 s5) s2).
    { eapply (push_fresh true [a] s r w); [reflexivity|split; auto|pose proof (a_next _ _ _ _ _ _ _ A2) as NX2; cbn in NX2; lia|exact H2|]. apply (a_good _ _ _ _ _ _ _ H2). reflexivity. }
    unfold SafeBase.wp at 1. destruct (vec_push r w s2) as [[[] s5]| | | | |] eqn:EP; try exact I; try reflexivity.
    pose proof (wp_ret_inv _ _ _ _ _ WP EP) as (B5 & K5). pose proof (wp_ret_inv _ _ _ _ _ W5 EP) as H5.
    eapply wp_mono; [eapply (IH s5 (ws ++ [w]) (u ++ [ch]) H5 B5)|].
    + apply (forall2_change _ _ _ _ F2). intros z cz J (LZ & DZ). split; [exact LZ|]. unfold data_at in *. rewrite (K5 z J); [exact DZ|]. apply reach_here.
    + intros q s6 (l2 & B6 & C6). exists l2. split; [exact B6|]. now rewrite <- app_assoc in C6.
Qed.
End Range.

Lemma part_reach s x d y : reach s x -> data_at s x = Some d -> dref d y -> reach s y.
Proof.
  intros R D F. unfold data_at in D. destruct (lookup (all s) x) as [c0|] eqn:L0; [|discriminate]. injection D as E0. apply (re_step _ _ x c0 y R L0). apply refers_iff. right. now rewrite E0.
Qed.
(** ** Indices *)
Lemma number_index_place s i e o : data_at s i = Some e -> number_index e = Ret o ->
  match o with Some z => place s i z | None => no_place s i end.
Proof.
  intros D E. destruct e; cbn [number_index] in E; try (injection E as <-; eexists; split; [exact D|reflexivity]).
  - injection E as <-. now left.
  - destruct (sf_int f) as [z|] eqn:ES; [|discriminate]. destruct (_ && _)%bool; [|discriminate]. injection E as <-. right. exists f. split; [exact D|now apply sf_int_truncated].
Qed.
Lemma word_ok z : word z -> ptrdiff_ok z.
Proof. unfold word, ptrdiff_ok. lia. Qed.

Section Cases.
Context (n : nat) (a : ref) (s : vm) (c : cell) (xs : list ref) (A : Inv [a] s) (L : lookup (all s) a = Some c) (E : cdata c = DVec xs).
Let H : At true [a] s [] (fun _ => False) s := args_start a s A.
Lemma one_copy y : reach s y -> wp (copy n y) (fun r s' => a_copy s s' y r) s.
Proof using A.
  intros R. assert (W : plain_maps (all s) y -> wp (copy n y) (fun r s' => copied (all s) (all s') y r /\ forall z, reachable (all s') [r] z -> nextId s <= z) s).
  { intros PM. eapply wp_mono; [apply (copy_spec n [a] s y A R PM)|]. intros r s' (_ & _ & C & F & _). auto. }
  revert W. unfold SafeBase.wp, a_copy. destruct (copy n y s) as [[r s']| | | | |]; auto.
Qed.
Lemma new_range {X} (m : ref -> M X) (Q : ref -> vm -> Prop) :
  (forall r s1, nextId s <= r -> ~ In r [a] -> At true [a] s [] (fun y => y = r) s1 -> building r (DVec []) None s1 -> wp (m r) (fun _ s' => Q r s') s1) ->
  wp (r <- alloc (DVec []) ;; m r ;;; ret r) Q s.
Proof using A.
  intros K. apply wp_bind.
  assert (W : wp (alloc (DVec [])) (fun r s' => At true [a] s [] (eq r) s' /\ nextId s <= r /\ ~ In r [a]) s) by (eapply q_alloc; [exact H|easy|]; auto).
  apply wp_record in W. eapply wp_mono; [exact W|]. intros r s1 ((H1 & NR & NP) & EA).
  destruct (EnvProofs.ae_cell _ _ _ _ (EnvProofs.alloc_ret _ _ _ _ (i_ids _ _ _ A) EA)) as (ad & LW).
  apply wp_bind. eapply wp_mono; [apply K; auto|].
  - eapply at_weaken; [exact H1|]. intros y ->. apply (a_good _ _ _ _ _ _ _ H1). reflexivity.
  - eexists. split; [exact LW|]. repeat split. intros y z RF. apply refers_iff in RF. cbn in RF. destruct RF as [RF|RF]; [discriminate RF|elim RF].
  - intros x s2 Q2. apply wp_ret. exact Q2.
Qed.
Definition is_place (i : ref) (o : option Z) : Prop := match o with Some z => place s i z | None => no_place s i end.
Lemma get_place i (Q : option Z -> vm -> Prop) : In i xs -> (forall o, is_place i o -> Q o s) -> wp (e <- get i ;; lift (number_index e)) Q s.
Proof using A L E.
  intros J K. apply wp_bind. eapply args_get; [exact A|exact L|exact E|exact H|exact J|]. intros e D. apply wp_lift; [discriminate|]. intros o EO. apply K. eapply number_index_place; eauto.
Qed.
Lemma get_second i1 t (Q : option Z -> vm -> Prop) i : incl t xs -> place s i i1 -> (forall z, places s i t i1 z -> Q (Some z) s) -> (forall j, In j t -> no_place s j -> Q None s) ->
  wp (match t with [] => ret (Some i1) | j :: _ => e <- get j ;; lift (number_index e) end) Q s.
Proof using A L E.
  intros T PL K1 K2. destruct t as [|j t]; [apply wp_ret, K1; split; auto|]. apply get_place; [apply T; now left|]. intros [z|] P; [apply K1; split; auto|apply (K2 j); [now left|exact P]].
Qed.
Lemma complain (Q : ref -> vm -> Prop) : (forall r s', complains s s' r -> Q r s') -> wp new_error Q s.
Proof using A. intros K. eapply q_error; [exact H|]. intros r s' _ C. now apply K. Qed.
Lemma make d (Q : ref -> vm -> Prop) : (forall x, ~ dref d x) -> (forall r s', makes s s' r d -> Q r s') -> wp (alloc d) Q s.
Proof using A. intros N K. eapply q_alloc; [exact H|intros x J; now apply N in J|]. intros r s' _ _ M _ _. now apply K. Qed.
Lemma text_taken u i t : incl (i :: t) xs -> wp (e <- get i ;; o <- lift (number_index e) ;;
              match o with
              | None => new_error
              | Some i1 =>
                  o <- match t with [] => ret (Some i1) | j :: _ => e <- get j ;; lift (number_index e) end ;;
                  match o with
                  | None => new_error
                  | Some i2 =>
                      match str_index (text_str u) i1, str_index (text_str u) i2 with
                      | (k1, true), (k2, true) =>
                          if (i1 =? i2)%Z then c <- lift (str_get (text_str u) i1) ;; alloc (DChar [c])
                          else
                            r <- alloc (DVec []) ;;
                            if (k2 <? k1)%Z then abort
                            else cp_chars r (firstn (Z.to_nat (k2 - k1) + 1) (skipn (Z.to_nat k1) u)) ;;; ret r
                      | _, _ => new_error
                      end
                  end
              end) (fun r s' => taken (List.length u) s i t s' r
            (fun k => exists c, nth_error u k = Some c /\ makes s s' r (DChar [c]))
            (fun k n => exists ws, makes s s' r (DVec ws) /\ Forall2 (fun w c => makes s s' w (DChar [c])) ws (firstn n (skipn k u)))) s.
Proof using A L E.
  intros T. apply wp_bind. eapply args_get; [exact A|exact L|exact E|exact H|apply T; now left|]. intros e DE. apply wp_bind, wp_lift; [discriminate|]. intros o EO. pose proof (number_index_place s i e o DE EO) as P1. destruct o as [i1|].
  2:{ apply complain. intros r s' C. left. exists i. split; [now left|]. auto. }
  apply wp_bind. apply (get_second i1 t _ i); [intros z J; apply T; now right|exact P1| |].
  2:{ intros j J P2. apply complain. intros r s' C. left. exists j. split; [now right|]. auto. }
  intros i2 P2.
  assert (GO : forall (m : M ref) (Q : ref -> vm -> Prop), (forall r s', Q r s' -> word i1 -> word i2 -> (Z.of_nat (List.length u) < 2 ^ 63)%Z -> 
    match position (List.length u) i1, position (List.length u) i2 with
    | Some k1, Some k2 => if (i1 =? i2)%Z then (exists c, nth_error u k1 = Some c /\ makes s s' r (DChar [c])) else (k1 <= k2)%nat /\ (exists ws, makes s s' r (DVec ws) /\ Forall2 (fun w c => makes s s' w (DChar [c])) ws (firstn (S (k2 - k1)) (skipn k1 u)))
    | _, _ => complains s s' r end) -> wp m Q s -> wp m (fun r s' => taken (List.length u) s i t s' r
            (fun k => exists c, nth_error u k = Some c /\ makes s s' r (DChar [c]))
            (fun k n => exists ws, makes s s' r (DVec ws) /\ Forall2 (fun w c => makes s s' w (DChar [c])) ws (firstn n (skipn k u)))) s).
  { intros m Q K W. eapply wp_mono; [exact W|]. intros r s' J. right. right. exists i1, i2. split; [exact P2|]. exact (K r s' J). }
  assert (SI : forall z, word z -> (Z.of_nat (List.length u) < 2 ^ 63)%Z -> str_index (text_str u) z = match position (List.length u) z with Some k => (Z.of_nat k, true) | None => (size_of_ptrdiff z, false) end).
  { intros z W B. rewrite str_index_position; [reflexivity|exact B|now apply word_ok]. }
  destruct (str_index (text_str u) i1) as [k1 b1] eqn:E1, (str_index (text_str u) i2) as [k2 b2] eqn:E2.
  destruct b1; [destruct b2|].
  - destruct (i1 =? i2)%Z eqn:EQ.
    + apply wp_bind, wp_lift; [discriminate|]. intros ch EC.
      apply (GO _ (fun r s' => makes s s' r (DChar [ch]))); [|apply make; easy]. intros r s' M W1 W2 B. rewrite (SI _ W1 B) in E1. rewrite (SI _ W2 B) in E2.
      destruct (position _ i1) as [q1|] eqn:Q1; [|discriminate]. destruct (position _ i2); [|discriminate]. exists ch. split; [|exact M].
      unfold str_get in EC. rewrite (SI _ W1 B), Q1, Nat2Z.id in EC. change (ucs (text_str u)) with u in EC. destruct (nth_error u q1); [congruence|discriminate].
    + destruct (k2 <? k1)%Z eqn:LT.
      { apply wp_bind. eapply q_alloc; [exact H|easy|]. intros. apply wp_abort. }
      apply (GO _ (fun r s' => exists ws, building r (DVec ws) None s' /\ nextId s <= r /\ Forall2 (fun w ch => r < w /\ data_at s' w = Some (DChar [ch])) ws (firstn (Z.to_nat (k2 - k1) + 1) (skipn (Z.to_nat k1) u)))).
      * intros r s' (ws & (cr & LR & DR & _) & NR & F) W1 W2 B. rewrite (SI _ W1 B) in E1. rewrite (SI _ W2 B) in E2.
        destruct (position _ i1) as [q1|] eqn:Q1; [|discriminate]. destruct (position _ i2) as [q2|]; [|discriminate]. injection E1 as <-. injection E2 as <-. apply Z.ltb_ge in LT.
        split; [lia|]. exists ws. split; [split; [exact NR|unfold data_at; rewrite LR; cbn; congruence]|]. rewrite Nat2Z.id in F. replace (S (q2 - q1)) with (Z.to_nat (Z.of_nat q2 - Z.of_nat q1) + 1)%nat by lia.
        apply (forall2_change _ _ _ _ F). intros w ch _ (LW & DW). split; [lia|exact DW].
      * apply new_range. intros r s1 NR NP H1 B1. eapply wp_mono; [apply (chars_spec a s r NR NP _ s1 [] [] H1 B1); constructor|]. intros _ s' (ws & B' & F). exists ws. auto.
  - apply (GO _ (fun r s' => complains s s' r)); [|apply complain; auto]. intros r s' C W1 W2 B. rewrite (SI _ W1 B) in E1. rewrite (SI _ W2 B) in E2. destruct (position _ i1); [|exact C]. destruct (position _ i2); [discriminate|exact C].
  - apply (GO _ (fun r s' => complains s s' r)); [|apply complain; auto]. intros r s' C W1 W2 B. rewrite (SI _ W1 B) in E1. destruct (position _ i1); [discriminate|exact C].
Qed.
Lemma vector_taken x q i t : data_at s x = Some (DVec q) -> In x xs -> incl (i :: t) xs -> wp (e <- get i ;; o <- lift (number_index e) ;;
              match o with
              | None => new_error
              | Some i1 =>
                  match norm_index (List.length q) i1 with
                  | None => new_error
                  | Some k1 =>
                      o <- match t with [] => ret (Some i1) | j :: _ => e <- get j ;; lift (number_index e) end ;;
                      match o with
                      | None => new_error
                      | Some i2 =>
                          match norm_index (List.length q) i2 with
                          | None => new_error
                          | Some k2 =>
                              if (i1 =? i2)%Z then
                                match nth_error q k1 with Some y => copy n y | None => undef end
                              else
                                r <- alloc (DVec []) ;;
                                cp_elements n x r (if Nat.leb k1 k2 then S (k2 - k1) else S (List.length q)) k1 ;;; ret r
                          end
                      end
                  end
              end) (fun r s' => taken (List.length q) s i t s' r
            (fun k => exists y, nth_error q k = Some y /\ a_copy s s' y r)
            (fun k n => (forall y, In y (firstn n (skipn k q)) -> plain_maps (all s) y) ->
               exists c' ws, all_new s s' r c' /\ cdata c' = DVec ws /\ copied_all (all s) (all s') (firstn n (skipn k q)) ws)) s.
Proof using A L E.
  intros DX IX T. assert (RX : reach s x) by (eapply args_reach; eauto).
  apply wp_bind. eapply args_get; [exact A|exact L|exact E|exact H|apply T; now left|]. intros e DE. apply wp_bind, wp_lift; [discriminate|]. intros o EO. pose proof (number_index_place s i e o DE EO) as P1. destruct o as [i1|].
  2:{ apply complain. intros r s' C. left. exists i. split; [now left|]. auto. }
  assert (NI : forall z, word z -> (Z.of_nat (List.length q) < 2 ^ 63)%Z -> norm_index (List.length q) z = position (List.length q) z) by (intros z W B; apply norm_index_position; [exact B|now apply word_ok]).
  destruct (norm_index (List.length q) i1) as [k1|] eqn:E1.
  2:{ apply complain. intros r s' C. right. left. exists i1. split; [exact P1|]. split; [|exact C]. intros W B. rewrite <- NI; assumption. }
  apply wp_bind. apply (get_second i1 t _ i); [intros z J; apply T; now right|exact P1| |].
  2:{ intros j J P2. apply complain. intros r s' C. left. exists j. split; [now right|]. auto. }
  intros i2 P2.
  destruct (norm_index (List.length q) i2) as [k2|] eqn:E2.
  2:{ apply complain. intros r s' C. right. right. exists i1, i2. split; [exact P2|]. intros W1 W2 B. rewrite NI in E1, E2 by assumption. now rewrite E1, E2. }
  destruct (i1 =? i2)%Z eqn:EQ.
  - destruct (nth_error q k1) as [y|] eqn:EY; [|apply wp_undef]. eapply wp_mono; [apply one_copy; eapply part_reach; [exact RX|exact DX|eapply nth_error_In; exact EY]|].
    + intros r s' C. right. right. exists i1, i2. split; [exact P2|]. intros W1 W2 B. rewrite NI in E1, E2 by assumption. rewrite E1, E2, EQ. eauto.
  - apply new_range. intros r s1 NR NP H1 B1.
    pose proof (elements_count a s r NR NP n x q DX RX (if Nat.leb k1 k2 then S (k2 - k1) else S (List.length q)) k1 s1 H1) as W1.
    assert (W2 : (forall y, In y (firstn (S (k2 - k1)) (skipn k1 q)) -> plain_maps (all s) y) -> (k1 <= k2)%nat -> wp (cp_elements n x r (if Nat.leb k1 k2 then S (k2 - k1) else S (List.length q)) k1)
      (fun _ s' => exists c' ws, all_new s s' r c' /\ cdata c' = DVec ws /\ copied_all (all s) (all s') (firstn (S (k2 - k1)) (skipn k1 q)) ws) s1).
    { intros PM LE. rewrite (proj2 (Nat.leb_le k1 k2) LE). eapply wp_mono; [apply (elements_spec a s r NR NP n x q DX RX _ k1 s1 [] [] H1 B1); [constructor|exact PM]|].
      intros _ s' (l2 & (cr & LR & DR & _ & FR) & C2). exists cr, l2. split; [|split; [exact DR|exact C2]]. split; [exact NR|]. split; [exact LR|].
      intros y R. destruct (reach_inv _ _ _ _ LR R) as [->|(z & F & RZ)]; [exact NR|]. apply (FR z y) in F; [lia|exact RZ]. }
    assert (LE : wp (cp_elements n x r (if Nat.leb k1 k2 then S (k2 - k1) else S (List.length q)) k1) (fun _ _ => (k1 <= k2)%nat) s1).
    { eapply wp_mono; [exact W1|]. intros u0 s9 K. destruct (Nat.leb_spec k1 k2); [assumption|]. lia. }
    unfold SafeBase.wp in W2, LE |- *. destruct (cp_elements n x r _ k1 s1) as [[[] s']| | | | |]; auto.
    right. right. exists i1, i2. split; [exact P2|]. intros Wd1 Wd2 B. rewrite NI in E1, E2 by assumption. rewrite E1, E2, EQ. split; [exact LE|]. intros PM. exact (W2 PM LE).
Qed.
Lemma value_reach x m i w v : reach s x -> data_at s x = Some (DMap m) -> map_value s m i w (Some v) -> reach s v.
Proof using.
  intros R D MV. eapply part_reach; [exact R|exact D|]. assert (K : exists q, In q (List.concat (buckets m)) /\ evals q = [v]).
  { remember (Some v) as o eqn:EO. destruct MV as [z q v' D1 D2 IX EV| | |q v' D1 EK EV| |]; try discriminate EO; injection EO as EO; exists q; split; try congruence.
    - unfold indexed in IX. destruct (0 <=? z)%Z; [|exact IX]. symmetry in IX. eapply nth_error_In; eauto.
    - apply EK. }
  destruct K as (q & J & EV). exists q. split; [exact J|]. right. rewrite EV. now left.
Qed.
Lemma version_taken v z : wp (version_at v z) (fun r s' => if (z =? - Z.of_nat (version_size v))%Z then complains s s' r
                      else match position (version_size v) z with
                           | Some k => exists d, version_part v k d /\ makes s s' r d
                           | None => complains s s' r
                           end) s.
Proof using A.
  unfold version_at. fold (version_size v). destruct (z =? INT32_MIN)%Z eqn:EM; [apply wp_undef|].
  set (sz := version_size v). assert (3 <= sz)%nat by (unfold sz, version_size; lia).
  destruct (Z.leb_spec (Z.of_nat sz) (Z.abs z)) as [B|B].
  - apply complain. intros r s' C. destruct (Z.eqb_spec z (- Z.of_nat sz)); [exact C|]. unfold position. replace ((0 <=? z) && (z <? Z.of_nat sz))%Z with false by lia. replace ((- Z.of_nat sz <=? z) && (z <? 0))%Z with false by lia. exact C.
  - replace (z =? - Z.of_nat sz)%Z with false by lia.
    assert (EP : position sz z = Some (Z.to_nat (if (z <? 0)%Z then Z.of_nat sz + z else z)%Z)).
    { unfold position. destruct (Z.ltb_spec z 0).
      - replace ((0 <=? z) && (z <? Z.of_nat sz))%Z with false by lia. replace ((- Z.of_nat sz <=? z) && true)%Z with true by lia. reflexivity.
      - replace ((0 <=? z) && (z <? Z.of_nat sz))%Z with true by lia. reflexivity. }
    rewrite EP. destruct (Z.to_nat _) as [|[|[|k]]] eqn:EK.
    + apply make; [easy|]. intros r s' M. eexists. split; [eexists; split; [reflexivity|]|exact M]. intros F. apply wrap32_id. unfold fits in F. unfold in_int32, INT32_MIN, INT32_MAX. lia.
    + apply make; [easy|]. intros r s' M. eexists. split; [eexists; split; [reflexivity|]|exact M]. intros F. apply wrap32_id. unfold fits in F. unfold in_int32, INT32_MIN, INT32_MAX. lia.
    + apply make; [easy|]. intros r s' M. eexists. split; [eexists; split; [reflexivity|]|exact M]. intros F. apply wrap32_id. unfold fits in F. unfold in_int32, INT32_MIN, INT32_MAX. lia.
    + cbn [version_part]. destruct (Nat.ltb_spec k (List.length (pre v))) as [KL|KL].
      * destruct (pre v) as [|[m|u] p]; cbn [hd_error].
        -- apply wp_abort.
        -- apply make; [easy|]. intros r s' M. eexists. split; [eexists; split; [reflexivity|]|exact M]. intros F. apply wrap32_id. unfold fits in F. unfold in_int32, INT32_MIN, INT32_MAX. lia.
        -- apply wp_bind, wp_lift; [discriminate|]. intros t' ET. apply make; [easy|]. intros r s' M. eexists. split; [|exact M]. eexists. split; [exact (c_string_through _ _ ET)|reflexivity].
      * destruct (nth_error (build v) (k - List.length (pre v))) as [u|] eqn:EB.
        -- apply wp_bind, wp_lift; [discriminate|]. intros t' ET. apply make; [easy|]. intros r s' M. eexists. split; [|exact M]. eexists. split; [reflexivity|]. eexists. split; [exact (c_string_through _ _ ET)|reflexivity].
        -- exfalso. apply nth_error_None in EB. unfold sz, version_size in *. destruct (Z.ltb_spec z 0); lia.
Qed.
End Cases.
Lemma cp_at_reader : reader BiCpAt cp_at_result.
Proof.
  apply reader_intro; [easy|]. intros n m a env xs s c A IE L E. cbn [builtin_call]. unfold b_cp_at. pose proof (args_start a s A) as H.
  apply wp_bind. eapply args_vec; [exact L|exact E|exact H|]. unfold cp_at_result.
  destruct xs as [|x [|i t]]; try (apply (complain a s A); auto).
  assert (RX : reach s x) by (eapply args_reach; eauto; now left).
  apply wp_bind. eapply args_get; [exact A|exact L|exact E|exact H|now left|]. intros d D.
  assert (ER : forall (R : ref -> vm -> Prop), (forall r s', complains s s' r -> R r s') -> wp new_error R s) by (intros R K; now apply (complain a s A)).
  assert (GI : forall (k : data -> M ref) R, (forall e, data_at s i = Some e -> wp (k e) R s) -> wp (e <- get i ;; k e) R s).
  { intros k R K. apply wp_bind. eapply args_get; [exact A|exact L|exact E|exact H|now right; left|]. exact K. }
  assert (SUB : incl (i :: t) (x :: i :: t)) by (intros z J; now right).
  destruct d as [ |db|dz|df|dt|dt|dt|dmsg dline|q|mm|q max|q|db denc|df|df|dp|dp|dv]; try apply wp_abort; try (apply ER; intros r s' C; eexists; split; [exact D|]; exact C).
  - destruct t as [|y t]; [|apply ER; intros r s' C; eexists; split; [exact D|exact C]]. apply (make a s A); [easy|]. intros r s' M. eexists. split; [exact D|exact M].
  - destruct t as [|y t]; [|apply ER; intros r s' C; eexists; split; [exact D|exact C]].
    apply GI. intros e DE. destruct e; try (apply ER; intros r s' C; exists (DInt dz); split; [exact D|]; eexists; split; [exact DE|exact C]).
    match goal with DE : data_at s i = Some (DInt ?z) |- _ => rename z into i0 end.
    destruct ((i0 <? -32) || (31 <? i0))%Z eqn:EB.
    + apply ER. intros r s' C. eexists. split; [exact D|]. eexists. split; [exact DE|]. cbn beta iota. unfold position. replace ((0 <=? i0) && (i0 <? Z.of_nat 32))%Z with false by lia. replace ((- Z.of_nat 32 <=? i0) && (i0 <? 0))%Z with false by lia. exact C.
    + apply (make a s A); [easy|]. intros r s' M. eexists. split; [exact D|]. eexists. split; [exact DE|]. cbn beta iota.
      assert (EP : position 32 i0 = Some (Z.to_nat (if (0 <=? i0)%Z then i0 else 32 + i0)%Z)).
      { unfold position. destruct (Z.leb_spec 0 i0); [replace (true && (i0 <? Z.of_nat 32))%Z with true by lia; reflexivity|]. replace ((- Z.of_nat 32 <=? i0) && (i0 <? 0))%Z with true by lia. reflexivity. }
      rewrite EP. rewrite Z2Nat.id by (destruct (Z.leb_spec 0 i0); lia). rewrite Z.mod_pow2_bits_low in M by (destruct (Z.leb_spec 0 i0); lia). exact M.
  - destruct t as [|y [|y' t]]; [| |apply ER; intros r s' C; eexists; split; [exact D|exact C]];
      (eapply wp_mono; [match type of SUB with incl (_ :: ?u) _ => apply (text_taken a s c _ A L E dt i u SUB) end|]; intros r s' K; eexists; split; [exact D|exact K]).
  - destruct t as [|y [|y' t]]; [| |apply ER; intros r s' C; eexists; split; [exact D|exact C]];
      (eapply wp_mono; [match type of SUB with incl (_ :: ?u) _ => apply (text_taken a s c _ A L E dt i u SUB) end|]; intros r s' K; eexists; split; [exact D|exact K]).
  - destruct t as [|y [|y' t]]; [| |apply ER; intros r s' C; eexists; split; [exact D|exact C]];
      (eapply wp_mono; [match type of SUB with incl (_ :: ?u) _ => apply (vector_taken n a s c _ A L E x q i u D (or_introl eq_refl) SUB) end|]; intros r s' K; eexists; split; [exact D|exact K]).
  - destruct t as [|w [|w' t]]; try (apply ER; intros r s' C; eexists; split; [exact D|exact C]).
    apply wp_bind. apply (map_at_value n mm i w s s); auto. intros [v|] MV.
    + eapply wp_mono; [apply (one_copy n a s A); eapply value_reach; eauto|]. intros r s' C. eexists. split; [exact D|]. eexists. split; [exact MV|exact C].
    + apply ER. intros r s' C. eexists. split; [exact D|]. eexists. split; [exact MV|exact C].
  - destruct t as [|y t]; [|apply ER; intros r s' C; eexists; split; [exact D|exact C]].
    apply GI. intros e DE. destruct e; try (apply ER; intros r s' C; exists (DList q); split; [exact D|]; eexists; split; [exact DE|exact C]).
    match goal with DE : data_at s i = Some (DInt ?z) |- _ => rename z into i0 end. rewrite list_at_index. destruct (at_index q i0) as [y|] eqn:EN; [|apply wp_undef].
    eapply wp_mono; [apply (one_copy n a s A); eapply part_reach; [exact RX|exact D|]|].
    + unfold at_index in EN. destruct (position _ i0); [|discriminate]. eapply nth_error_In; exact EN.
    + intros r s' C. eexists. split; [exact D|]. eexists. split; [exact DE|]. exists y. auto.
  - destruct t as [|y t]; [|apply ER; intros r s' C; eexists; split; [exact D|exact C]].
    apply GI. intros e DE. destruct e; try (apply ER; intros r s' C; exists (DSemver dv); split; [exact D|]; eexists; split; [exact DE|exact C]).
    eapply wp_mono; [apply (version_taken a s A)|]. intros r s' K. eexists. split; [exact D|]. eexists. split; [exact DE|exact K].
Qed.
