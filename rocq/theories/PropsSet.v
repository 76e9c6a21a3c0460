(** C88: what the builtin = does.  See SpecSet.v and SpecFrame.v. *)
From Coq Require Import NArith ZArith Bool Lia Arith String List Permutation.
From Verif Require Import Base HMap HMapProofs Heap SpecHeap ValueOps SpecValue ValueProofs Env Builtins Eval Read Boot Run Checks SafeBase SpecSeq SpecText PropsText SpecTrace SpecSpecial SpecForm SpecCall SpecDefine SpecEval SpecBuiltin SpecWrite SpecSet SpecFrame TraceProofs SpecialForms BuiltinProofs BuiltinCases WriteProofs WriteFacts SetProofs SetFacts PropsBuiltin PropsWrite.
Import ListNotations.
Local Open Scope N_scope.
Local Open Scope string_scope.
Local Open Scope list_scope.

Theorem C88_set_partial : exists p, named "=" p /\ writer p set_result.
Proof. exists BiSet. split; [library_name|exact set_writer]. Qed.
Print Assumptions C88_set_partial.
Lemma set_call s xs s' r : is_call "=" s xs s' r -> exists ev a evs, argued (stack s) a xs s /\ (forall x, In x xs -> x <> a) /\ trace ev (stack s) s evs s' /\ set_result s xs evs s' r.
Proof. intros C. eapply (call_writes "=" BiSet) in C; [exact C|library_name|exact set_writer]. Qed.

(** ** (= x y) *)
(** Nothing but [x] changes. *)
Theorem C88_nothing_else : forall s x y s' r, is_call "=" s [x; y] s' r -> r = x /\ changes_only x s s'.
Proof.
  intros s x y s' r C. apply set_call in C as (ev & a & evs & AG & NA & T & R & E). split; [exact E|]. intros z c P L. eapply only_apart; [exact T|exact (set_only _ _ _ _ R)|exact P|exact L].
Qed.
Print Assumptions C88_nothing_else.
(** [x] becomes what [y] is. *)
Theorem C88_atom : forall s x y d s' r, data_at s y = Some d -> atomic d -> ~ is_err d -> is_call "=" s [x; y] s' r -> data_at s' x = Some d /\ data_at s' y = Some d.
Proof.
  intros s x y d s' r D AT NE C. destruct (C88_nothing_else _ _ _ _ _ C) as (_ & CO). apply set_call in C as (ev & a & evs & AG & NA & T & R & E).
  inversion R as [->|d1 d0 s1 s2 s3 s4 evs' evd evv NXY DY EM FI DC DV]; subst.
  - inversion T as [s_ s'_ K|]; subst. split; (eapply argued_data; [exact AG|exact K|now left|exact D|exact NE]).
  - rewrite D in DY. injection DY as <-. assert (NX : x <> a) by (apply NA; now left). split.
    + assert (d0 = d) by (destruct d; try contradiction; inversion EM; reflexivity). assert (evs' = []) by (destruct d; try contradiction; exact FI). subst. cbn [app] in T.
      inversion T as [|s_ e_ evs_ s'_ K H T']; subst. cbn in K, H, T'. destruct (put_fresh_data _ _ _ _ H) as (D2 & O2).
      assert (A2 : argued (stack s) a [x; y] s2). { pose proof (argued_keeps _ _ _ _ _ AG K) as [I1 V1]. split; [exact I1|]. unfold data_at in *. now rewrite O2 by (now apply not_eq_sym). }
      exact (proj1 (docs_data ev (stack s) a [x; y] s2 (evd ++ evv) s' x d A2 NX (or_introl eq_refl) T' (docs_of _ _ _ _ _ _ DC DV) D2 NE)).
    + eapply only_data; [exact T|exact (set_only _ _ _ _ R)| |exact D|exact NE]. eapply argued_apart; [exact AG|exact NX|right; now left|now apply not_eq_sym].
Qed.
Print Assumptions C88_atom.
(** Collections. *)
Lemma set_sequence (mk : list ref -> data) (NMK : forall l, ~ is_err (mk l)) (AMK : forall l w d, appended (mk l) w d -> d = mk (l ++ [w])) (RMK : forall l z, dref (mk l) z <-> In z l)
  dy l (RDY : forall z, In z l -> dref dy z) (EMY : forall d0, emptied dy d0 -> d0 = mk []) (FIY : forall x s evs, match dy with DVec l | DList l | DQueue l _ => fills x s l evs | DMap m => map_fills x s (firstn (numElements m) (List.concat (buckets m))) evs | _ => evs = [] end -> fills x s l evs)
  s x y s' r : x <> y -> data_at s y = Some dy -> ~ In x l -> (forall z, In z l -> exists d, data_at s z = Some d /\ ~ is_err d) -> is_call "=" s [x; y] s' r ->
  exists ws, data_at s' x = Some (mk ws) /\ Forall2 (taken x (stack s) s s') l ws.
Proof.
  intros NXY D NX EL C. apply set_call in C as (ev & a & evs & AG & NA & T & R & E). assert (NXA : x <> a) by (apply NA; now left).
  inversion R as [->|d1 d0 s1 s2 s3 s4 evs' evd evv _ DY EM FI DC DV]; subst; [contradiction|]. rewrite D in DY. injection DY as <-. apply FIY in FI. apply EMY in EM. subst d0.
  inversion T as [|s_ e_ evs_ s'_ K H T']; subst. cbn in K, H, T'. destruct (put_fresh_data _ _ _ _ H) as (D2 & O2).
  assert (A2 : argued (stack s) a [x; y] s2). { pose proof (argued_keeps _ _ _ _ _ AG K) as [I1 V1]. split; [exact I1|]. unfold data_at in *. now rewrite O2 by (now apply not_eq_sym). }
  assert (KA : forall q, apart x (all s) (stack s) q -> apart x (all s2) (stack s) q) by (intros q P; eapply apart_other; [exact O2|eapply apart_keeps; eauto]).
  assert (KD : forall q d, apart x (all s) (stack s) q -> data_at s q = Some d -> ~ is_err d -> data_at s2 q = Some d). { intros q d P DQ NE. unfold data_at at 1. rewrite O2 by (eapply apart_not; eauto). eapply keeps_data; [exact K|eapply apart_reach; eauto|exact DQ|exact NE]. }
  assert (PE : forall z, In z l -> apart x (all s) (stack s) z). { intros z J. eapply part_apart; [exact AG|exact NXA|right; now left|now apply not_eq_sym|exact D|now apply RDY|intros ->; contradiction]. }
  apply trace_app in T' as (s5 & T5 & T6).
  destruct (fills_end ev (stack s) a [x; y] x NXA (or_introl eq_refl) mk NMK AMK RMK l evs' s2 s5 [] A2 T5 FI D2) as (ws & E1 & E2 & _).
  { intros z J. split; [auto|]. destruct (EL z J) as (d & DZ & NZ). exists d. auto. }
  assert (A5 : argued (stack s) a [x; y] s5) by (eapply argued_only; [exact A2|exact NXA|exact T5|exact (fills_only _ _ _ _ FI)]).
  destruct (docs_data ev (stack s) a [x; y] s5 (evd ++ evv) s' x (mk ws) A5 NXA (or_introl eq_refl) T6 (docs_of _ _ _ _ _ _ DC DV) E1 (NMK _)) as (E3 & E4).
  exists ws. split; [exact E3|].
  assert (GO : forall l1 ws1, incl l1 l -> incl ws1 ws -> Forall2 (taken x (stack s) s2 s5) l1 ws1 -> Forall2 (taken x (stack s) s s') l1 ws1).
  { intros l1 ws1 I1 I2 F. induction F as [|z w l1 ws1 (d & Q1 & Q2 & Q3 & Q4) F IH]; constructor.
    - destruct (EL z (I1 z (or_introl eq_refl))) as (dz & DZ & NZ). rewrite (KD z dz (PE z (I1 z (or_introl eq_refl))) DZ NZ) in Q1. injection Q1 as <-. exists dz. split; [exact DZ|].
      split; [apply E4; [apply RMK, I2; now left|exact Q2|exact NZ]|]. split; [|exact Q4]. intros AT. destruct (Q3 AT) as (X1 & X2). split; [exact X1|]. intros P.
      destruct (lookup (all s) w) as [c|] eqn:LW; [|reflexivity]. destruct K as (K & _). destruct (K w c (apart_reach _ _ _ _ P) LW) as (c' & L' & _). rewrite <- (O2 w X1) in L'. rewrite (X2 (KA w P)) in L'. discriminate.
    - apply IH; [intros q JQ; apply I1; now right|intros q JQ; apply I2; now right]. }
  apply GO; [apply incl_refl|apply incl_refl|exact E2].
Qed.
Theorem C88_vector : forall s x y l s' r, x <> y -> data_at s y = Some (DVec l) -> ~ In x l -> (forall z, In z l -> exists d, data_at s z = Some d /\ ~ is_err d) -> is_call "=" s [x; y] s' r ->
  exists ws, data_at s' x = Some (DVec ws) /\ Forall2 (taken x (stack s) s s') l ws.
Proof. intros s x y l s' r. apply (set_sequence DVec); try easy; [intros ? ? ? AP; inversion AP; reflexivity|intros ? EM; inversion EM; [reflexivity|contradiction]]. Qed.
Print Assumptions C88_vector.
Theorem C88_list : forall s x y l s' r, x <> y -> data_at s y = Some (DList l) -> ~ In x l -> (forall z, In z l -> exists d, data_at s z = Some d /\ ~ is_err d) -> is_call "=" s [x; y] s' r ->
  exists ws, data_at s' x = Some (DList ws) /\ Forall2 (taken x (stack s) s s') l ws.
Proof. intros s x y l s' r. apply (set_sequence DList); try easy; [intros ? ? ? AP; inversion AP; reflexivity|intros ? EM; inversion EM; [reflexivity|contradiction]]. Qed.
Print Assumptions C88_list.
(** A queue loses its greatest length. *)
Theorem C88_queue : forall s x y l max s' r, x <> y -> data_at s y = Some (DQueue l max) -> ~ In x l -> (forall z, In z l -> exists d, data_at s z = Some d /\ ~ is_err d) -> is_call "=" s [x; y] s' r ->
  exists ws, data_at s' x = Some (DQueue ws None) /\ Forall2 (taken x (stack s) s s') l ws.
Proof. intros s x y l max s' r. apply (set_sequence (fun l => DQueue l None)); try easy; [intros ? ? ? AP; inversion AP; reflexivity|intros ? EM; inversion EM; [reflexivity|contradiction]]. Qed.
Print Assumptions C88_queue.

(** ** (= x k y) *)
Theorem C88_nothing_else_part : forall s x k y d s' r, data_at s x = Some d -> match d with DEnv _ _ => False | _ => True end -> is_call "=" s [x; k; y] s' r -> changes_only x s s'.
Proof.
  intros s x k y d s' r D NE C. apply set_call in C as (ev & a & evs & AG & NA & T & R). intros z c P L. eapply only_apart; [exact T| |exact P|exact L]. clear - D NE R.
  destruct R as (d1 & dk & dy & DX & DK & DY & R). rewrite D in DX. injection DX as <-. intros e J. destruct d as [ |db|dz|df|dt|dt|dt|dmsg dline|l|m|l max|l|db denc|df|df|dp|dp|dv]; try contradiction; try (destruct R as (-> & _); contradiction).
  - destruct dk as [ |kb|kz|kf|kt|kt|kt|kmsg kline|kl|km|kl kmax|kl|kb kenc|kf|kf|kp|kp|kv]; try (destruct R as (-> & _); contradiction). destruct dy as [ |yb|yz|yf|yt|yt|yt|ymsg yline|yl|ym|yl ymax|yl|yb yenc|yf|yf|yp|yp|yv]; try (destruct R as (-> & _); contradiction). destruct R as (t' & s1 & s2 & -> & _). destruct J as [<-|[]]. reflexivity.
  - destruct dk as [ |kb|kz|kf|kt|kt|kt|kmsg kline|kl|km|kl kmax|kl|kb kenc|kf|kf|kp|kp|kv]; try (destruct R as (-> & _); contradiction). destruct (_ <? 0)%Z; [destruct R as (-> & _); contradiction|]. destruct (_ <? _)%Z.
    + destruct R as (w & s1 & s2 & -> & _). destruct J as [<-|[]]. reflexivity.
    + destruct R as (evp & s1 & w & s2 & s3 & l' & -> & PD & _). apply in_app_or in J as [J|[<-|[]]]; [exact (pads_only _ _ _ _ PD e J)|reflexivity].
  - destruct R as (w & hk & m0 & m' & s1 & s2 & -> & _). destruct J as [<-|[]]. reflexivity.
Qed.
Print Assumptions C88_nothing_else_part.
(** An element of a vector. *)
Theorem C88_element : forall s x k y l i e s' r, data_at s x = Some (DVec l) -> data_at s k = Some (DInt i) -> (0 <= i < Z.of_nat (List.length l))%Z -> x <> y -> data_at s y = Some e -> ~ is_err e -> is_call "=" s [x; k; y] s' r ->
  r = x /\ exists w, data_at s' x = Some (DVec (firstn (Z.to_nat i) l ++ w :: skipn (S (Z.to_nat i)) l)) /\ taken x (stack s) s s' y w.
Proof.
  intros s x k y l i e s' r D DK I NXY DY NE C. apply set_call in C as (ev & a & evs & AG & NA & T & R). destruct R as (d1 & dk & dy & DX & DK' & DY' & R).
  rewrite D in DX. injection DX as <-. rewrite DK in DK'. injection DK' as <-. cbn in R. rewrite (proj2 (Z.ltb_ge i 0)), (proj2 (Z.ltb_lt i _)) in R by lia.
  destruct R as (w & s1 & s2 & -> & DF & ->). split; [reflexivity|]. exists w.
  eapply taken_put; [exact AG|apply NA; now left|now left|right; right; now left|now apply not_eq_sym|exists e; auto|exists (DVec l); split; [exact D|easy]|exact DF|exact T| |easy]. cbn. apply in_or_app. right. now left.
Qed.
Print Assumptions C88_element.
(** Past the end of a vector: nils come before it. *)
Theorem C88_past_the_end : forall s x k y l i e s' r, data_at s x = Some (DVec l) -> data_at s k = Some (DInt i) -> (Z.of_nat (List.length l) <= i)%Z -> x <> y -> data_at s y = Some e -> ~ is_err e -> is_call "=" s [x; k; y] s' r ->
  r = x /\ exists ws w, data_at s' x = Some (DVec (l ++ ws ++ [w])) /\ List.length ws = (Z.to_nat i - List.length l)%nat /\ (forall z, In z ws -> data_at s' z = Some DNil) /\ data_at s' w = Some e /\ (~ atomic e -> w = y) /\ (atomic e -> w <> y).
Proof.
  intros s x k y l i e s' r D DK I NXY DY NE C. apply set_call in C as (ev & a & evs & AG & NA & T & R). destruct R as (d1 & dk & dy & DX & DK' & DY' & R).
  rewrite D in DX. injection DX as <-. rewrite DK in DK'. injection DK' as <-. cbn in R. rewrite (proj2 (Z.ltb_ge i 0)), (proj2 (Z.ltb_ge i _)) in R by lia.
  destruct R as (evp & s1 & w & s2 & s3 & l' & -> & PD & E1 & DF & DX & ->). split; [reflexivity|]. assert (NXA : x <> a) by (apply NA; now left).
  apply trace_last in T as (T1 & T2). rewrite <- E1 in T1, T2.
  destruct (pads_end ev (stack s) a [x; k; y] x NXA (or_introl eq_refl) _ _ _ _ _ AG T1 PD D) as (ws & P1 & P2 & P3 & _).
  pose proof (argued_only _ _ _ _ _ _ _ _ AG NXA T1 (pads_only _ _ _ _ PD)) as A1.
  assert (DY1 : data_at s1 y = Some e). { eapply only_data; [exact T1|exact (pads_only _ _ _ _ PD)| |exact DY|exact NE]. eapply argued_apart; [exact AG|exact NXA|right; right; now left|now apply not_eq_sym]. }
  assert (EL : l' = l ++ ws). { inversion T2 as [|s_ e_ evs_ s'_ K H T']; subst s_ e_ evs_ s'_. cbn in K, H, T'. assert (DX2 : data_at s2 x = Some (DVec (l ++ ws))) by (eapply argued_data; [exact A1|exact K|now left|exact P1|easy]). congruence. }
  subst l'. rewrite <- app_assoc in T2.
  assert (TP : data_at s' x = Some (DVec (l ++ ws ++ [w])) /\ taken x (stack s) s1 s' y w).
  { eapply taken_put; [exact A1|exact NXA|now left|right; right; now left|now apply not_eq_sym|exists e; auto|exists (DVec (l ++ ws)); split; [exact P1|easy]|exact DF|exact T2| |easy]. cbn. apply in_or_app. right. apply in_or_app. right. now left. }
  destruct TP as (TD & (d & Q1 & Q2 & Q3 & Q4)). rewrite DY1 in Q1. injection Q1 as <-. exists ws, w. split; [exact TD|]. split; [exact P2|]. split.
  - intros z J. destruct (P3 z J) as (NZ & DZ). inversion T2 as [|s_ e_ evs_ s'_ K H T']; subst s_ e_ evs_ s'_. cbn in K, H, T'. inversion T' as [s_ s'_ K'|]; subst s_ s'_. destruct (put_data _ _ _ _ H) as (HD & HO).
    assert (R1 : forall st, argued (stack s) a [x; k; y] st -> forall q, data_at st x = Some (DVec q) -> In z q -> reachable (all st) (stack s) z). { intros st As q DQ JQ. unfold data_at in DQ. destruct (lookup (all st) x) as [c|] eqn:L; [|discriminate]. injection DQ as DQ.
      eapply re_step; [exact (argued_reach _ _ _ _ _ As (or_introl eq_refl))|exact L|]. apply refers_iff. right. now rewrite DQ. }
    eapply keeps_data; [exact K'|eapply R1; [|exact HD|]| |easy].
    + eapply argued_put; [eapply argued_keeps; [exact A1|exact K]|exact NXA|exact H].
    + apply in_or_app. right. apply in_or_app. now left.
    + rewrite HO by exact NZ. eapply keeps_data; [exact K|eapply R1; [exact A1|exact P1|apply in_or_app; now right]|exact DZ|easy].
  - split; [exact Q2|]. split; [exact Q4|]. intros AT EW. destruct (Q3 AT) as (_ & Q5). subst w. assert (PY : apart x (all s1) (stack s) y) by (eapply argued_apart; [exact A1|exact NXA|right; right; now left|now apply not_eq_sym]).
    unfold data_at in DY1. rewrite (Q5 PY) in DY1. discriminate.
Qed.
Print Assumptions C88_past_the_end.
(** A character of a string. *)
Theorem C88_character : forall s x k y t u i s' r, data_at s x = Some (DStr t) -> data_at s k = Some (DInt i) -> data_at s y = Some (DChar u) -> size_ok t u i -> is_call "=" s [x; k; y] s' r ->
  data_at s' x = Some (DStr (match position (List.length t) i with Some p => firstn p t ++ u ++ skipn (p + List.length u) t | None => if (i <? 0)%Z then t else t ++ u end)) /\
  (if match position (List.length t) i with Some _ => true | None => (0 <=? i)%Z end then r = x else complains s s' r).
Proof.
  intros s x k y t u i s' r D DK DY OK C. apply set_call in C as (ev & a & evs & AG & NA & T & R). destruct R as (d1 & dk & dy & DX & DK' & DY' & R).
  rewrite D in DX. injection DX as <-. rewrite DK in DK'. injection DK' as <-. rewrite DY in DY'. injection DY' as <-. cbn in R. destruct R as (t' & s1 & s2 & -> & R). specialize (R OK).
  apply (one_put _ _ _ _ _ x _ s1 s2 s' AG NA) in T as (DE & _); [|now left|easy]. rewrite DE. destruct (position (List.length t) i) as [p|]; [destruct R as (-> & ->); split; reflexivity|].
  rewrite Z.leb_antisym. destruct (i <? 0)%Z; destruct R as (-> & R); split; auto.
Qed.
Print Assumptions C88_character.
(** A wrong place: nothing changes. *)
Theorem C88_wrong_place : forall s x k y l dk s' r, data_at s x = Some (DVec l) -> data_at s k = Some dk -> (forall i, dk = DInt i -> (i < 0)%Z) -> is_call "=" s [x; k; y] s' r -> complains s s' r /\ data_at s' x = Some (DVec l).
Proof.
  intros s x k y l dk s' r D DK NG C. apply set_call in C as (ev & a & evs & AG & NA & T & R). destruct R as (d1 & dk' & dy & DX & DK' & DY & R).
  rewrite D in DX. injection DX as <-. rewrite DK in DK'. injection DK' as <-. cbn in R. assert (R' : evs = [] /\ complains s s' r).
  { destruct dk; try exact R. rewrite (proj2 (Z.ltb_lt _ 0)) in R by (eapply NG; reflexivity). exact R. }
  destruct R' as (-> & CO). split; [exact CO|]. inversion T as [s_ s'_ K|]; subst. eapply argued_data; [exact AG|exact K|now left|exact D|easy].
Qed.
Print Assumptions C88_wrong_place.
(** A key of a hash map. *)
Lemma sound_cmp n h k k' c c' t t' : lookup h k = Some c -> cdata c = DStr t -> lookup h k' = Some c' -> cdata c' = DStr t' -> sound_text t -> sound_text t' -> forall z, vcompare n h k k' = Ret z -> (z = 0%Z <-> t = t').
Proof.
  intros L E L' E' S S' z. destruct n as [|n]; [discriminate|]. cbn [vcompare]. destruct (N.eqb_spec k k') as [<-|NE].
  - intros [= <-]. assert (c = c') by congruence. subst. rewrite E in E'. injection E' as ->. tauto.
  - rewrite L, L', E, E'. destruct (text_cmp_sign t t' S S') as (q & -> & Q). intros [= <-]. rewrite <- lex_eq. rewrite <- Q. apply iff_sym, Z.compare_eq_iff.
Qed.
Theorem C88_key : forall s x k y m t e s' r, data_at s x = Some (DMap m) -> string_map s m -> data_at s k = Some (DStr t) -> sound_text t -> x <> y -> data_at s y = Some e -> ~ is_err e -> is_call "=" s [x; k; y] s' r ->
  r = x /\ exists w m' rest, data_at s' x = Some (DMap m') /\ taken x (stack s) s s' y w /\ proper m' /\
    Permutation (entries m') ((k, [w]) :: rest) /\ (forall k' vs, In (k', vs) rest -> data_at s k' <> Some (DStr t)) /\
    (Permutation (entries m) rest \/ exists k' vs, data_at s k' = Some (DStr t) /\ Permutation (entries m) ((k', vs) :: rest)).
Proof.
  intros s x k y m t e s' r D SM DK SK NXY DY NE C. apply set_call in C as (ev & a & evs & AG & NA & T & R). destruct R as (d1 & dk & dy & DX & DK' & DY' & R).
  rewrite D in DX. injection DX as <-. cbn in R. destruct R as (w & hk & m0 & m' & s1 & s2 & -> & DF & DM & EH & AS & ->). split; [reflexivity|].
  assert (NXA : x <> a) by (apply NA; now left).
  assert (K : keeps (stack s) s s1) by (inversion T; subst; assumption).
  assert (DM' : data_at s1 x = Some (DMap m)) by (eapply argued_data; [exact AG|exact K|now left|exact D|easy]). rewrite DM' in DM. injection DM as <-.
  assert (RK : forall q, In q (List.concat (buckets m)) -> reachable (all s) (stack s) (ekey q)). { intros q J. pose proof D as D3. unfold data_at in D3. destruct (lookup (all s) x) as [c|] eqn:L; [|discriminate]. injection D3 as D3.
    eapply re_step; [exact (argued_reach _ _ _ _ _ AG (or_introl eq_refl))|exact L|]. apply refers_iff. right. rewrite D3. exists q. split; [exact J|now left]. }
  assert (KD : forall q, In q (List.concat (buckets m)) -> exists t, data_at s (ekey q) = Some (DStr t) /\ data_at s1 (ekey q) = Some (DStr t) /\ sound_text t /\ vhash (all s) (ekey q) = Ret (ehash q)).
  { intros q J. destruct (sm_keys _ _ SM q J) as (tq & Q1 & Q2 & Q3). exists tq. split; [exact Q1|]. split; [eapply keeps_data; [exact K|now apply RK|exact Q1|easy]|auto]. }
  assert (DK1 : data_at s1 k = Some (DStr t)) by (eapply argued_data; [exact AG|exact K|right; now left|exact DK|easy]).
  assert (CM : forall n q z, In q (List.concat (buckets m)) -> vcompare n (all s1) k (ekey q) = Ret z -> (z = 0%Z <-> data_at s (ekey q) = Some (DStr t))).
  { intros n q z J E. destruct (KD q J) as (tq & Q1 & Q2 & Q3 & _). unfold data_at in DK1, Q2. destruct (lookup (all s1) k) as [c|] eqn:L; [|discriminate]. destruct (lookup (all s1) (ekey q)) as [c'|] eqn:L'; [|discriminate].
    injection DK1 as C1. injection Q2 as C2. rewrite (sound_cmp n (all s1) k (ekey q) c c' t tq L C1 L' C2 SK Q3 z E). rewrite Q1. split; congruence. }
  assert (TP : data_at s' x = Some (DMap m') /\ (In w (List.concat (map snd (entries m'))) -> taken x (stack s) s s' y w)).
  { split; [apply (one_put _ _ _ _ _ x _ s1 s2 s' AG NA) in T as (TE & _); [exact TE|now left|easy]|]. intros J. eapply (fun A1 A2 A3 A4 A5 A6 A7 A8 A9 A10 A11 => proj2 (taken_put ev (stack s) a [x; k; y] x y w (DMap m') s s1 s2 s' A1 A2 A3 A4 A5 A6 A7 A8 A9 A10 A11)); [exact AG|exact NXA|now left|right; right; now left|now apply not_eq_sym|exists e; auto|exists (DMap m); split; [exact D|easy]|exact DF|exact T| |easy].
    cbn. apply in_concat in J as (vs & J1 & J2). apply in_map_iff in J1 as ((k1 & vs1) & <- & J1). unfold entries in J1. apply in_map_iff in J1 as (q & [= <- <-] & J1). exists q. split; [exact J1|now right]. }
  destruct TP as (TD & TK). assert (PR : proper m) by (split; [apply SM|apply SM]).
  assert (TW : forall rest, Permutation (entries m') ((k, [w]) :: rest) -> taken x (stack s) s s' y w).
  { intros rest PE. apply TK. apply in_concat. exists [w]. split; [|now left]. apply (in_map snd (entries m') (k, [w])). eapply Permutation_in; [apply Permutation_sym; exact PE|now left]. }
  assert (ND : NoDup (map (fun p => data_at s (fst p)) (entries m))). { unfold entries. rewrite map_map. exact (sm_distinct _ _ SM). }
  assert (RQ : forall p, In p (entries m) -> exists q, In q (List.concat (buckets m)) /\ p = (ekey q, evals q)). { intros p J. apply in_map_iff in J as (q & <- & J). eauto. }
  destruct (AS PR) as [(n & NK & P' & PE)|(q & n & rest & PM & EQ & PE)].
  - exists w, m', (entries m). split; [exact TD|]. split; [eapply TW; exact PE|]. split; [exact P'|]. split; [exact PE|]. split; [|left; apply Permutation_refl].
    intros k' vs J DE. destruct (RQ _ J) as (q & JQ & [= -> ->]). destruct (KD q JQ) as (tq & Q1 & Q2 & Q3 & Q4). rewrite DE in Q1. injection Q1 as <-.
    assert (HH : ehash q = hk). { unfold vhash in EH, Q4. pose proof DE as DE1. unfold data_at in DE1, DK1. destruct (lookup (all s) (ekey q)) as [c|]; [|discriminate]. destruct (lookup (all s1) k) as [c1|]; [|discriminate]. injection DE1 as C1. injection DK1 as C2. unfold cell_hash in *. rewrite C1 in Q4. rewrite C2 in EH. congruence. }
    apply in_concat in JQ as (b & JB & JQ). apply (In_nth _ _ []) in JB as (i & LI & EB). assert (JI : In q (nth i (buckets m) [])) by (rewrite EB; exact JQ). pose proof (sm_placed _ _ SM i q JI) as EI. rewrite HH in EI. subst i.
    destruct (NK q JI) as (z & EZ & NZ). apply NZ. apply (CM n q z); [|exact EZ|exact DE]. apply in_concat. exists b. split; [rewrite <- EB; now apply nth_In|exact JQ].
  - assert (JQ : exists q', In q' (List.concat (buckets m)) /\ (ekey q, evals q) = (ekey q', evals q')) by (apply RQ; eapply Permutation_in; [apply Permutation_sym; exact PM|now left]).
    destruct JQ as (q' & JQ' & [= EK EV]). rewrite EK in EQ. pose proof (proj1 (CM n q' 0%Z JQ' EQ) eq_refl) as DQ.
    assert (NR : forall k' vs, In (k', vs) rest -> data_at s k' <> Some (DStr t)).
    { intros k' vs J DE. apply (Permutation_map (fun p => data_at s (fst p))) in PM. eapply (Permutation_NoDup PM) in ND. cbn [map fst] in ND. inversion ND as [|? ? NI _]; subst. apply NI. rewrite EK, DQ, <- DE. exact (in_map (fun p => data_at s (fst p)) rest (k', vs) J). }
    destruct PE as (P' & PE). { intros k' vs i J E. destruct (RQ (k', vs)) as (q2 & J2 & [= -> ->]); [eapply Permutation_in; [apply Permutation_sym; exact PM|now right]|]. apply (NR _ _ J). exact (proj1 (CM i q2 0%Z J2 E) eq_refl). }
    exists w, m', rest. split; [exact TD|]. split; [eapply TW; exact PE|]. split; [exact P'|]. split; [exact PE|]. split; [exact NR|]. right. exists (ekey q), (evals q). split; [rewrite EK; exact DQ|exact PM].
Qed.
Print Assumptions C88_key.

(** ** Concrete calls *)
Example C88_atom_case : a_case BiSet (fun s xs s' r => match xs with [x; y] => match data_at s x, data_at s' x, ints_of s' [y] with Some (DStr _), Some (DInt 9), [9]%Z => (r =? x)%N | _, _, _ => false end | _ => false end).
Proof. apply (arg_case _ _ "(define x as [ab] [x]) (define y as {D+9} [y])" ["x"; "y"]). vm_compute. reflexivity. Qed.
Example C88_vector_case : a_case BiSet (fun s xs s' r => match xs with [x; y] => match data_at s y, data_at s' x with Some (DVec [p; q]), Some (DVec [p'; q']) => match ints_of s [p], ints_of s' [p'] with [5]%Z, [5]%Z => negb (p =? p')%N && (q =? q')%N && (r =? x)%N | _, _ => false end | _, _ => false end | _ => false end).
Proof. apply (arg_case _ _ "(define x as {D+1} [x]) (define y as '({D+5} ({D+6})) [y])" ["x"; "y"]). vm_compute. reflexivity. Qed.
Example C88_element_case : a_case BiSet (fun s xs s' r => match data_at s' r with Some (DVec l) => match ints_of s' l with [5; 9; 7]%Z => true | _ => false end | _ => false end).
Proof. apply (arg_case _ _ "(define v as '({D+5} {D+6} {D+7}) [v]) (define i as {D+1} [i]) (define y as {D+9} [y])" ["v"; "i"; "y"]). vm_compute. reflexivity. Qed.
Example C88_past_the_end_case : a_case BiSet (fun s xs s' r => match data_at s' r with Some (DVec [p; q; u]) => match data_at s' q with Some DNil => match ints_of s' [p; u] with [5; 9]%Z => true | _ => false end | _ => false end | _ => false end).
Proof. apply (arg_case _ _ "(define v as '({D+5}) [v]) (define i as {D+2} [i]) (define y as {D+9} [y])" ["v"; "i"; "y"]). vm_compute. reflexivity. Qed.
Example C88_character_case : a_case BiSet (fun s xs s' r => match data_at s' r with Some (DStr [97; 122; 99]%N) => true | _ => false end).
Proof. apply (arg_case _ _ "(define v as [abc] [v]) (define i as {D-2} [i]) (define y as |z| [y])" ["v"; "i"; "y"]). vm_compute. reflexivity. Qed.
Example C88_key_case : a_case BiSet (fun s xs s' r => match xs with [x; k; y] => match data_at s x, data_at s' x with Some (DMap m), Some (DMap m') => match entries m, entries m' with [(k0, [v0])], [(k1, [v1])] => negb (k0 =? k)%N && (k1 =? k)%N && match ints_of s [v0], ints_of s' [v1] with [7]%Z, [8]%Z => true | _, _ => false end | _, _ => false end | _, _ => false end | _ => false end).
Proof. apply (arg_case _ _ "(define a as [abc] [a]) (define k as [abc] [k]) (define v as {D+7} [v]) (define y as {D+8} [y]) (define m as (hash-map a v) [m])" ["m"; "k"; "y"]). vm_compute. reflexivity. Qed.
(** The hash map of that call is one of those the theorem is about. *)
Definition string_map_b (s : vm) (m : hmap ref ref) : bool :=
  match buckets m with [] => false | _ => true end && Nat.eqb (numElements m) (List.length (List.concat (buckets m))) &&
  forallb (fun i => forallb (fun e => Nat.eqb i (bucket_index (ehash e) (List.length (buckets m))) &&
    match data_at s (ekey e), vhash (all s) (ekey e) with Some (DStr t), Ret h => forallb (fun c => (0 <? c)%N && (c <? 128)%N) t && (h =? ehash e)%N | _, _ => false end) (nth i (buckets m) [])) (seq 0 (List.length (buckets m))) &&
  match List.concat (buckets m) with [_] => true | _ => false end.
Lemma string_map_check s m : string_map_b s m = true -> string_map s m.
Proof.
  unfold string_map_b. intros B. apply andb_true_iff in B as (B & B4). apply andb_true_iff in B as (B & B3). apply andb_true_iff in B as (B1 & B2). apply Nat.eqb_eq in B2. rewrite forallb_forall in B3.
  assert (G : forall i e, In e (nth i (buckets m) []) -> i = bucket_index (ehash e) (List.length (buckets m)) /\ exists t, data_at s (ekey e) = Some (DStr t) /\ sound_text t /\ vhash (all s) (ekey e) = Ret (ehash e)).
  { intros i e J. destruct (Nat.lt_ge_cases i (List.length (buckets m))) as [LT|GE]; [|rewrite nth_overflow in J by exact GE; contradiction].
    specialize (B3 i (proj2 (in_seq _ _ _) (conj (Nat.le_0_l i) LT))). cbn beta in B3. rewrite forallb_forall in B3. specialize (B3 e J). cbn beta in B3. apply andb_true_iff in B3 as (E & H). apply Nat.eqb_eq in E. split; [exact E|].
    destruct (data_at s (ekey e)) as [d|]; [|discriminate]. destruct d as [ |db|dz|df|t|dt|dt|dmsg dline|l|q|l max|l|db denc|df|df|dp|dp|dv]; try discriminate. destruct (vhash (all s) (ekey e)) as [h| | | | |]; try discriminate.
    apply andb_true_iff in H as (H1 & H2). apply N.eqb_eq in H2. subst h. exists t. split; [reflexivity|]. split; [|reflexivity]. rewrite forallb_forall in H1. split.
    - apply Forall_forall. intros c JC. specialize (H1 c JC). apply andb_true_iff in H1 as (_ & H1). apply N.ltb_lt in H1. unfold scalar. split; lia.
    - intros JC. specialize (H1 _ JC). discriminate. }
  split.
  - destruct (buckets m); [discriminate|cbn; lia].
  - exact B2.
  - intros i e J. now apply G.
  - intros e J. apply in_concat in J as (b & JB & J). apply (In_nth _ _ []) in JB as (i & LI & EB). rewrite <- EB in J. now apply (G i e J).
  - destruct (List.concat (buckets m)) as [|e [|]]; try discriminate. cbn. constructor; [easy|constructor].
Qed.
Example C88_key_hypotheses : a_case BiSet (fun s xs s' r => match xs with [x; k; y] => match data_at s x, data_at s k with Some (DMap m), Some (DStr _) => string_map_b s m && negb (x =? y)%N | _, _ => false end | _ => false end).
Proof. apply (arg_case _ _ "(define a as [abc] [a]) (define k as [abc] [k]) (define v as {D+7} [v]) (define y as {D+8} [y]) (define m as (hash-map a v) [m])" ["m"; "k"; "y"]). vm_compute. reflexivity. Qed.

(** ** The other builtins that change a value change nothing else *)
Theorem C82_nothing_else : forall name s x s' r, name = "++" \/ name = "--" -> is_call name s [x] s' r -> changes_only x s s'.
Proof.
  intros name s x s' r NM C.
  assert (G : exists ev evs, trace ev (stack s) s evs s' /\ forall e, In e evs -> only x e).
  { assert (W : exists p step ready, named name p /\ writer p (each_result step ready)) by (destruct NM as [->| ->]; [exists BiIncr, incremented, is_number; split; [library_name|exact incr_writer]|exists BiDecr, decremented, removable; split; [library_name|exact decr_writer]]).
    destruct W as (p & step & ready & N & W). eapply call_writes in C as (ev & a & evs & AG & NA & T & R); [|exact N|exact W]. exists ev, evs. split; [exact T|].
    assert (CH : forall l, changed step l evs -> incl l [x] -> forall e, In e evs -> only x e). { intros l H. clear - H. induction H as [|y l d d' s1 s2 evs D S H IH]; intros I e J; [contradiction|]. destruct J as [<-|J]; [destruct (I y (or_introl eq_refl)) as [->|[]]; reflexivity|]. apply IH; [intros z JZ; apply I; now right|exact J]. }
    destruct R as [(? & _)|[(H & _)|(l & y & t & d & EL & H & _)]]; [discriminate|apply (CH [x] H), incl_refl|]. destruct l as [|z [|]]; [|discriminate|discriminate]. inversion H; subst. intros e []. }
  destruct G as (ev & evs & T & O). intros z c P L. eapply only_apart; [exact T|exact O|exact P|exact L].
Qed.
Print Assumptions C82_nothing_else.
Theorem C83_nothing_else : forall name s xs s' r, name = "pop-back" \/ name = "pop-front" -> is_call name s xs s' r -> exists x, (xs = [x] \/ ~ exists y, xs = [y]) /\ changes_only x s s'.
Proof.
  intros name s xs s' r NM C. assert (W : exists p step ready, named name p /\ writer p (pop_result step ready)) by (destruct NM as [->| ->]; [exists BiPopBack, popped_back, can_pop_back; split; [library_name|exact pop_back_writer]|exists BiPopFront, popped_front, can_pop_front; split; [library_name|exact pop_front_writer]]).
  destruct W as (p & step & ready & N & W). eapply call_writes in C as (ev & a & evs & AG & NA & T & R); [|exact N|exact W].
  assert (G : forall x, (xs = [x] \/ ~ exists y, xs = [y]) -> forall e, In e evs -> only x e). { intros x EX e J. destruct R as [(y & d & d' & s1 & s2 & EY & _ & _ & _ & -> & _)|[(-> & _)|(-> & _)]]; try contradiction. destruct J as [<-|[]]. destruct EX as [EX|NX]; [congruence|]. elim NX. eauto. }
  destruct xs as [|x [|y l]].
  - exists 0%N. split; [right; intros (y & E); discriminate|]. intros z c P L. eapply only_apart; [exact T|apply G; right; intros (y & E); discriminate|exact P|exact L].
  - exists x. split; [now left|]. intros z c P L. eapply only_apart; [exact T|apply G; now left|exact P|exact L].
  - exists 0%N. split; [right; intros (q & E); discriminate|]. intros z c P L. eapply only_apart; [exact T|apply G; right; intros (q & E); discriminate|exact P|exact L].
Qed.
Print Assumptions C83_nothing_else.
Lemma added_only step other s x : forall y evs, added step other s x y evs -> forall e, In e evs -> only x e
with added_all_only step other s x : forall t evs, added_all step other s x t evs -> forall e, In e evs -> only x e.
Proof.
  - intros y evs A e J. destruct A as [y d0 e0 d' s1 s2 D1 D2 S|y l evs D A|y d0 d1 s1 s2 D S|y e0 D NV NS NO].
    + destruct J as [<-|[]]. reflexivity.
    + exact (added_all_only step other s x l evs A e J).
    + destruct J as [<-|[]]. reflexivity.
    + contradiction.
  - intros t evs A e J. destruct A as [|y l evs evs' A A']; [contradiction|]. apply in_app_or in J as [J|J]; [exact (added_only step other s x y evs A e J)|exact (added_all_only step other s x l evs' A' e J)].
Qed.
Lemma pushes_only x s t evs : pushes x s t evs -> forall e, In e evs -> only x e.
Proof. intros F. induction F as [|s z t w d d' s1 s2 evs DF DX AP F IH]; intros e J; [contradiction|]. destruct J as [<-|J]; [reflexivity|auto]. Qed.
Lemma shares_only x t evs : shares x t evs -> forall e, In e evs -> only x e.
Proof. intros F. induction F as [|z t l s1 s2 evs D F IH]; intros e J; [contradiction|]. destruct J as [<-|J]; [reflexivity|auto]. Qed.
Lemma enters_only x t evs : enters x t evs -> forall e, In e evs -> only x e.
Proof. intros F. induction F as [|k v t m m' s1 s2 evs D N F IH]; intros e J; [contradiction|]. destruct J as [<-|J]; [reflexivity|auto]. Qed.
Theorem C84_nothing_else_partial : forall s x t d s' r, data_at s x = Some d -> match d with DChar _ | DSym _ | DSemver _ => False | _ => True end -> is_call "+=" s (x :: t) s' r -> changes_only x s s'.
Proof.
  intros s x t d s' r D MD C. eapply (call_writes "+=" BiPlusEq) in C as (ev & a & evs & AG & NA & T & R); [|library_name|exact plus_eq_writer]. destruct R as (d1 & D' & R). rewrite D in D'. injection D' as <-.
  intros z c P L. eapply only_apart; [exact T| |exact P|exact L]. clear - MD R. intros e J.
  destruct d as [ |db|dz|df|dt|dt|dt|dmsg dline|l|m|l max|l|db denc|df|df|dp|dp|dv]; try contradiction; try (destruct R as (R & Q); rewrite R in J; contradiction); try (destruct R as (R & Q)).
  - exact (added_all_only _ _ _ _ _ _ R e J).
  - exact (added_all_only _ _ _ _ _ _ R e J).
  - exact (added_all_only _ _ _ _ _ _ R e J).
  - exact (shares_only _ _ _ R e J).
  - destruct t as [|k [|v [|]]]; try (destruct R as (R & _); rewrite R in J; contradiction).
    + destruct R as (dk & _ & R). destruct dk as [ |kb|kz|kf|kt|kt|kt|kmsg kline|kl|km|kl kmax|kl|kb kenc|kf|kf|kp|kp|kv]; try (destruct R as (R & _); rewrite R in J; contradiction).
      * destruct (in_pairs kl) as [kvs|]; destruct R as (R & _); [exact (enters_only _ _ _ R e J)|rewrite R in J; contradiction].
      * destruct R as (R & _). exact (enters_only _ _ _ R e J).
    + destruct R as (dk & _ & _ & _ & R & _). exact (enters_only _ _ _ R e J).
  - exact (pushes_only _ _ _ _ R e J).
  - exact (pushes_only _ _ _ _ R e J).
Qed.
Print Assumptions C84_nothing_else_partial.
