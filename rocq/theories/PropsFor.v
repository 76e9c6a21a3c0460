(** C55, C72: for.  See [special_form] in SpecForm.v and SpecFor.v. *)
From Coq Require Import NArith ZArith Bool Lia Arith String List.
From Verif Require Import Base HMap Heap SpecHeap GcProofs VmProofs ValueOps Env Builtins Specials Eval Read Boot Run SafeBase EnvProofs SpecTrace SpecSpecial SpecForm SpecEnv SpecDefine SpecFor TraceProofs SpecialProofs SpecialEval SpecialForms ForProofs.
Import ListNotations.
Local Open Scope N_scope.
Local Open Scope string_scope.
Local Open Scope list_scope.

(** What for does, whatever the forms are. *)
Lemma for_forms : special_form SpFor (fun _ => for_run).
Proof.
  apply special_form_of.
  - intros fuel env ev EV P a s0 c0 l IN L0 E0 GE IE A0. cbn [special_call]. now apply for_spec with (c0 := c0).
  - intros _ env s s' l evs r od K _ H. pose proof (agree_data _ _ _ K) as KD. clear K. rename KD into K. unfold is_symbol in *.
    destruct H as [r d A E|k l' dk r d EL D N E|k w l' t dw r d EL DK DW N E|k t w x l' e c d evs r od EL DK DW G Q|k t w x l' e p d r d' EL DK DW G N E|k t w x y1 y l' e p z e' q d' evs r od EL DK DW G G' Q]; cycle 0;
      try (assert (DK' : data_at s' k = data_at s k) by (apply K; rewrite EL; now left)); try (assert (DW' : data_at s' w = data_at s w) by (apply K; rewrite EL; right; now left)).
    + now apply for_arity.
    + eapply for_iterator; [exact EL|rewrite DK'; exact D|exact N|exact E].
    + eapply for_word; [exact EL|rewrite DK'; exact DK|rewrite DW'; exact DW|exact N|exact E].
    + eapply for_in_form; [exact EL|rewrite DK'; exact DK|unfold is_symbol; rewrite DW'; exact DW|exact G|exact Q].
    + eapply for_from_first; [exact EL|rewrite DK'; exact DK|unfold is_symbol; rewrite DW'; exact DW|exact G|exact N|exact E].
    + eapply for_from_form; [exact EL|rewrite DK'; exact DK|unfold is_symbol; rewrite DW'; exact DW|exact G|exact G'|exact Q].
Qed.

(** The indices from [i] on. *)
Fixpoint from_index (step i : N) (n : nat) : list N := match n with O => [] | S n' => i :: from_index step (i + step) n' end.
Lemma from_index_map step n : forall j, from_index step (N.of_nat j * step) n = map (fun j => (N.of_nat j * step)%N) (seq j n).
Proof. induction n as [|n IH]; intros j; cbn [from_index seq map]; [reflexivity|]. f_equal. replace (N.of_nat j * step + step) with (N.of_nat (S j) * step) by lia. apply IH. Qed.
Lemma from_index_all n step : 0 < step -> from_index step 0 (N.to_nat ((n + step - 1) / step)) = indices n step.
Proof. intros H. unfold indices. rewrite <- (from_index_map step _ 0). reflexivity. Qed.
Lemma ceil_done n i step : 0 < step -> n <= i -> (n - i + step - 1) / step = 0.
Proof. intros H L. apply N.div_small. lia. Qed.
Lemma ceil_next n i step : 0 < step -> i < n -> (n - i + step - 1) / step = 1 + (n - (i + step) + step - 1) / step.
Proof.
  intros H L. destruct (N.le_gt_cases (i + step) n) as [LE|GT].
  - replace (n - i + step - 1) with (1 * step + (n - (i + step) + step - 1)) by lia. rewrite N.div_add_l by lia. reflexivity.
  - replace (n - (i + step)) with 0 by lia. rewrite (N.div_small (0 + step - 1)) by lia. symmetry. apply (N.div_unique _ _ _ (n - i - 1)); lia.
Qed.
Lemma last_first {X} (t : list X) : forall y d, List.last (y :: t) d = List.last t y.
Proof. induction t as [|z t IH]; intros y d; [reflexivity|]. change (List.last (y :: z :: t) d) with (List.last (z :: t) d). now rewrite !IH. Qed.
Lemma rounds_turns (PM : vm -> Prop) (item : vm -> N -> ref -> vm -> Prop) (holds : N -> ref -> vm -> Prop) y d ext k body n step : 0 < step -> (forall m, data_at m y = Some d -> PM m) ->
  (forall m i x s, PM m -> data_at s y = Some d -> i < n -> item m i x s -> holds i x s) ->
  forall m i c evs r od, rounds item ext k body n step m i c evs r od -> PM m -> unchanged y d evs ->
  turns holds ext k body (from_index step i (N.to_nat ((n - i + step - 1) / step))) c evs r od.
Proof.
  intros SP HP HI m i c evs r od H. induction H as [m i c r LE|m i c x s s' evs evs' r od LT IT KE BR RR IH|m i c x s s' evs r od LT IT KE BR]; intros DM U.
  - rewrite (ceil_done n i step SP LE). constructor.
  - rewrite (ceil_next n i step SP LT). replace (N.to_nat (1 + _)) with (S (N.to_nat ((n - (i + step) + step - 1) / step))) by lia. cbn [from_index]. apply turns_next.
    + eapply HI; [exact DM| |exact LT|exact IT]. exact (proj1 (U _ (or_introl eq_refl))).
    + exact BR.
    + apply IH.
      * assert (LA : forall es s0, data_at s0 y = Some d -> unchanged y d es -> data_at (last_after s0 es) y = Some d).
        { clear. induction es as [|e es IH]; intros s0 D U; [exact D|]. assert (EL : last_after s0 (e :: es) = last_after (after e) es) by (unfold last_after; cbn [map]; now rewrite last_first). rewrite EL. apply IH; [exact (proj2 (U e (or_introl eq_refl)))|]. intros e' J. apply U. now right. }
        apply HP, LA; [exact (proj2 (U _ (or_introl eq_refl)))|]. intros e J. apply U. right. apply in_or_app. now left.
      * intros e J. apply U. right. apply in_or_app. now right.
  - rewrite (ceil_next n i step SP LT). replace (N.to_nat (1 + _)) with (S (N.to_nat ((n - (i + step) + step - 1) / step))) by lia. cbn [from_index]. apply turns_stop; [|exact BR].
    eapply HI; [exact DM| |exact LT|exact IT]. exact (proj1 (U _ (or_introl eq_refl))).
Qed.
Lemma rounds_any (item : vm -> N -> ref -> vm -> Prop) ext k body n step : 0 < step ->
  forall m i c evs r od, rounds item ext k body n step m i c evs r od ->
  turns (fun _ _ _ => True) ext k body (from_index step i (N.to_nat ((n - i + step - 1) / step))) c evs r od.
Proof.
  intros SP m i c evs r od H. induction H as [m i c r LE|m i c x s s' evs evs' r od LT IT KE BR RR IH|m i c x s s' evs r od LT IT KE BR].
  - rewrite (ceil_done n i step SP LE). constructor.
  - rewrite (ceil_next n i step SP LT). replace (N.to_nat (1 + _)) with (S (N.to_nat ((n - (i + step) + step - 1) / step))) by lia. cbn [from_index]. apply turns_next; [exact I|exact BR|exact IH].
  - rewrite (ceil_next n i step SP LT). replace (N.to_nat (1 + _)) with (S (N.to_nat ((n - (i + step) + step - 1) / step))) by lia. cbn [from_index]. apply turns_stop; [exact I|exact BR].
Qed.
Lemma step_positive s l step body : step_is s l step body -> 0 < step.
Proof. intros H. destruct H; lia. Qed.

(** ** C55: counting loops *)

(** In (for k from x to y ...) with the value [z] of [x] and [z'] of [y], the
    iterator takes the values [z], [z] + [step], ..., up to [z'] (or down), if the
    value [p] of [x] is not changed meanwhile. *)
Definition counted (z z' : Z) (i : N) (x : ref) (s : vm) : Prop :=
  data_at s x = Some (DInt (if (z <=? z')%Z then z + Z.of_N i else z - Z.of_N i)).
Theorem C55_counting_partial : forall fuel env form s op f s2 r s' x0 k w x y1 y rest t,
  calls_special fuel SpFor env form s op f s2 (Some r) s' -> data_at s2 form = Some (DVec (x0 :: k :: w :: x :: y1 :: y :: rest)) ->
  data_at s2 k = Some (DSym t) -> is_symbol s2 w "from" ->
  (exists d, data_at s' r = Some d /\ is_err d) \/
  exists sx p sp sy q sq z z' step body ext m evs od,
    Eval.eval fuel x env sx = Ret (Some p, sp) /\ Eval.eval fuel y env sy = Ret (Some q, sq) /\
    data_at sq p = Some (DInt z) /\ data_at sq q = Some (DInt z') /\ step_is sq rest step body /\ new_env sq ext env m /\
    trace (Eval.eval fuel) (env :: form :: stack s) sq evs s' /\ result_is s' r od /\
    turns (fun _ _ _ => True) ext k body (indices (Z.abs_N (z' - z) + 1) step) 0 evs r od /\
    (in_int32 z = true -> in_int32 z' = true -> unchanged p (DInt z) evs ->
     turns (counted z z') ext k body (indices (Z.abs_N (z' - z) + 1) step) 0 evs r od).
Proof.
  intros fuel env form s op f s2 r s' x0 k w x y1 y rest t C DF DK DW. destruct (for_forms _ _ _ _ _ _ _ _ _ C) as (r' & l & evs & od & [= <-] & DL & T & FR & RI).
  rewrite DF in DL. injection DL as <-. cbn [tl] in FR.
  assert (ERR : forall d, od = Some d -> is_err d -> exists d, data_at s' r = Some d /\ is_err d).
  { intros d -> ED. destruct RI as (d' & D' & TD). exists d'. split; [exact D'|]. destruct TD as [->|(_ & X)]; assumption. }
  inversion T as [|? ? ? ? _ _ T1]; subst. cbn [after] in T1. clear T.
  inversion FR as [? ? ? ? ? ? ? ED|? ? ? _ RUN]; subst; [left; eauto|]. clear FR. unfold is_symbol in *.
  inversion RUN as [? ? A E|? ? ? ? ? EL D N E|? ? ? ? ? ? ? EL D1 D2 N E|? ? ? ? ? ? ? ? ? ? ? EL D1 D2 G Q|? ? ? ? ? ? ? ? ? ? EL D1 D2 G N E|k' t' w' x' y1' y' l' e p z0 e' q d' evs' r0 od' EL D1 D2 G G' Q]; subst; try (left; eauto; fail); injection EL as; subst.
  { unfold is_symbol in *. rewrite DW in D2. discriminate. }
  destruct G as (sx & sp & -> & DP). destruct G' as (sy & sq & -> & DQ). cbn [after] in *.
  inversion T1 as [|? ? ? ? _ HX T2]; subst. cbn [after happens] in *. inversion T2 as [|? ? ? ? _ HY T3]; subst. cbn [after happens] in *. clear T1 T2.
  inversion Q as [? ? ? ? ? ? ? E|? ? ? E|z z' step body ext m evs r0 od0 DZ DZ' ST NE DM RR]; subst; [left; eauto..|]. right.
  exists sx, p, sp, sy, q, sq, z, z', step, body, ext, m, evs', od. repeat (split; [assumption|]).
  pose proof (step_positive _ _ _ _ ST) as SP. rewrite <- (from_index_all _ _ SP). split.
  { replace (Z.abs_N (z' - z) + 1 + step - 1) with (Z.abs_N (z' - z) + 1 - 0 + step - 1) by lia. exact (rounds_any _ _ _ _ _ _ SP _ _ _ _ _ _ RR). }
  intros IZ IZ' U. replace (Z.abs_N (z' - z) + 1 + step - 1) with (Z.abs_N (z' - z) + 1 - 0 + step - 1) by lia.
  eapply (rounds_turns (fun m => data_at m p = Some (DInt z)) (count_item p (z <=? z')%Z) (counted z z') p (DInt z)); [exact SP|auto| |exact RR|exact DM|exact U].
  intros m0 i x0' s0 D0 _ LT (_ & IT). unfold counted. rewrite (IT _ D0). f_equal. f_equal. apply wrap32_id.
  unfold in_int32 in *. apply andb_true_iff in IZ as (I1 & I2), IZ' as (I3 & I4). apply Z.leb_le in I1, I2, I3, I4. apply andb_true_iff. rewrite !Z.leb_le. destruct (Z.leb_spec z z'); lia.
Qed.
Print Assumptions C55_counting_partial.
(** The number of turns of a loop that no error or return ends; when counting, one
    more than the quotient of the distance and the step. *)
Inductive cut_short (ext : ref) (body : list ref) (r : ref) (od : option data) : list event -> Prop :=
| cut_here evs0 evs : body_run ext body evs (Some (r, od)) -> cut_short ext body r od (evs0 ++ evs).
Lemma turns_result holds ext k body is c evs r od : turns holds ext k body is c evs r od ->
  od = Some (DInt (c + Z.of_nat (List.length is))) \/ cut_short ext body r od evs.
Proof.
  intros H. induction H as [c r|i is c x s s' evs evs' r od HO BR RR IH|i is c x s s' evs r od HO BR].
  - left. f_equal. f_equal. cbn. lia.
  - destruct IH as [->|CS]; [left|right].
    + f_equal. f_equal. cbn [List.length]. lia.
    + destruct CS as [e0 e1 B]. rewrite app_assoc, app_comm_cons. now constructor.
  - right. change (Bind ext k x s s' :: evs) with ([Bind ext k x s s'] ++ evs). now constructor.
Qed.
Lemma indices_length n step : List.length (indices n step) = N.to_nat ((n + step - 1) / step).
Proof. unfold indices. now rewrite map_length, seq_length. Qed.
Theorem C55_number_of_turns : forall holds ext k body z z' step evs r od, 0 < step ->
  turns holds ext k body (indices (Z.abs_N (z' - z) + 1) step) 0 evs r od ->
  od = Some (DInt (Z.abs (z' - z) / Z.of_N step + 1)) \/ cut_short ext body r od evs.
Proof.
  intros holds ext k body z z' step evs r od SP H. apply turns_result in H. rewrite indices_length in H. destruct H as [->|H]; [left|now right]. f_equal. f_equal.
  replace (Z.abs_N (z' - z) + 1 + step - 1) with (1 * step + Z.abs_N (z' - z)) by lia. rewrite N.div_add_l by lia.
  rewrite Z.add_0_l, N_nat_Z, N2Z.inj_add, N2Z.inj_div, N2Z.inj_abs_N. lia.
Qed.
Print Assumptions C55_number_of_turns.
Example C55_witness : form_calls 50 SpFor (Some (DInt 3)).
Proof. apply (text_case _ "(define n as {D+7} [n])" "(for i from n to {D+3} step {D+2} (++ i))"). vm_compute. reflexivity. Qed.
Example C55_one_turn : form_calls 50 SpFor (Some (DInt 1)).
Proof. apply (text_case _ "(define n as {D+7} [n])" "(for i from n to n (++ i))"). vm_compute. reflexivity. Qed.
(** A body that changes the first number changes the following ones. *)
Theorem C55_changed_start_refuted :
  match run_text machine "(define a as {D+1} [a]) (define m as {D+0} [m]) (for i from a to {D+3} (= m i) (++ a))" with
  | Ret (_, s) => contents (run_text s "m") = Ret (Some (DInt 5))
  | _ => False
  end.
Proof. vm_compute. reflexivity. Qed.
Print Assumptions C55_changed_start_refuted.

(** ** C72: loops over collections *)

(** In (for k in x ...) the iterator takes the items of the collection that [x]
    evaluates to, in their order, if the collection is not changed meanwhile.  The
    number of turns is fixed at the start. *)
Theorem C72_for_in_partial : forall fuel env form s op f s2 r s' x0 k w x rest t,
  calls_special fuel SpFor env form s op f s2 (Some r) s' -> data_at s2 form = Some (DVec (x0 :: k :: w :: x :: rest)) ->
  data_at s2 k = Some (DSym t) -> is_symbol s2 w "in" ->
  (exists d, data_at s' r = Some d /\ is_err d) \/
  exists sx c sc d n step body ext m evs od,
    Eval.eval fuel x env sx = Ret (Some c, sc) /\ data_at sc c = Some d /\ size_of d n /\ step_is sc rest step body /\ new_env sc ext env m /\
    trace (Eval.eval fuel) (env :: form :: stack s) sc evs s' /\ result_is s' r od /\
    turns (fun _ _ _ => True) ext k body (indices n step) 0 evs r od /\
    (unchanged c d evs -> turns (nth_item d) ext k body (indices n step) 0 evs r od).
Proof.
  intros fuel env form s op f s2 r s' x0 k w x rest t C DF DK DW. destruct (for_forms _ _ _ _ _ _ _ _ _ C) as (r' & l & evs & od & [= <-] & DL & T & FR & RI).
  rewrite DF in DL. injection DL as <-. cbn [tl] in FR.
  assert (ERR : forall d, od = Some d -> is_err d -> exists d, data_at s' r = Some d /\ is_err d).
  { intros d -> ED. destruct RI as (d' & D' & TD). exists d'. split; [exact D'|]. destruct TD as [->|(_ & X)]; assumption. }
  inversion T as [|? ? ? ? _ _ T1]; subst. cbn [after] in T1. clear T.
  inversion FR as [? ? ? ? ? ? ? ED|? ? ? _ RUN]; subst; [left; eauto|]. clear FR. unfold is_symbol in *.
  inversion RUN as [? ? A E|? ? ? ? ? EL D N E|? ? ? ? ? ? ? EL D1 D2 N E|k' t' w' x' l' e c d evs' r0 od' EL D1 D2 G Q|? ? ? ? ? ? ? ? ? ? EL D1 D2 G N E|? ? ? ? ? ? ? ? ? ? ? ? ? ? ? ? EL D1 D2 G G' Q]; subst; try (left; eauto; fail); injection EL as; subst.
  2:{ unfold is_symbol in *. rewrite DW in D2. discriminate. }
  destruct G as (sx & sc & -> & DC). cbn [after] in *.
  inversion T1 as [|? ? ? ? _ HX T2]; subst. cbn [after happens] in *. clear T1.
  inversion Q as [? ? ? ? E|? ? ? ? ? E|n step body ext m evs r0 od0 SZ ST NE RR]; subst; [left; eauto..|]. right.
  exists sx, c, sc, d, n, step, body, ext, m, evs', od. repeat (split; [assumption|]).
  pose proof (step_positive _ _ _ _ ST) as SP. rewrite <- (from_index_all _ _ SP). replace (n + step - 1) with (n - 0 + step - 1) by lia. split.
  { exact (rounds_any _ _ _ _ _ _ SP _ _ _ _ _ _ RR). }
  intros U.
  eapply (rounds_turns (fun _ => True) (item_of c) (nth_item d) c d); [exact SP|auto| |exact RR|exact I|exact U].
  intros m0 i x0' s0 _ DC' LT IT. destruct IT as [d1 l1 D K N|t1 ch D N _ DX|h e v D N V _ DX]; rewrite DC' in D; injection D as ->.
  - destruct K as [->|[->|(q & ->)]]; constructor; exact N.
  - econstructor; eauto.
  - econstructor; eauto.
Qed.
Print Assumptions C72_for_in_partial.
Theorem C72_number_of_turns : forall holds ext k body n step evs r od, 0 < step ->
  turns holds ext k body (indices n step) 0 evs r od ->
  od = Some (DInt (Z.of_N ((n + step - 1) / step))) \/ cut_short ext body r od evs.
Proof.
  intros holds ext k body n step evs r od SP H. apply turns_result in H. rewrite indices_length in H. destruct H as [->|H]; [left|now right]. f_equal. f_equal. lia.
Qed.
Print Assumptions C72_number_of_turns.
Example C72_witness : form_calls 50 SpFor (Some (DInt 2)).
Proof. apply (text_case _ "(define v as '({D+5} |a| [b]) [v])" "(for i in v step {D+2} i)"). vm_compute. reflexivity. Qed.
