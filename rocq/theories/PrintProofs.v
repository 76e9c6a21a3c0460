(** Printed values are as SpecPrint.v says. *)
From Coq Require Import String List NArith ZArith Bool Lia Arith.
From Coq Require Import Floats.SpecFloat.
From Verif Require Import Base SpecText OString Semver HMap Heap ValueOps Env RealText ToText SpecValue SpecDefine SpecReal SpecPrint RealProofs PrinterProofs DefineProofs HMapProofs.
From Verif Require Printer.
Import ListNotations.
Local Open Scope list_scope.
Local Open Scope N_scope.

Lemma nth_firstn {X} (l es : list X) k : Forall2 (fun i e => nth_error l i = Some e) (seq 0 k) es -> es = firstn k l.
Proof.
  revert l es. induction k as [|k IH]; intros l es F; cbn [seq] in F; inversion F as [|i e is es' HE FE]; subst; [reflexivity|]. destruct l as [|q l]; [discriminate|]. injection HE as ->. cbn [firstn]. f_equal. apply IH.
  rewrite <- seq_shift in FE. clear - FE. revert es' FE. induction (seq 0 k) as [|i is IH]; intros es' FE; inversion FE; subst; constructor; auto.
Qed.
Lemma index_nth (m : hmap ref ref) i e : map_get_at_index m (Z.of_nat i) = Some e -> nth_error (List.concat (buckets m)) i = Some e.
Proof. unfold map_get_at_index. destruct (Z.ltb_spec (Z.of_nat i) 0); [lia|]. rewrite at_index_ok by lia. rewrite Nat.sub_0_r. now replace (Z.to_nat (Z.of_nat i)) with i by lia. Qed.

(** Only one text is the numeral of a number. *)
Lemma numeral_unique_len n u v : numeral n u -> numeral n v -> (List.length u <= List.length v)%nat -> u = v.
Proof.
  intros (NU & FU & WU & ZU) (NV & FV & WV & ZV). revert n v NU FU WU ZU NV FV WV ZV.
  induction u as [|c u IH] using rev_ind; intros n v NU FU WU ZU NV FV WV ZV LE; [congruence|].
  destruct (@exists_last _ v NV) as (v' & c' & ->). apply Forall_app in FU as (FU & FC). apply Forall_app in FV as (FV & FC'). inversion FC as [|? ? D _]; subst. inversion FC' as [|? ? D' _]; subst.
  unfold digits_worth in WV. rewrite !worth_app in WV. cbn [fold_left] in WV. fold (digits_worth u) in WV. fold (digits_worth v') in WV. unfold digit in D, D'. assert (c' = c) by lia. subst c'. assert (WW : digits_worth v' = digits_worth u) by lia. f_equal.
  assert (PZ : forall w, Forall digit w -> digits_worth w = 0 -> (forall x, w ++ [c] = 48 :: x -> x = []) -> w = []).
  { intros w FW W0 ZW. destruct w as [|d w]; [reflexivity|]. exfalso. inversion FW as [|? ? DD FW']; subst. destruct (N.eq_dec d 48) as [->|ND].
    - specialize (ZW (w ++ [c]) eq_refl). destruct w; discriminate.
    - assert (GE : forall l a, a > 0 -> fold_left (fun v c => 10 * v + (c - 48)) l a > 0) by (clear; induction l as [|x l IHl]; intros a G; cbn [fold_left]; [exact G|apply IHl; lia]).
      unfold digits_worth in W0. cbn [fold_left] in W0. specialize (GE w (10 * 0 + (d - 48))). unfold digit in DD. rewrite W0 in GE. specialize (GE ltac:(lia)). lia. }
  destruct (N.eq_dec (digits_worth u) 0) as [H0|H0].
  - rewrite (PZ u FU H0 ZU), (PZ v' FV (eq_trans WW H0) ZV). reflexivity.
  - rewrite !app_length in LE. cbn [List.length] in LE. apply (IH (digits_worth u)); auto; try lia.
    + intros ->. now apply H0.
    + intros w ->. specialize (ZU (w ++ [c]) eq_refl). destruct w; discriminate.
    + intros ->. apply H0. rewrite <- WW. reflexivity.
    + intros w ->. specialize (ZV (w ++ [c]) eq_refl). destruct w; discriminate.
Qed.
Lemma numeral_unique n u v : numeral n u -> numeral n v -> u = v.
Proof. intros U V. destruct (Nat.le_ge_cases (List.length u) (List.length v)); [eapply numeral_unique_len; eauto|symmetry; eapply numeral_unique_len; eauto]. Qed.

Lemma print_int_text z : int_text z (Printer.print_int z).
Proof. unfold Printer.print_int. destruct (Z.leb_spec 0 z); [apply int_plus|apply int_minus]; auto using decimal_numeral. Qed.
Lemma print_char_text t : char_text t (Printer.print_char t).
Proof.
  unfold Printer.print_char. destruct t as [|c [|d t]]; try (apply char_plain; discriminate).
  destruct (N.eqb_spec c 124); [subst; now apply char_bar|]. destruct (N.eqb_spec c 10); [subst; now apply char_newline|]. destruct (N.eqb_spec c 9); [subst; now apply char_tab|].
  apply (char_plain [c]); congruence.
Qed.
Lemma join_separated l : Printer.join l = separated (asc " ") l.
Proof. induction l as [|a [|b l] IH]; [reflexivity|cbn; now rewrite app_nil_r|]. cbn [Printer.join]. cbn [Printer.join] in IH. rewrite IH. reflexivity. Qed.
Lemma join_lines_separated l : join_lines l = separated line_break l.
Proof. induction l as [|a [|b l] IH]; [reflexivity|cbn; now rewrite app_nil_r|]. cbn [join_lines]. cbn [join_lines] in IH. rewrite IH. reflexivity. Qed.
Lemma join_dots_separated l : join_dots l = separated (asc ".") l.
Proof. induction l as [|a [|b l] IH]; [reflexivity|cbn; now rewrite app_nil_r|]. cbn [join_dots]. cbn [join_dots] in IH. rewrite IH. reflexivity. Qed.
Lemma semver_version v : version_text v (semver_text v).
Proof.
  unfold semver_text.
  assert (EQ : Printer.print_semver (major v) (minor v) (patch v) = separated (asc ".") [Printer.decimal (major v); Printer.decimal (minor v); Printer.decimal (patch v)]).
  { unfold Printer.print_semver. cbn [separated List.map List.concat]. now rewrite app_nil_r, <- app_assoc. }
  rewrite EQ.
  replace (match pre v with [] => [] | p => 45 :: join_dots (List.map ident_text p) end) with (match List.map ident_text (pre v) with [] => [] | _ => asc "-" ++ separated (asc ".") (List.map ident_text (pre v)) end) by (destruct (pre v); [reflexivity|]; cbn [List.map]; now rewrite <- join_dots_separated).
  replace (match build v with [] => [] | b => 43 :: join_dots b end) with (match build v with [] => [] | q => asc "+" ++ separated (asc ".") q end) by (destruct (build v); [reflexivity|]; now rewrite <- join_dots_separated).
  apply version_shown; try apply decimal_numeral. induction (pre v) as [|[n|t] l IH]; cbn [List.map]; constructor; auto; [|constructor]. constructor. apply decimal_numeral.
Qed.
Lemma omap_all {X Y} (f : X -> outcome Y) (R : X -> Y -> Prop) : (forall x y, f x = Ret y -> R x y) -> forall l ys, omap f l = Ret ys -> Forall2 R l ys.
Proof.
  intros H. induction l as [|x l IH]; intros ys E; cbn [omap] in E; [injection E as <-; constructor|]. destruct (f x) as [y| | | | |] eqn:EX; try discriminate. cbn [obind] in E.
  destruct (omap f l) as [t| | | | |] eqn:EL; try discriminate. cbn [obind] in E. injection E as <-. constructor; auto.
Qed.
Lemma signed_decimal_text z : signed_text z (signed_decimal z).
Proof. unfold signed_decimal. destruct (Z.leb_spec 0 z); [apply signed_plus|apply signed_minus]; auto using decimal_numeral. Qed.
Lemma nonnegative_leb f : f <> S754_nan -> SFleb (S754_zero false) f = nonnegative f.
Proof. destruct f as [s|s| |s m e]; try destruct s; try reflexivity. Qed.
Theorem to_text_shown rd : forall f p h r u, to_text rd p f h r = Ret u -> shown rd p h r u.
Proof.
  induction f as [|f IH]; intros p h r u E; cbn [to_text] in E; [discriminate|]. destruct (lookup h r) as [c|] eqn:L; [|discriminate].
  destruct (cdata c) as [ |db|dz|df|dt|dt|dt|dmsg dline|l|m|l max|l|db denc|df|df|dp|dp|dv] eqn:D; try discriminate.
  - injection E as <-. eapply show_nil; eauto.
  - injection E as <-. destruct db; [eapply show_true|eapply show_false]; eauto.
  - injection E as <-. eapply show_int; [eauto|eauto|]. destruct rd; [apply print_int_text|apply signed_decimal_text].
  - unfold print_real in E. destruct (g_text df) as [t| | | | |] eqn:EG; try discriminate. cbn [obind] in E. injection E as <-.
    assert (EQ : (if rd then (if SFleb (S754_zero false) df then asc "{D+" else asc "{D") ++ t ++ [125] else t) = (if rd then braced_real df t else t)).
    { destruct rd; [|reflexivity]. rewrite nonnegative_leb by (intros ->; discriminate). unfold braced_real. now destruct (nonnegative df). }
    rewrite EQ. eapply show_real; eauto using g_text_spec.
  - destruct (c_string_copy dt) as [t| | | | |] eqn:EC; try discriminate. cbn [obind] in E. injection E as <-. eapply (show_str rd p h r c dt t); eauto using c_string_through.
  - destruct (c_string_copy dt) as [t| | | | |] eqn:EC; try discriminate. cbn [obind] in E. injection E as <-. eapply show_char; eauto using c_string_through. destruct (p || negb rd)%bool; [reflexivity|apply print_char_text].
  - eapply show_sym; eauto using c_string_through.
  - destruct (c_string_copy dmsg) as [t| | | | |] eqn:EC; try discriminate. cbn [obind] in E. injection E as <-. eapply show_err; eauto using c_string_through.
  - destruct (omap (to_text rd false f h) l) as [ts| | | | |] eqn:EO; try discriminate. cbn [obind] in E. injection E as <-. rewrite join_separated. eapply (show_vec rd p h r c l ts); eauto. eapply omap_all; eauto.
  - destruct (omap _ (seq 0 (numElements m))) as [ts| | | | |] eqn:EO in E; try discriminate. cbn [obind] in E. injection E as <-. rewrite join_lines_separated. eapply (show_map rd p h r c m ts); eauto.
    assert (F : Forall2 (fun i t => exists e, nth_error (List.concat (buckets m)) i = Some e /\ shown_entry rd h e t) (seq 0 (numElements m)) ts).
    { eapply omap_all; [|exact EO]. intros i t ET. cbv beta in ET. destruct (map_get_at_index m (Z.of_nat i)) as [e|] eqn:EM; [|discriminate]. exists e. split; [now apply index_nth|].
      destruct (to_text rd false f h (ekey e)) as [k| | | | |] eqn:EK; try discriminate. cbn [obind] in ET. unfold single in ET. destruct (evals e) as [|v [|v' vs]] eqn:EV; try discriminate. cbn [obind] in ET.
      destruct (to_text rd false f h v) as [t'| | | | |] eqn:E'; try discriminate. cbn [obind] in ET. injection ET as <-. eapply (show_entry rd h e v k t'); eauto. }
    clear EO. assert (X : exists es, Forall2 (fun i e => nth_error (List.concat (buckets m)) i = Some e) (seq 0 (numElements m)) es /\ Forall2 (shown_entry rd h) es ts).
    { induction F as [|i t is ts (e & H1 & H2) F (es & F1 & F2)]; [exists []; split; constructor|]. exists (e :: es). split; constructor; auto. }
    destruct X as (es & F1 & F2). apply nth_firstn in F1. now subst es.
  - destruct (omap (to_text rd false f h) l) as [ts| | | | |] eqn:EO; try discriminate. cbn [obind] in E. injection E as <-. rewrite join_separated. eapply (show_queue rd p h r c l max ts); eauto. eapply omap_all; eauto.
  - destruct (omap (to_text rd false f h) l) as [ts| | | | |] eqn:EO; try discriminate. cbn [obind] in E. injection E as <-. rewrite join_separated. eapply (show_list rd p h r c l ts); eauto. eapply omap_all; eauto.
  - eapply show_fun; eauto using c_string_through.
  - destruct (c_string_copy (fname df)) as [t| | | | |] eqn:EC; try discriminate. cbn [obind] in E. injection E as <-. eapply show_mac; eauto using c_string_through.
  - injection E as <-. eapply show_semver; eauto using semver_version.
Qed.
