(** +, -, * and / do what SpecPlus.v says. *)
From Coq Require Import NArith ZArith Bool Lia Arith List String Permutation.
From Coq Require Import Floats.SpecFloat.
From Coq Require Import ZifyBool ZifyNat ZifyN.
From Verif Require Import Base ListLemmas Vec OString HMap HMapProofs Heap SpecHeap GcProofs VmProofs ValueOps Env Copy Builtins Specials Eval Boot Semver SpecSemver SafeBase SafeRead SafeLib SafeBuiltins SafeSpecials SafeEval SpecTrace SpecSpecial SpecForm SpecCall SpecDefine SpecEval SpecCopy SpecBuiltin SpecWrite SpecMinus SpecPlus SpecSeq SpecVec VecProofs TraceProofs SpecialProofs SpecialEval CallProofs CopyProofs DefineProofs BuiltinProofs SemverChange WriteProofs MinusProofs.
Import ListNotations.
Local Open Scope N_scope.
Local Open Scope list_scope.

Lemma of_int_eq z : sf_of_Z z = of_int z. Proof. destruct z; reflexivity. Qed.
Lemma as_double_real d : as_double d = real_of d.
Proof. destruct d; try reflexivity. cbn [as_double real_of]. now rewrite of_int_eq. Qed.

Section Numbers.
Context (a : ref) (s : vm) (c : cell) (xs : list ref) (A : Inv [a] s) (L : lookup (all s) a = Some c) (E : cdata c = DVec xs).
Let H : At true [a] s [] (fun _ => False) s := args_start a s A.
Lemma no_number_err x d r s' : data_at s x = Some d -> real_of d = None -> is_err d -> r = x -> no_number s s' x r.
Proof using. intros D N I ->. exists d. repeat split; auto. intros K. now elim K. Qed.
Lemma no_number_other x d r s' : data_at s x = Some d -> real_of d = None -> ~ is_err d -> complains s s' r -> no_number s s' x r.
Proof using. intros D N I C. exists d. repeat split; auto. intros K. now elim I. Qed.
Lemma stops_here s' r x t : no_number s s' x r -> stops s s' r (x :: t).
Proof using. intros N. exists [], x, t, []. repeat split; auto. constructor. Qed.
Lemma stops_next s' r x t d f : data_at s x = Some d -> real_of d = Some f -> stops s s' r t -> stops s s' r (x :: t).
Proof using. intros D R (l & y & u & fs & -> & F & N). exists (x :: l), y, u, (f :: fs). repeat split; auto. constructor; eauto. Qed.
Lemma integers_numbers l zs : integers s l zs -> numbers s l (map of_int zs).
Proof using. induction 1; cbn [map]; constructor; eauto. Qed.
Definition zop (o : arith) := z_arith o.
Definition arith_done (o : arith) (ints : bool) (zi : Z) (fr : spec_float) (l : list ref) (r : ref) (s' : vm) : Prop :=
  (exists zs, integers s l zs /\ makes s s' r (if ints then DInt (fold_left (z_arith o) zs zi) else DReal (fold_left (f_arith o) (map of_int zs) fr))) \/
  (exists fs, numbers s l fs /\ (forall zs, ~ integers s l zs) /\ makes s s' r (DReal (fold_left (f_arith o) fs fr))) \/
  stops s s' r l.
Lemma arith_each_spec o : forall l ints zi fr, incl l xs -> wp (arith_each o l ints zi fr) (arith_done o ints zi fr l) s.
Proof.
  induction l as [|x t IH]; intros ints zi fr IL; cbn [arith_each].
  - eapply q_alloc; [exact H|destruct ints; easy|]. intros r s' _ _ M _ _. left. exists []. split; [constructor|]. exact M.
  - assert (IT : incl t xs) by (intros y J; apply IL; now right). apply wp_bind. eapply args_get; [exact A|exact L|exact E|exact H|apply IL; now left|]. intros d D.
    assert (ERR : real_of d = None -> ~ is_err d -> wp new_error (arith_done o ints zi fr (x :: t)) s).
    { intros N I. eapply q_error; [exact H|]. intros r s' _ C. right. right. apply stops_here. eapply no_number_other; eauto. }
    destruct d; try (apply ERR; [reflexivity|intros []]).
    + apply wp_bind, wp_lift; [discriminate|]. intros z' EZ. assert (z' = z_arith o zi z) by (unfold int32_op in EZ; match type of EZ with (if ?b then _ else _) = _ => destruct b end; congruence). subst z'.
      rewrite of_int_eq. eapply wp_mono; [apply IH; exact IT|]. intros r s' [(zs & I & M)|[(fs & I & NI & M)|S]].
      * left. exists (z :: zs). split; [constructor; assumption|]. exact M.
      * right. left. exists (of_int z :: fs). split; [constructor; [eexists; split; [exact D|reflexivity]|exact I]|]. split; [|exact M].
        intros zs K. inversion K; subst. eapply NI; eauto.
      * right. right. eapply stops_next; [exact D|reflexivity|exact S].
    + apply wp_bind, wp_lift; [discriminate|]. intros i _. apply wp_bind, wp_lift; [discriminate|]. intros z' _.
      assert (NI : forall zs, ~ integers s (x :: t) zs) by (intros zs K; inversion K; congruence).
      eapply wp_mono; [apply IH; exact IT|]. intros r s' [(zs & I & M)|[(fs & I & NI' & M)|S]].
      * right. left. eexists (_ :: map of_int zs). split; [constructor; [eexists; split; [exact D|reflexivity]|now apply integers_numbers]|]. split; [exact NI|exact M].
      * right. left. eexists (_ :: fs). split; [constructor; [eexists; split; [exact D|reflexivity]|exact I]|]. split; [exact NI|exact M].
      * right. right. eapply stops_next; [exact D|reflexivity|exact S].
    + apply wp_ret. right. right. apply stops_here. eapply no_number_err; eauto. exact I.
Qed.
Lemma folded_done o zi fr l r s' : arith_done o true zi fr l r s' -> folded (z_arith o) (f_arith o) zi fr s l s' r.
Proof using. intros K. exact K. Qed.
Lemma div_each_spec : forall l f, incl l xs -> wp (div_each l f) (fun r s' => divided s s' r f l) s.
Proof.
  induction l as [|x t IH]; intros f IL; cbn [div_each].
  - eapply q_alloc; [exact H|easy|]. intros r s' _ _ M _ _. left. exists f. split; [constructor|exact M].
  - assert (IT : incl t xs) by (intros y J; apply IL; now right). apply wp_bind. eapply args_get; [exact A|exact L|exact E|exact H|apply IL; now left|]. intros d D.
    rewrite as_double_real. destruct (real_of d) as [g|] eqn:R.
    + destruct g as [b|b| |b m e] eqn:EG; cbn [is_zero].
      { eapply q_error; [exact H|]. intros r s' _ C. right. left. split; [eapply quot_zero; eauto|exact C]. }
      all: (eapply wp_mono; [apply IH; exact IT|]; intros r s' [(q & Q & M)|[(Q & C)|S]];
        [left; exists q; split; [eapply quot_next; [exact D|exact R|discriminate|exact Q]|exact M]
        |right; left; split; [eapply quot_next; [exact D|exact R|discriminate|exact Q]|exact C]
        |right; right; eapply stops_next; eauto]).
    + assert (K : (is_error_data d = true -> is_err d) /\ (is_error_data d = false -> ~ is_err d)) by (destruct d; cbn; split; intros; try discriminate; try exact I; intros []).
      destruct K as (K1 & K2). destruct (is_error_data d).
      * apply wp_ret. right. right. apply stops_here. eapply no_number_err; eauto.
      * eapply q_error; [exact H|]. intros r s' _ C. right. right. apply stops_here. eapply no_number_other; eauto.
Qed.
End Numbers.

Lemma times_reader : reader BiTimes times_result.
Proof.
  apply reader_intro; [easy|]. intros n m a env xs s c A IE L E. cbn [builtin_call]. unfold b_times. pose proof (args_start a s A) as H.
  apply wp_bind. eapply args_vec; [exact L|exact E|exact H|]. eapply wp_mono; [apply (arith_each_spec a s c xs A L E AMul xs); apply incl_refl|]. intros r s' K. exact (folded_done _ _ _ _ _ _ _ K).
Qed.
Lemma slash_reader : reader BiDiv slash_result.
Proof.
  apply reader_intro; [easy|]. intros n m a env xs s c A IE L E. cbn [builtin_call]. unfold b_div. pose proof (args_start a s A) as H.
  apply wp_bind. eapply args_vec; [exact L|exact E|exact H|]. unfold slash_result. destruct xs as [|x [|y t]].
  - eapply q_error; [exact H|auto].
  - eapply wp_mono; [apply (div_each_spec a s c [x] A L E); apply incl_refl|]. auto.
  - apply wp_bind. eapply args_get; [exact A|exact L|exact E|exact H|now left|]. intros d D. rewrite as_double_real. destruct (real_of d) as [f|] eqn:R.
    + eapply wp_mono; [apply (div_each_spec a s c _ A L E); intros z J; now right|]. intros r s' K. left. eauto.
    + assert (K : (is_error_data d = true -> is_err d) /\ (is_error_data d = false -> ~ is_err d)) by (destruct d; cbn; split; intros; try discriminate; try exact I; intros []).
      destruct K as (K1 & K2). destruct (is_error_data d).
      * apply wp_ret. right. eapply no_number_err; eauto.
      * eapply q_error; [exact H|]. intros r s' _ C. right. eapply no_number_other; eauto.
Qed.
Lemma mod_reader : reader BiMod mod_result.
Proof.
  apply reader_intro; [easy|]. intros n m a env xs s c A IE L E. cbn [builtin_call]. unfold b_mod. pose proof (args_start a s A) as H.
  apply wp_bind. eapply args_vec; [exact L|exact E|exact H|]. unfold mod_result.
  destruct xs as [|x [|y [|z t]]]; try (eapply q_error; [exact H|auto]).
  apply wp_bind. eapply args_get; [exact A|exact L|exact E|exact H|now left|]. intros d D.
  destruct d; try (eapply q_error; [exact H|]; intros r s' _ C; eexists; split; [exact D|]; exact C).
  - apply wp_bind. eapply args_get; [exact A|exact L|exact E|exact H|right; now left|]. intros e D'.
    destruct e; try (eapply q_error; [exact H|]; intros r s' _ C; eexists; split; [exact D|]; eexists; split; [exact D'|]; exact C).
    + match goal with |- context [(?q =? 0)%Z] => destruct (Z.eqb_spec q 0) as [->|NZ] end.
      * eapply q_error; [exact H|]. intros r s' _ C. eexists. split; [exact D|]. eexists. split; [exact D'|]. left. auto.
      * match goal with |- context [if ?b then _ else _] => destruct b end; [apply wp_undef|]. eapply q_alloc; [exact H|easy|]. intros r s' _ _ M _ _.
        eexists. split; [exact D|]. eexists. split; [exact D'|]. right. auto.
    + apply wp_ret. eexists. split; [exact D|]. eexists. split; [exact D'|]. reflexivity.
  - apply wp_ret. eexists. split; [exact D|]. reflexivity.
Qed.

(** ** A new value that is changed before it is given away *)
Section New.
Context (a : ref) (s : vm) (c : cell) (xs : list ref) (A : Inv [a] s) (L : lookup (all s) a = Some c) (E : cdata c = DVec xs).
Lemma new_put r d G (Q : unit -> vm -> Prop) s1 : At true [a] s [r] G s1 -> mine true [a] s r -> (forall y, ~ dref d y) ->
  (forall s2, At true [a] s [r] G s2 -> data_at s2 r = Some d -> Q tt s2) -> wp (put r d) Q s1.
Proof using.
  intros H MR ND K. assert (W : wp (put r d) (fun _ s2 => At true [a] s [r] G s2) s1).
  { eapply (r_put true true [a] s r); [exact H|has|exact MR|intros y R; now apply ND in R|discriminate|discriminate|]. intros s2 H2 _ _. exact H2. }
  destruct (lookup (all s1) r) as [cr|] eqn:LR; [|unfold SafeBase.wp, put, bind, get_cell; rewrite LR; reflexivity].
  unfold SafeBase.wp in *. rewrite (put_eq s1 r cr d LR) in *. apply K; [exact W|]. unfold data_at. cbn [all with_all]. now rewrite lookup_update, N.eqb_refl, LR.
Qed.
Lemma append_texts_spec mk (sym : bool) r : mine true [a] s r -> (mk = DStr /\ sym = false \/ mk = DSym /\ sym = true) -> forall t w s1, incl t xs -> At true [a] s [r] (fun _ => False) s1 -> data_at s1 r = Some (mk w) ->
  wp (append_texts r t) (fun ok s2 => At true [a] s [r] (fun _ => False) s2 /\
    if (ok : bool) then exists us, Forall2 (has_text sym s) t us /\ data_at s2 r = Some (mk (w ++ List.concat us))
    else exists y, In y t /\ forall u, ~ has_text sym s y u) s1.
Proof.
  intros MR MK. induction t as [|y t IH]; intros w s1 IT H D; cbn [append_texts].
  - apply wp_ret. split; [exact H|]. exists []. split; [constructor|]. cbn [List.concat]. now rewrite app_nil_r.
  - assert (IT' : incl t xs) by (intros z J; apply IT; now right). apply wp_bind. eapply args_get; [exact A|exact L|exact E|exact H|apply IT; now left|]. intros d DY.
    apply wp_bind, t_get. intros e DE. rewrite D in DE. injection DE as <-.
    assert (YES : forall u, has_text sym s y u -> wp (put r (mk (w ++ u)) ;;; append_texts r t) (fun ok s2 => At true [a] s [r] (fun _ => False) s2 /\
      if (ok : bool) then exists us, Forall2 (has_text sym s) (y :: t) us /\ data_at s2 r = Some (mk (w ++ List.concat us))
      else exists y0, In y0 (y :: t) /\ forall u, ~ has_text sym s y0 u) s1).
    { intros u HU. apply wp_bind. eapply new_put; [exact H|exact MR|destruct MK as [(-> & _)|(-> & _)]; easy|]. intros s2 H2 D2. eapply wp_mono; [apply (IH _ _ IT' H2 D2)|].
      intros ok s3 (H3 & K). split; [exact H3|]. destruct ok.
      - destruct K as (us & F & D3). exists (u :: us). split; [now constructor|]. cbn [List.concat]. now rewrite app_assoc.
      - destruct K as (z & J & N). exists z. split; [now right|exact N]. }
    assert (NO : (forall u, ~ has_text sym s y u) -> wp (ret false) (fun ok s2 => At true [a] s [r] (fun _ => False) s2 /\
      if (ok : bool) then exists us, Forall2 (has_text sym s) (y :: t) us /\ data_at s2 r = Some (mk (w ++ List.concat us))
      else exists y0, In y0 (y :: t) /\ forall u, ~ has_text sym s y0 u) s1).
    { intros N. apply wp_ret. split; [exact H|]. exists y. split; [now left|exact N]. }
    destruct MK as [(-> & ->)|(-> & ->)]; destruct d; try (apply NO; unfold has_text; intros vv [T|[T|(T & T')]]; [rewrite T in DY; discriminate|rewrite T in DY; discriminate|try discriminate T; rewrite T' in DY; discriminate]); apply YES; unfold has_text; auto.
Qed.
Lemma texts_spec mk (sym : bool) u u' t : (mk = DStr /\ sym = false \/ mk = DSym /\ sym = true) -> incl t xs -> through_c u u' ->
  wp (r <- alloc (mk u') ;; push r ;;; ok <- append_texts r t ;; pop r ;;; if (ok : bool) then ret r else new_error) (fun r s' => texts_added mk sym u s t s' r) s.
Proof.
  intros MK IT TC. pose proof (args_start a s A) as H. apply wp_bind. eapply q_alloc; [exact H|destruct MK as [(-> & _)|(-> & _)]; easy|]. clear H. intros r s1 H _ M _ NP.
  apply wp_bind. eapply q_push_all; [exact H|has|]. clear H. intros s2 H E2. assert (MR : mine true [a] s r) by (destruct M as (M & _); split; auto).
  apply wp_bind. eapply wp_mono; [eapply (append_texts_spec mk sym r MR MK t u' s2 IT); [eapply at_weaken; [exact H|easy]|destruct M as (_ & M); rewrite <- M; apply data_same; congruence]|].
  clear H. intros ok s3 (H & K). apply wp_bind. eapply at_pop; [exact H|]. clear H. intros s4 H E4. destruct ok.
  - apply wp_ret. left. destruct K as (us & F & D3). exists u', us. split; [exact TC|]. split; [exact F|]. split; [apply M|]. rewrite <- D3. apply data_same. congruence.
  - eapply q_error; [exact H|]. intros w s5 _ C. right. split; [exact K|exact C].
Qed.
Lemma change_versions_spec add r : mine true [a] s r -> forall t v s1, incl t xs -> At true [a] s [r] (fun _ => False) s1 -> data_at s1 r = Some (DSemver v) ->
  wp (change_versions add r t) (fun ok s2 => At true [a] s [r] (fun _ => False) s2 /\
    if (ok : bool) then exists v', versions_run add s v t v' /\ data_at s2 r = Some (DSemver v')
    else exists y, In y t /\ forall w, data_at s y <> Some (DSemver w)) s1.
Proof.
  intros MR. induction t as [|y t IH]; intros v s1 IT H D; cbn [change_versions].
  - apply wp_ret. split; [exact H|]. exists v. split; [constructor|exact D].
  - assert (IT' : incl t xs) by (intros z J; apply IT; now right). apply wp_bind. eapply args_get; [exact A|exact L|exact E|exact H|apply IT; now left|]. intros d DY.
    apply wp_bind, t_get. intros e DE. rewrite D in DE. injection DE as <-.
    destruct d; try (apply wp_ret; split; [exact H|]; exists y; split; [now left|congruence]).
    match type of DY with _ = Some (DSemver ?q) => rename q into w end. pose proof (semver_changed add v w) as VC. destruct (semver_add_or_subtract v w add) as (v1 & ok1). cbn [fst snd] in *. apply wp_bind.
    eapply new_put; [exact H|exact MR|easy|]. intros s2 H2 D2. eapply wp_mono; [apply (IH _ _ IT' H2 D2)|].
    intros ok s3 (H3 & K). split; [exact H3|]. destruct ok.
    + destruct K as (v2 & V & D3). exists v2. split; [eapply vr_next; eauto|exact D3].
    + destruct K as (z & J & N). exists z. split; [now right|exact N].
Qed.
Lemma version_arith_spec add x t v : xs = x :: t -> data_at s x = Some (DSemver v) -> wp (version_arith add a) (fun r s' => versions_result add v s t s' r) s.
Proof.
  intros EX D. unfold version_arith. pose proof (args_start a s A) as H. apply wp_bind. eapply args_vec; [exact L|exact E|exact H|]. rewrite EX.
  apply wp_bind. eapply args_get; [exact A|exact L|exact E|exact H|rewrite EX; now left|]. intros d D'. rewrite D in D'. injection D' as <-.
  apply wp_bind. eapply q_alloc; [exact H|easy|]. clear H. intros r s1 H _ M _ NP.
  apply wp_bind. eapply q_push_all; [exact H|has|]. clear H. intros s2 H E2. assert (MR : mine true [a] s r) by (destruct M as (M & _); split; auto).
  assert (IT : incl t xs) by (rewrite EX; intros z J; now right).
  apply wp_bind. eapply wp_mono; [eapply (change_versions_spec add r MR t v s2 IT); [eapply at_weaken; [exact H|easy]|destruct M as (_ & M); rewrite <- M; apply data_same; congruence]|].
  clear H. intros ok s3 (H & K). apply wp_bind. eapply at_pop; [exact H|]. clear H. intros s4 H E4. destruct ok.
  - apply wp_ret. left. destruct K as (v' & F & D3). exists v'. split; [exact F|]. split; [apply M|]. rewrite <- D3. apply data_same. congruence.
  - eapply q_error; [exact H|]. intros w s5 _ C. right. split; [exact K|exact C].
Qed.
Lemma plus_text_spec x t : xs = x :: t -> forall d, data_at s x = Some d -> wp (plus_text a) (fun r s' => match d with
  | DStr u | DChar u => texts_added DStr false u s t s' r
  | DSym u => texts_added DSym true u s t s' r
  | _ => False end) s.
Proof.
  intros EX d D. unfold plus_text. pose proof (args_start a s A) as H. apply wp_bind. eapply args_vec; [exact L|exact E|exact H|]. rewrite EX.
  assert (IT : incl t xs) by (rewrite EX; intros z J; now right).
  apply wp_bind. eapply args_get; [exact A|exact L|exact E|exact H|rewrite EX; now left|]. intros d' D'. rewrite D in D'. injection D' as <-.
  destruct d; try (apply wp_bind, wp_abort); apply wp_bind, wp_bind, wp_lift; try discriminate; intros u' EU; apply c_string_through in EU; apply wp_ret.
  - apply (texts_spec DStr false); auto.
  - apply (texts_spec DStr false); auto.
  - apply (texts_spec DSym true); auto.
Qed.

(** ** Copies *)
Lemma plus_vector_spec n x t cx l : xs = x :: t -> lookup (all s) x = Some cx -> cdata cx = DVec l -> wp (plus_vector n a) (fun r s' => vectors_added cx l s x t s' r) s.
Proof.
  intros EX LX EV. unfold vectors_added.
  assert (W : (forall y, In y (x :: t) -> plain_maps (all s) y) -> wp (plus_vector n a) (fun r s' => exists c' l', all_new s s' r c' /\ cdata c' = DVec l' /\ copied_all (all s) (all s') (l ++ t) l' /\ copied_doc (all s) (all s') (cdoc cx) (cdoc c')) s).
  { intros PM. pose proof (args_start a s A) as H. unfold plus_vector. apply wp_bind. eapply args_vec; [exact L|exact E|exact H|]. rewrite EX.
    assert (RE : forall y, In y (x :: t) -> reach s y) by (rewrite <- EX; intros y J; eapply args_reach; eauto).
    apply wp_bind. eapply wp_mono; [apply (copy_spec n [a] s x A); [apply RE; now left|apply PM; now left]|]. intros r s1 (H1 & NR & C & FR & cr & LR & BR & _).
    assert (NP : ~ In r [a]) by (intros [<-|[]]; apply (lookup_lt true [a] s) in L; [lia|exact A]).
    apply wp_bind. eapply q_push_all; [exact H1|has|]. intros s2 H2 E2.
    inversion C as [? cx0 ? c1 L0 L1 CD CO EQ1 EQ2]. clear EQ1 EQ2. rewrite LX in L0. injection L0 as <-. rewrite LR in L1. injection L1 as <-. rewrite EV in CD.
    inversion CD as [? PL| l0 l' CA| | |]; [exfalso; clear - PL; exact PL|].
    apply wp_bind. apply (wp_mono true _ (fun _ s' => seq_so_far [a] s DVec r (cdoc cx) (l ++ t) s')).
    { apply (copy_seq n (copy_spec n) [a] s vec_push DVec r (cdoc cx) is_seq_push NR NP t l s2).
      - intros y J. split; [apply RE|apply PM]; now right.
      - split; [eapply at_weaken; [exact H2|easy]|]. exists l', (cdoc cr). rewrite E2. split; [|split; assumption]. exists cr. rewrite E2. auto. }
    intros [] s3 (HH3 & l2 & doc & (c3 & L3 & E3 & O3 & F3) & C3 & CO3). apply wp_bind. eapply at_pop; [exact HH3|]. intros s4 H4 E4. apply wp_ret.
    exists c3, l2. rewrite E4. split; [|split; [exact E3|split; [exact C3|rewrite O3; exact CO3]]]. unfold all_new. rewrite E4. split; [exact NR|]. split; [exact L3|].
    intros y R. destruct (reach_inv _ _ _ _ L3 R) as [->|(z & F & RZ)]; [exact NR|]. apply (F3 z y) in F; [lia|exact RZ]. }
  revert W. unfold SafeBase.wp. destruct (plus_vector n a s) as [[r s']| | | | |]; auto.
Qed.
(** Adding the copies is what copying a map does with its pairs. *)
Lemma bind_inv_wp {X Y} (m : M X) (k : X -> M Y) Q s1 : wp (bind m k) Q s1 -> wp m (fun x s' => wp (k x) Q s') s1.
Proof using. unfold SafeBase.wp, bind. destruct (m s1) as [[x s']| | | | |]; auto. Qed.
Definition pair_step (n : nat) (x : ref) (e : element ref ref) : M unit :=
  v <- lift (single e) ;;
  k' <- copy n (ekey e) ;; push k' ;;;
  v' <- copy n v ;; push v' ;;;
  hk <- hash_of k' ;; m' <- map_of x ;; m2 <- vmap_put n m' hk k' v' ;;
  put x (DMap m2) ;;; pop v' ;;; pop k'.
Lemma add_copies_pairs n r : forall kvs t (Q : unit -> vm -> Prop) s1, in_pairs t = Some kvs -> wp (iterM (pair_step n r) (map pair_entry kvs)) Q s1 -> wp (add_copies n r t) Q s1.
Proof using.
  induction kvs as [|(k, v) kvs IH]; intros [|k0 [|v0 t]] Q s1 EP W; cbn [in_pairs] in EP; try discriminate.
  - exact W.
  - destruct (in_pairs t); discriminate.
  - destruct (in_pairs t) as [kv|] eqn:ET; [|discriminate]. cbn in EP. injection EP as -> -> ->. cbn [map iterM] in W. apply bind_inv_wp in W. unfold pair_step at 1, pair_entry at 1 2 in W. cbn [ekey fst snd] in W.
    apply bind_inv_wp in W. unfold SafeBase.wp at 1 in W. cbn in W. apply bind_inv_wp in W.
    cbn [add_copies]. apply wp_bind. eapply wp_mono; [exact W|]. clear W. intros k' s2 W. cbv beta in W. apply bind_inv_wp in W. apply wp_bind. eapply wp_mono; [exact W|]. clear W. intros [] s3 W.
    apply bind_inv_wp in W. apply wp_bind. eapply wp_mono; [exact W|]. clear W. intros v' s4 W. cbv beta in W. apply bind_inv_wp in W. apply wp_bind. eapply wp_mono; [exact W|]. clear W. intros [] s5 W.
    apply wp_bind. unfold hash_map_add. apply wp_bind, t_get. intros d _.
    assert (G : wp (hash_map_put n r k' v' ;;; ret true) (fun x s' => wp (if (x : bool) then pop v' ;;; pop k' ;;; add_copies n r t else abort) Q s') s5).
    { apply wp_bind. unfold hash_map_put. apply bind_inv_wp in W. apply wp_bind. eapply wp_mono; [exact W|]. clear W. intros hk s6 W.
      apply bind_inv_wp in W. apply wp_bind. eapply wp_mono; [exact W|]. clear W. intros m' s7 W. apply bind_inv_wp in W. apply wp_bind. eapply wp_mono; [exact W|]. clear W. intros m2 s8 W.
      apply bind_inv_wp in W. eapply wp_mono; [exact W|]. clear W. intros [] s9 W. apply wp_ret.
      apply bind_inv_wp in W. apply wp_bind. eapply wp_mono; [exact W|]. clear W. intros [] s10 W. apply wp_bind. eapply wp_mono; [exact W|]. clear W. intros [] s11 W. now apply IH. }
    destruct d; try apply wp_abort; exact G.
Qed.
Lemma in_pairs_odd : forall n (t : list ref), (List.length t <= n)%nat -> (in_pairs t = None <-> Nat.odd (List.length t) = true).
Proof using.
  induction n as [|n IH]; intros [|k [|v t]] LN; cbn in LN; try lia; cbn [in_pairs]; try (cbn; split; intros; easy).
  change (Nat.odd (List.length (k :: v :: t))) with (Nat.odd (List.length t)). rewrite <- IH by lia. destruct (in_pairs t); cbn; split; congruence.
Qed.
Lemma in_pairs_in : forall n t kvs, (List.length t <= n)%nat -> in_pairs t = Some kvs -> forall k v, In (k, v) kvs -> In k t /\ In v t.
Proof using.
  induction n as [|n IH]; intros [|k0 [|v0 t]] kvs LN EP k v J; cbn in LN; try lia; cbn [in_pairs] in EP; try discriminate; try (injection EP as <-; contradiction).
  destruct (in_pairs t) as [kv|] eqn:ET; [|discriminate]. injection EP as <-. destruct J as [[= <- <-]|J]; [cbn; auto|]. destruct (IH t kv ltac:(lia) ET k v J). cbn; auto.
Qed.
Lemma plus_map_spec n x t cx m : xs = x :: t -> lookup (all s) x = Some cx -> cdata cx = DMap m -> wp (plus_map n a) (fun r s' => maps_added cx m s x t s' r) s.
Proof.
  intros EX LX EV. unfold maps_added. pose proof (args_start a s A) as H.
  destruct (in_pairs t) as [kvs|] eqn:EP.
  2:{ apply (in_pairs_odd _ t (le_n _)) in EP. unfold plus_map. apply wp_bind. eapply args_vec; [exact L|exact E|exact H|]. rewrite EX, EP. eapply q_error; [exact H|auto]. }
  assert (OD : Nat.odd (List.length t) = false) by (destruct (Nat.odd (List.length t)) eqn:O; [apply (in_pairs_odd _ t (le_n _)) in O; congruence|reflexivity]).
  assert (W : (forall y, In y (x :: t) -> plain_maps (all s) y) -> plain_entries s (List.concat (buckets m) ++ map pair_entry kvs) ->
    wp (plus_map n a) (fun r s' => exists c' m' es, all_new s s' r c' /\ cdata c' = DMap m' /\ Permutation es (List.concat (buckets m')) /\
        copied_pairs (all s) (all s') (List.concat (buckets m) ++ map pair_entry kvs) es /\ copied_doc (all s) (all s') (cdoc cx) (cdoc c')) s).
  { intros PM PE. unfold plus_map. apply wp_bind. eapply args_vec; [exact L|exact E|exact H|]. rewrite EX, OD.
    assert (RE : forall y, In y (x :: t) -> reach s y) by (rewrite <- EX; intros y J; eapply args_reach; eauto).
    apply wp_bind. eapply wp_mono; [apply (copy_spec n [a] s x A); [apply RE; now left|apply PM; now left]|]. intros r s1 (H1 & NR & C & FR & cr & LR & BR & BK).
    assert (NP : ~ In r [a]) by (intros [<-|[]]; apply (lookup_lt true [a] s) in L; [lia|exact A]).
    apply wp_bind. eapply q_push_all; [exact H1|has|]. intros s2 H2 E2.
    inversion C as [? cx0 ? c1 L0 L1 CD CO EQ1 EQ2]. clear EQ1 EQ2. rewrite LX in L0. injection L0 as <-. rewrite LR in L1. injection L1 as <-. rewrite EV in CD.
    inversion CD as [? PL| | | |m0 m' es CA PB EQ1 EQ2]; [exfalso; clear - PL; exact PL|]. clear EQ1. symmetry in EQ2.
    apply wp_bind. apply (wp_mono true _ (fun _ s' => map_so_far [a] s r (cdoc cx) (List.concat (buckets m) ++ map pair_entry kvs) s')).
    { apply (add_copies_pairs n r kvs t); [exact EP|]. apply (copy_map n (copy_spec n) [a] s r (cdoc cx) _ NR NP PE (map pair_entry kvs) (List.concat (buckets m)) s2 eq_refl).
      - intros y (e & J & K). apply in_map_iff in J as ((k, v) & <- & J). destruct (in_pairs_in _ t kvs (le_n _) EP k v J) as (I1 & I2). cbn in K.
        assert (IY : In y (x :: t)) by (destruct K as [->|[->|[]]]; now right). split; [now apply RE|now apply PM].
      - split; [eapply at_weaken; [exact H2|easy]|]. exists m', es, (cdoc cr). rewrite E2. split; [exists cr; rewrite E2; auto|]. split; [rewrite EQ2 in BK; exact BK|]. split; [exact CA|]. split; [exact PB|exact CO]. }
    intros [] s3 (HH3 & m2 & es2 & doc & (c3 & L3 & E3 & O3 & F3) & _ & C3 & PB3 & CO3). apply wp_bind. eapply at_pop; [exact HH3|]. intros s4 H4 E4. apply wp_ret.
    exists c3, m2, es2. rewrite E4. split; [|split; [exact E3|split; [exact PB3|split; [exact C3|rewrite O3; exact CO3]]]]. unfold all_new. rewrite E4. split; [exact NR|]. split; [exact L3|].
    intros y R. destruct (reach_inv _ _ _ _ L3 R) as [->|(z & F & RZ)]; [exact NR|]. apply (F3 z y) in F; [lia|exact RZ]. }
  revert W. unfold SafeBase.wp. destruct (plus_map n a s) as [[r s']| | | | |]; auto.
Qed.
End New.

Lemma plus_reader : reader BiPlus plus_result.
Proof.
  apply reader_intro; [easy|]. intros n m a env xs s c A IE L E. cbn [builtin_call]. unfold b_plus. pose proof (args_start a s A) as H.
  apply wp_bind. eapply args_vec; [exact L|exact E|exact H|]. unfold plus_result. destruct xs as [|x t].
  - unfold plus_numerical. apply wp_bind. eapply args_vec; [exact L|exact E|exact H|]. cbn [arith_each]. eapply q_alloc; [exact H|easy|]. intros r s' _ _ M _ _. exact M.
  - apply wp_bind, wp_get; [discriminate|]. intros cx LX.
    assert (NUM : wp (plus_numerical a) (fun r s' => folded Z.add plus64 0 (S754_zero false) s (x :: t) s' r) s).
    { unfold plus_numerical. apply wp_bind. eapply args_vec; [exact L|exact E|exact H|]. eapply wp_mono; [apply (arith_each_spec a s c _ A L E AAdd); apply incl_refl|]. intros r s' K. exact (folded_done _ _ _ _ _ _ _ K). }
    assert (DX : data_at s x = Some (cdata cx)) by (unfold data_at; now rewrite LX).
    pose proof (plus_text_spec a s c (x :: t) A L E x t eq_refl _ DX) as TX.
    pose proof (plus_vector_spec a s c (x :: t) A L E n x t cx) as VX. pose proof (plus_map_spec a s c (x :: t) A L E n x t cx) as MX. pose proof (version_arith_spec a s c (x :: t) A L E true x t) as SX.
    destruct (cdata cx) eqn:EC;
      try (eapply wp_mono; [exact NUM|]; intros r s' K; exists cx; split; [exact LX|]; rewrite EC; exact K);
      try (eapply wp_mono; [exact TX|]; intros r s' K; exists cx; split; [exact LX|]; rewrite EC; exact K).
    + eapply wp_mono; [exact (VX _ eq_refl LX eq_refl)|]. intros r s' K. exists cx. split; [exact LX|]. rewrite EC. exact K.
    + eapply wp_mono; [exact (MX _ eq_refl LX eq_refl)|]. intros r s' K. exists cx. split; [exact LX|]. rewrite EC. exact K.
    + eapply wp_mono; [exact (SX _ eq_refl DX)|]. intros r s' K. exists cx. split; [exact LX|]. rewrite EC. exact K.
Qed.

(** ** - *)
Definition no_string (s : vm) (xs : list ref) : Prop := match xs with x :: _ => forall t, data_at s x <> Some (DStr t) | [] => True end.
Lemma minus_wp n m a env xs s c : Inv [a] s -> lookup (all s) a = Some c -> cdata c = DVec xs -> no_string s xs ->
  wp (builtin_call n (Eval.eval m) BiMinus a env) (fun r s' => minus_result s xs s' r) s.
Proof.
  intros A L E NS. cbn [builtin_call]. unfold b_minus. pose proof (args_start a s A) as H.
  apply wp_bind. eapply args_vec; [exact L|exact E|exact H|]. unfold minus_result. destruct xs as [|x t].
  - unfold minus_numerical. apply wp_bind. eapply args_vec; [exact L|exact E|exact H|]. eapply q_alloc; [exact H|easy|]. intros r s' _ _ M _ _. exact M.
  - apply wp_bind. eapply args_get; [exact A|exact L|exact E|exact H|now left|]. intros d D.
    assert (IT : incl t (x :: t)) by (intros z J; now right).
    assert (NUM : match d with DStr _ | DSemver _ => False | _ => True end -> wp (minus_numerical a) (fun r s' => match d with
      | DInt z => match t with [] => makes s s' r (DInt (- z)) | _ => folded Z.sub minus64 z (of_int z) s t s' r end
      | DReal f => match t with
                   | [] => makes s s' r (DReal (SFopp f))
                   | _ => (exists fs, numbers s t fs /\ makes s s' r (DReal (fold_left minus64 fs f))) \/ stops s s' r t
                   end
      | DErr _ _ => r = x
      | _ => complains s s' r end) s).
    { intros K. unfold minus_numerical. apply wp_bind. eapply args_vec; [exact L|exact E|exact H|]. destruct t as [|y t].
      - apply wp_bind. eapply args_get; [exact A|exact L|exact E|exact H|now left|]. intros d' D'. rewrite D in D'. injection D' as <-.
        destruct d; try contradiction; try (eapply q_error; [exact H|]; intros r s' _ C; exact C).
        + apply wp_bind, wp_lift; [discriminate|]. intros z' EZ. assert (z' = - z)%Z by (unfold int32_op in EZ; match type of EZ with (if ?b then _ else _) = _ => destruct b end; congruence). subst z'.
          eapply q_alloc; [exact H|easy|]. intros r s' _ _ M _ _. exact M.
        + apply wp_bind, wp_lift; [discriminate|]. intros i _. eapply q_alloc; [exact H|easy|]. intros r s' _ _ M _ _. exact M.
        + apply wp_ret. reflexivity.
      - apply wp_bind. eapply args_get; [exact A|exact L|exact E|exact H|now left|]. intros d' D'. rewrite D in D'. injection D' as <-.
        destruct d; try contradiction; try (eapply q_error; [exact H|]; intros r s' _ C; exact C).
        + rewrite of_int_eq. eapply wp_mono; [apply (arith_each_spec a s c _ A L E ASub); exact IT|]. intros r s' K'. exact (folded_done _ _ _ _ _ _ _ K').
        + apply wp_bind, wp_lift; [discriminate|]. intros i _. eapply wp_mono; [apply (arith_each_spec a s c _ A L E ASub); exact IT|].
          intros r s' [(zs & I & M)|[(fs & I & NI & M)|S]]; [left|left|right]; [|eauto|exact S]. exists (map of_int zs). split; [now apply integers_numbers|exact M].
        + apply wp_ret. reflexivity. }
    destruct d; try (eapply wp_mono; [exact (NUM I)|]; intros r s' K; eexists; split; [exact D|]; exact K).
    + exfalso. eapply NS. exact D.
    + eapply wp_mono; [eapply (version_arith_spec a s c _ A L E false x t); [reflexivity|exact D]|]. intros r s' K. eexists. split; [exact D|]. exact K.
Qed.
Lemma minus_quiet n m a env xs s r s' : arguments s a env xs -> no_string s xs -> builtin_call n (Eval.eval m) BiMinus a env s = Ret (r, s') ->
  keeps (stack s) s s' /\ minus_result s xs s' r.
Proof.
  intros AR NS E. destruct (arguments_inv _ _ _ _ AR) as (A & GE & IE & c & L & EC).
  pose proof (only_reads_quiet _ n BiMinus [a] a env s c xs (eval_safe true m) A (or_introl eq_refl) GE IE L EC NS) as K.
  apply (wp_ret_inv _ _ _ _ _) with (2 := E) in K. split; [eapply keeps_at; exact K|]. exact (wp_ret_inv _ _ _ _ _ (minus_wp n m a env xs s c A L EC NS) E).
Qed.
Lemma remove_texts_each f x : forall t (Q : ref -> vm -> Prop) s v, data_at s x = Some (DStr v) ->
  wp (ok <- remove_each_text f x t ;; if (ok : bool) then ret x else new_error) Q s -> wp (remove_texts f x t) Q s.
Proof.
  induction t as [|y t IH]; intros Q s v D W; cbn [remove_texts remove_each_text] in *; [exact W|]. apply bind_inv_wp in W.
  apply bind_inv_wp in W. apply wp_bind. unfold SafeBase.wp at 1 in W. unfold SafeBase.wp at 1. destruct (get x s) as [[d s1]| | | | |] eqn:G; auto.
  assert (ES : s1 = s /\ d = DStr v). { unfold get, bind, get_cell in G. unfold data_at in D. destruct (lookup (all s) x); cbn in *; [|discriminate]. injection G as <- <-. injection D as ->. auto. } destruct ES as (-> & ->).
  apply bind_inv_wp in W. apply wp_bind. unfold SafeBase.wp at 1 in W. unfold SafeBase.wp at 1. destruct (get y s) as [[e s1]| | | | |] eqn:GY; auto.
  assert (ES : s1 = s). { unfold get, bind, get_cell in GY. destruct (lookup (all s) y); cbn in *; [|discriminate]. now injection GY as _ <-. } subst s1.
  assert (GO : forall u, wp (p <- lift (str_remove_all f (text_str v) u) ;; put x (DStr (ucs (fst p))) ;;; remove_each_text f x t) (fun b s' => wp (if (b : bool) then ret x else new_error) Q s') s ->
    wp (p <- lift (str_remove_all f (text_str v) u) ;; put x (DStr (ucs (fst p))) ;;; remove_texts f x t) Q s).
  { clear W. intros u W. apply bind_inv_wp in W. apply wp_bind. eapply wp_mono; [exact W|]. clear W. intros p s1 W. apply bind_inv_wp in W. apply wp_bind. revert W. unfold SafeBase.wp at 1 3.
    destruct (lookup (all s1) x) as [c1|] eqn:L1.
    - rewrite (put_eq s1 x c1 _ L1). intros W. unfold SafeBase.wp at 1. rewrite (put_eq s1 x c1 _ L1). eapply (IH Q); [|apply wp_bind; exact W]. unfold data_at. cbn [all with_all]. rewrite lookup_update, N.eqb_refl, L1. reflexivity.
    - intros _. unfold SafeBase.wp, put, bind, get_cell. rewrite L1. exact eq_refl. }
  destruct e; try exact W; now apply GO.
Qed.
Lemma minus_texts n m a env x t s r s' v : arguments s a env (x :: t) -> data_at s x = Some (DStr v) -> builtin_call n (Eval.eval m) BiMinus a env s = Ret (r, s') ->
  exists evs, trace (Eval.eval m) (stack s) s evs s' /\ minus_text_result s x t evs s' r.
Proof.
  intros AR D EQ. destruct (arguments_inv _ _ _ _ AR) as (A & GE & IE & c & L & E).
  revert EQ. apply (wp_ret_inv _ (fun r s' => exists evs, trace (Eval.eval m) (stack s) s evs s' /\ minus_text_result s x t evs s' r)). cbn [builtin_call]. unfold b_minus.
  apply wp_bind. eapply args_vec; [exact L|exact E|now apply args_start|].
  apply wp_bind. eapply args_get; [exact A|exact L|exact E|now apply args_start|now left|]. intros d D'. rewrite D in D'. injection D' as <-.
  eapply remove_texts_each; [exact D|]. eapply wp_mono; [eapply (cuts_spec (Eval.eval m) a s c (x :: t) L E x (or_introl eq_refl) n t [] [] s); [|constructor|reflexivity|eauto]|].
  - now apply upto_start.
  - intros r' s1 (evs & T & K). exists evs. split; [exact T|]. exact K.
Qed.
