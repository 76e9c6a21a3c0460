(** The builtins of SpecSearch.v. *)
From Coq Require Import NArith ZArith Bool Lia Arith List String Sorted Permutation.
From Coq Require Import ZifyBool ZifyNat ZifyN.
From Coq Require Import Floats.SpecFloat.
From Verif Require Import Base ListLemmas Vec SpecText SpecStr SpecEdit SpecSplit OString OStringProofs HMap HMapProofs Heap SpecHeap GcProofs VmProofs ValueOps Env Copy Leven LevenProofs ToText Builtins Specials Eval Boot Semver SafeBase SafeRead SafeLib SafeBuiltins SafeSpecials SafeEval SpecTrace SpecSpecial SpecForm SpecCall SpecDefine SpecEval SpecValue SpecReal SpecPrint SpecBuiltin SpecWrite SpecSearch SpecSeq SpecVec VecProofs TraceProofs SpecialProofs SpecialEval CallProofs CopyProofs DefineProofs ValueProofs CompareMono RealProofs PrintProofs BuiltinProofs TextNumber WriteProofs.
From Verif Require Strtod SpecStrtod TextReal.
Import TextReal.
From Verif Require EnvProofs Printer PrinterProofs.
From Verif Require Import SplitProofs.
Import ListNotations.
Notation wp := (SafeBase.wp true).
Notation Inv := (SafeBase.Inv true).
Local Open Scope N_scope.
Local Open Scope list_scope.

(** ** max and min *)
Definition is_beyond (b : comparison) (z : Z) : bool := match Z.compare z 0, b with Gt, Gt | Lt, Lt | Eq, Eq => true | _, _ => false end.
Lemma vgreater_beyond n h x y : vgreater n h x y = obind (vcompare n h x y) (fun z => Ret (is_beyond Gt z)).
Proof. unfold vgreater. destruct (vcompare n h x y) as [z| | | | |]; reflexivity || (cbn [obind]; unfold is_beyond, Z.gtb; now destruct (z ?= 0)%Z). Qed.
Lemma vless_beyond n h x y : vless n h x y = obind (vcompare n h x y) (fun z => Ret (is_beyond Lt z)).
Proof. unfold vless. destruct (vcompare n h x y) as [z| | | | |]; reflexivity || (cbn [obind]; unfold is_beyond, Z.ltb; now destruct (z ?= 0)%Z). Qed.
Inductive chosen (h : heap) (beyond : comparison) : ref -> list ref -> ref -> Prop :=
| ch_end best : chosen h beyond best [] best
| ch_take best y l r n z : vcompare n h y best = Ret z -> is_beyond beyond z = true -> chosen h beyond y l r -> chosen h beyond best (y :: l) r
| ch_keep best y l r n z : vcompare n h y best = Ret z -> is_beyond beyond z = false -> chosen h beyond best l r -> chosen h beyond best (y :: l) r.
Lemma best_each_chosen beyond n better s : (forall h x y, better h x y = obind (vcompare n h x y) (fun z => Ret (is_beyond beyond z))) ->
  forall l best (Q : ref -> vm -> Prop), (forall r, chosen (all s) beyond best l r -> Q r s) -> wp (best_each better best l) Q s.
Proof.
  intros B. induction l as [|y l IH]; intros best Q K; cbn [best_each]; [apply wp_ret, K; constructor|].
  apply wp_bind, wp_heap; [discriminate|]. intros b E. rewrite B in E. destruct (vcompare n (all s) y best) as [z| | | | |] eqn:EC; try discriminate. cbn [obind] in E. injection E as <-.
  destruct (is_beyond beyond z) eqn:EB; apply IH; intros r C; apply K; [eapply ch_take|eapply ch_keep]; eauto.
Qed.
Lemma chosen_in h b best l r : chosen h b best l r -> In r (best :: l).
Proof. induction 1 as [|best y l r n z E B C IH|best y l r n z E B C IH]; [now left| |]; destruct IH as [<-|J]; cbn; auto. Qed.
Lemma compare_sign h lo a b ta tb n z : denotes h a ta -> denotes h b tb -> ordinary lo ta -> ordinary lo tb -> vcompare n h a b = Ret z -> Z.compare z 0 = tree_order ta tb.
Proof.
  intros DA DB OA OB E. destruct (vcompare_sign h lo ta tb a b (S (height ta)) DA DB OA OB (le_n _)) as (z' & E' & S). rewrite (vcompare_det _ _ _ _ _ _ _ E E'). exact S.
Qed.
Lemma order_trans_ne b : b <> Eq -> forall x y z, tree_order x y = b -> tree_order y z = b -> tree_order x z = b.
Proof.
  intros N x y z A B. destruct b; [congruence| |].
  - eapply tree_order_trans; eauto.
  - assert (LT : tree_order z x = Lt) by (eapply (tree_order_trans z y x); rewrite tree_order_opp; [rewrite B|rewrite A]; reflexivity). now rewrite tree_order_opp, LT.
Qed.
Lemma not_beyond_trans b : b <> Eq -> forall x y z, tree_order x y <> b -> tree_order z y = b -> tree_order x z = CompOpp b.
Proof.
  intros N x y z A B. assert (BZ : tree_order y z = CompOpp b) by (now rewrite tree_order_opp, B). destruct (tree_order x y) eqn:E.
  - apply tree_order_eq in E. now subst.
  - destruct b; [congruence|congruence|]. exact (tree_order_trans x y z E BZ).
  - destruct b; [congruence| |congruence]. exact (order_trans_ne Gt ltac:(discriminate) x y z E BZ).
Qed.
Lemma chosen_best h lo b : b <> Eq -> forall l best r, chosen h b best l r ->
  (forall x, In x (best :: l) -> exists t, denotes h x t /\ ordinary lo t) ->
  exists l1 u t, best :: l = l1 ++ r :: u /\ denotes h r t /\
    (forall x w, In x l1 -> denotes h x w -> tree_order w t = CompOpp b) /\ (forall x w, In x u -> denotes h x w -> tree_order w t <> b).
Proof.
  intros NB l best r C. induction C as [best|best y l r n z E B C IH|best y l r n z E B C IH]; intros D.
  - destruct (D best (or_introl eq_refl)) as (t & DT & _). exists [], [], t. split; [reflexivity|]. split; [exact DT|]. split; intros x w [].
  - destruct (D best (or_introl eq_refl)) as (tb & DB & OB). destruct (D y (or_intror (or_introl eq_refl))) as (ty & DY & OY).
    destruct IH as (l1 & u & t & EQ & DT & P1 & P2); [intros x J; apply D; now right|].
    exists (best :: l1), u, t. split; [cbn; now f_equal|]. split; [exact DT|]. split; [|exact P2]. intros x w [<-|J] DW; [|eauto].
    rewrite (denotes_fun _ _ _ _ DW DB). pose proof (compare_sign _ _ _ _ _ _ _ _ DY DB OY OB E) as SG. assert (YB : tree_order ty tb = b) by (rewrite <- SG; unfold is_beyond in B; destruct (z ?= 0)%Z, b; congruence).
    destruct l1 as [|q l1]; cbn in EQ; [injection EQ as <- <-|injection EQ as <- ->].
    + rewrite (denotes_fun _ _ _ _ DT DY). now rewrite tree_order_opp, YB.
    + pose proof (P1 y ty (or_introl eq_refl) DY) as YT. eapply order_trans_ne; [destruct b; cbn; congruence| |exact YT]. now rewrite tree_order_opp, YB.
  - destruct (D best (or_introl eq_refl)) as (tb & DB & OB). destruct (D y (or_intror (or_introl eq_refl))) as (ty & DY & OY).
    destruct IH as (l1 & u & t & EQ & DT & P1 & P2); [intros x [J|J]; apply D; [now left|right; now right]|].
    pose proof (compare_sign _ _ _ _ _ _ _ _ DY DB OY OB E) as SG. assert (YB : tree_order ty tb <> b) by (rewrite <- SG; unfold is_beyond in B; destruct (z ?= 0)%Z, b; congruence).
    destruct l1 as [|q l1]; cbn in EQ; [injection EQ as <- <-|injection EQ as <- ->].
    + exists [], (y :: l), t. split; [reflexivity|]. split; [exact DT|]. split; [intros x w []|]. intros x w [<-|J] DW; [|eauto]. rewrite (denotes_fun _ _ _ _ DW DY). rewrite (denotes_fun _ _ _ _ DT DB). exact YB.
    + exists (best :: y :: l1), u, t. split; [reflexivity|]. split; [exact DT|]. split; [|exact P2]. intros x w [<-|[<-|J]] DW; [apply (P1 best w); [now left|exact DW]| |apply (P1 x w); [now right|exact DW]].
      rewrite (denotes_fun _ _ _ _ DW DY). pose proof (P1 best tb (or_introl eq_refl) DB) as BT. apply (not_beyond_trans b NB ty tb t YB). rewrite tree_order_opp, BT. now destruct b.
Qed.
Lemma best_wp beyond n better a env xs s c : beyond <> Eq -> (forall h x y, better h x y = obind (vcompare n h x y) (fun z => Ret (is_beyond beyond z))) ->
  Inv [a] s -> lookup (all s) a = Some c -> cdata c = DVec xs ->
  wp (l <- vec_of a ;; match l with x :: y :: t => best_each better x (y :: t) | _ => new_error end) (fun r s' => best_result beyond s env xs s' r) s.
Proof.
  intros NB B A L E. pose proof (args_start a s A) as H. apply wp_bind. eapply args_vec; [exact L|exact E|exact H|]. unfold best_result.
  destruct xs as [|x [|y t]]; try (eapply q_error; [exact H|auto]).
  eapply best_each_chosen; [exact B|]. intros r C. split; [exact (chosen_in _ _ _ _ _ C)|]. intros lo ts F O. apply (chosen_best _ lo _ NB _ _ _ C).
  intros q J. clear - F O J. induction F as [|q' tr l ts D F IH]; [destruct J|]. inversion O; subst. destruct J as [<-|J]; [eauto|auto].
Qed.
Lemma max_reader : reader BiMax (best_result Gt).
Proof. apply reader_intro; [easy|]. intros n m a env xs s c A IE L E. cbn [builtin_call]. eapply best_wp; eauto using vgreater_beyond. discriminate. Qed.
Lemma min_reader : reader BiMin (best_result Lt).
Proof. apply reader_intro; [easy|]. intros n m a env xs s c A IE L E. cbn [builtin_call]. eapply best_wp; eauto using vless_beyond. discriminate. Qed.

(** ** starts-with? *)
Ltac err1 H := eapply q_error; [exact H|auto].
Lemma starts_with_reader : reader BiStartsWith starts_result.
Proof.
  apply reader_intro; [easy|]. intros n m a env xs s c A IE L E. cbn [builtin_call]. unfold b_starts_with. pose proof (args_start a s A) as H.
  apply wp_bind. eapply args_vec; [exact L|exact E|exact H|]. unfold starts_result. destruct xs as [|x [|y [|]]]; try err1 H.
  apply wp_bind. eapply q_push_all; [exact H|right; right; left; apply (i_priv _ _ _ A); now left|]. clear H. intros s1 H _.
  apply wp_bind. eapply args_get; [exact A|exact L|exact E|exact H|now left|]. intros d D. apply wp_bind. eapply args_get; [exact A|exact L|exact E|exact H|now right; left|]. intros e DE.
  assert (NO : (forall t u, ~ (d = DStr (t ++ u) /\ e = DStr t)) -> wp (pop a ;;; value_false) (fun r s' => exists d0 e0 b, data_at s x = Some d0 /\ data_at s y = Some e0 /\ makes s s' r (DBool b) /\ (b = true <-> exists t u, d0 = DStr (t ++ u) /\ e0 = DStr t)) s1).
  { intros N. apply wp_bind. eapply at_pop; [exact H|]. clear H. intros s2 H _. unfold value_false. eapply q_const; [exact H|intros q []|]. intros r s' _ _ M _. exists d, e, false. repeat split; auto; try apply M; [discriminate|]. intros (t & u & X). now apply N in X. }
  destruct d; try (apply NO; intros ? ? (? & ?); discriminate). destruct e; try (apply NO; intros ? ? (? & ?); discriminate). clear NO.
  apply wp_bind. eapply at_pop; [exact H|]. clear H. intros s9 H _. eapply q_alloc; [exact H|easy|]. intros r s' _ _ M _ _. eexists _, _, _. split; [exact D|]. split; [exact DE|]. split; [exact M|].
  unfold str_starts_with. rewrite andb_true_iff, check_match_spec. split.
  - intros (_ & u & ->). eauto.
  - intros (t & u & [= ->] & [= <-]). split; [|eauto]. apply Nat.leb_le. rewrite app_length. lia.
Qed.

(** ** Conversions *)
Ltac errd H D := eapply q_error; [exact H|]; intros r s' _ C; eexists; split; [exact D|exact C].
Lemma to_string_reader : reader BiToString to_string_result.
Proof.
  apply reader_intro; [easy|]. intros n m a env xs s c A IE L E. cbn [builtin_call]. unfold b_to_string. pose proof (args_start a s A) as H.
  apply wp_bind. eapply args_vec; [exact L|exact E|exact H|]. unfold to_string_result. destruct xs as [|x t]; [err1 H|].
  apply wp_bind, wp_read. apply wp_bind, wp_heap; [discriminate|]. intros us U. eapply q_alloc; [exact H|easy|]. intros r s' _ _ M _ _. exists us. split; [|exact M].
  eapply omap_all; [|exact U]. intros y u. apply to_text_shown.
Qed.
Lemma trunc_truncated f z : sf_trunc f = Ret z -> truncated f z /\ fits z.
Proof.
  unfold sf_trunc, truncated. destruct f as [b|b| |b m e]; try discriminate.
  - intros [= <-]. split; [reflexivity|]. unfold fits. lia.
  - intros E. apply int32_fits in E as (-> & F). split; [|exact F]. eexists. split; [reflexivity|]. destruct e as [|p|p]; cbn [Z.leb Z.compare].
    + split; [lia|]. reflexivity.
    + split; [|reflexivity]. pose proof (Z.pow_nonneg 2 (Zpos p)). lia.
    + assert (P : (0 < 2 ^ Zpos p)%Z) by (apply Z.pow_pos_nonneg; lia). split; [apply Z.div_pos; lia|]. change (- Z.neg p)%Z with (Zpos p).
      pose proof (Z.div_mod (Zpos m) (2 ^ Zpos p)). pose proof (Z.mod_pos_bound (Zpos m) (2 ^ Zpos p) P). nia.
Qed.
Lemma text_int t p : str_get_c_string (text_str t) = Ret p -> Forall scalar t -> exists i, leading_int t i /\ cut32 (as_long i) (wrap32 (strtoimax (cstr (snd p)))).
Proof. intros E SC. destruct (leading_total t) as (i & L). exists i. split; [exact L|]. rewrite (text_long t p E SC i L). apply wrap_cut. Qed.
Lemma to_integer_reader : reader BiToInteger to_integer_result.
Proof.
  apply reader_intro; [easy|]. intros n m a env xs s c A IE L E. cbn [builtin_call]. unfold b_to_integer. pose proof (args_start a s A) as H.
  apply wp_bind. eapply args_vec; [exact L|exact E|exact H|]. unfold to_integer_result. destruct xs as [|x [|]]; try err1 H.
  apply wp_bind. eapply args_get; [exact A|exact L|exact E|exact H|now left|]. intros d D.
  destruct d as [ |db|dz|df|dt|dt|dt|dmsg dline|q|mm|q max|q|db denc|df|df|dp|dp|dv]; try errd H D.
  - eapply q_alloc; [exact H|easy|]. intros r s' _ _ M _ _. eexists. split; [exact D|exact M].
  - apply wp_bind, wp_lift; [intros; apply nd_trunc|]. intros z T. apply trunc_truncated in T as (T & F). eapply q_alloc; [exact H|easy|]. intros r s' _ _ M _ _. eexists. split; [exact D|]. exists z. auto.
  - apply wp_bind, wp_lift; [intros; apply nd_c_string|]. intros p P. eapply q_alloc; [exact H|easy|]. intros r s' _ _ M _ _. eexists. split; [exact D|]. eexists. split; [exact M|]. now apply text_int.
  - eapply q_alloc; [exact H|easy|]. intros r s' _ _ M _ _. eexists. split; [exact D|]. eexists. split; [exact M|]. intros k -> F. now apply fits_wrap.
  - apply wp_bind, wp_lift; [intros; apply nd_c_string|]. intros p P. eapply q_alloc; [exact H|easy|]. intros r s' _ _ M _ _. eexists. split; [exact D|]. eexists. split; [exact M|]. now apply text_int.
Qed.
Lemma to_real_reader : reader BiToReal to_real_result.
Proof.
  apply reader_intro; [easy|]. intros n m a env xs s c A IE L E. cbn [builtin_call]. unfold b_to_real. pose proof (args_start a s A) as H.
  apply wp_bind. eapply args_vec; [exact L|exact E|exact H|]. unfold to_real_result. destruct xs as [|x [|]]; try err1 H.
  apply wp_bind. eapply args_get; [exact A|exact L|exact E|exact H|now left|]. intros d D.
  destruct d as [ |db|dz|df|dt|dt|dt|dmsg dline|q|mm|q max|q|db denc|df|df|dp|dp|dv]; cbn [as_double]; try errd H D.
  - eapply q_alloc; [exact H|easy|]. intros r s' _ _ M _ _. eexists. split; [exact D|]. rewrite <- of_int_eq in M. exact M.
  - eapply q_alloc; [exact H|easy|]. intros r s' _ _ M _ _. eexists. split; [exact D|exact M].
  - apply wp_bind, wp_lift; [intros; apply nd_c_string|]. intros p P. eapply q_alloc; [exact H|easy|]. intros r s' _ _ M _ _. eexists. split; [exact D|]. eexists. split; [exact M|]. now apply TextReal.text_real.
  - eapply q_alloc; [exact H|easy|]. intros r s' _ _ M _ _. eexists. split; [exact D|]. intros k ->. rewrite <- of_int_eq in M. exact M.
  - apply wp_bind, wp_lift; [intros; apply nd_c_string|]. intros p P. eapply q_alloc; [exact H|easy|]. intros r s' _ _ M _ _. eexists. split; [exact D|]. eexists. split; [exact M|]. now apply TextReal.text_real.
Qed.
Lemma character_reader : reader BiCharacter character_result.
Proof.
  apply reader_intro; [easy|]. intros n m a env xs s c A IE L E. cbn [builtin_call]. unfold b_character. pose proof (args_start a s A) as H.
  apply wp_bind. eapply args_vec; [exact L|exact E|exact H|]. unfold character_result. destruct xs as [|x [|]]; try err1 H.
  apply wp_bind. eapply args_get; [exact A|exact L|exact E|exact H|now left|]. intros d D.
  assert (NO : forall d0, data_at s x = Some d0 -> (forall k, ~ char_code d0 k) -> wp new_error (fun r s' => exists d, data_at s x = Some d /\ ((exists k, char_code d k /\ makes s s' r (DChar [k])) \/ ((forall k, ~ char_code d k) /\ complains s s' r))) s).
  { intros d0 D0 N. eapply q_error; [exact H|]. intros r s' _ C. exists d0. split; [exact D0|]. right. auto. }
  assert (YES : forall d0 k, data_at s x = Some d0 -> char_code d0 k -> wp (alloc (DChar [k])) (fun r s' => exists d, data_at s x = Some d /\ ((exists k, char_code d k /\ makes s s' r (DChar [k])) \/ ((forall k, ~ char_code d k) /\ complains s s' r))) s).
  { intros d0 k D0 N. eapply q_alloc; [exact H|easy|]. intros r s' _ _ M _ _. exists d0. split; [exact D0|]. left. eauto. }
  assert (TX : forall d0 t, data_at s x = Some d0 -> d0 = DStr t \/ d0 = DSym t \/ d0 = DChar t ->
    wp (if text_eqb t (asc "copyright sign") then alloc (DChar [169]) else if text_eqb t (asc "greek small letter lambda") then alloc (DChar [955]) else new_error) (fun r s' => exists d, data_at s x = Some d /\ ((exists k, char_code d k /\ makes s s' r (DChar [k])) \/ ((forall k, ~ char_code d k) /\ complains s s' r))) s).
  { intros d0 t D0 T. destruct (text_eqb t (asc "copyright sign")) eqn:E1; [|destruct (text_eqb t (asc "greek small letter lambda")) eqn:E2].
    - apply text_eqb_true in E1. subst t. eapply YES; [exact D0|]. now apply code_copyright.
    - apply text_eqb_true in E2. subst t. eapply YES; [exact D0|]. now apply code_lambda.
    - eapply NO; [exact D0|]. intros k CC.
      assert (T1 : t <> asc "copyright sign") by (intros ->; now rewrite (proj2 (text_eqb_true _ _) eq_refl) in E1).
      assert (T2 : t <> asc "greek small letter lambda") by (intros ->; now rewrite (proj2 (text_eqb_true _ _) eq_refl) in E2).
      inversion CC as [z Z0 X|f z Z0 Z1 Z2 X|d1 X|d1 X]; subst; intuition congruence. }
  destruct d as [ |db|dz|df|dt|dt|dt|dmsg dline|q|mm|q max|q|db denc|df|df|dp|dp|dv]; try (eapply NO; [exact D|]; intros k CC; inversion CC; subst; intuition congruence); try (eapply TX; [exact D|auto]).
  - destruct (Z.ltb_spec dz 0) as [N|N]; [eapply NO; [exact D|]; intros k CC; inversion CC; subst; [lia|intuition congruence..]|]. eapply YES; [exact D|now constructor].
  - apply wp_bind, wp_lift; [intros; apply nd_trunc|]. intros z T. destruct (Z.ltb_spec z 0) as [N|N].
    + eapply NO; [exact D|]. intros k CC. inversion CC as [z' Z0 X|f z' Z0 Z1 Z2 X|d1 X|d1 X]; subst; try intuition congruence.
      apply trunc_truncated in T as (T & _). enough (z' = z) by lia. clear - T Z0. unfold truncated in *. destruct df as [b|b| |b mm e]; try tauto; [congruence|].
      destruct T as (v & -> & V & W), Z0 as (v' & -> & V' & W'). enough (v' = v) by (subst; reflexivity). destruct (0 <=? e)%Z; [congruence|]. nia.
    + apply trunc_truncated in T as (T & F). eapply YES; [exact D|]. econstructor; eauto.
Qed.

(** ** distance and sqrt *)
Lemma distance_reader : reader BiDistance distance_result.
Proof.
  apply reader_intro; [easy|]. intros n m a env xs s c A IE L E. cbn [builtin_call]. unfold b_distance. pose proof (args_start a s A) as H.
  apply wp_bind. eapply args_vec; [exact L|exact E|exact H|]. unfold distance_result. destruct xs as [|x [|y [|]]]; try err1 H.
  apply wp_bind. eapply args_get; [exact A|exact L|exact E|exact H|now left|]. intros d D. apply wp_bind. eapply args_get; [exact A|exact L|exact E|exact H|now right; left|]. intros e DE.
  assert (ND : forall d, match as_double d with Some f => number_of d f | None => ~ is_number d end).
  { intros d0. destruct d0; cbn; try (intros [[]|[]]); try constructor. rewrite <- of_int_eq. constructor. }
  assert (TD : forall d, match as_text d with Some t => text_of d t | None => ~ is_text d end).
  { intros d0. destruct d0; cbn; try (intros []); constructor. }
  assert (NT : forall d, is_number d -> ~ is_text d) by (intros d0 [|]; destruct d0; cbn in *; tauto).
  assert (NN : forall d f, number_of d f -> is_number d) by (intros d0 f []; [now left|now right]).
  assert (ER : ~ (is_number d /\ is_number e) -> ~ (is_text d /\ is_text e) -> wp new_error (fun r s' => exists d0 e0, data_at s x = Some d0 /\ data_at s y = Some e0 /\
      ((exists f g, number_of d0 f /\ number_of e0 g /\ makes s s' r (DReal (SFabs (minus64 f g)))) \/
       (exists t u n z, text_of d0 t /\ text_of e0 u /\ edit_distance t u n /\ makes s s' r (DInt z) /\ (fits (Z.of_nat n) -> z = Z.of_nat n)) \/
       (~ (is_number d0 /\ is_number e0) /\ ~ (is_text d0 /\ is_text e0) /\ complains s s' r))) s).
  { intros N1 N2. eapply q_error; [exact H|]. intros r s' _ C. exists d, e. repeat (split; [assumption|]). right. right. auto. }
  pose proof (ND d) as Nd. pose proof (ND e) as Ne. pose proof (TD d) as Td. pose proof (TD e) as Te.
  destruct (as_double d) as [f|] eqn:Ed, (as_double e) as [g|] eqn:Ee.
  - eapply q_alloc; [exact H|easy|]. intros r s' _ _ M _ _. exists d, e. repeat (split; [assumption|]). left. exists f, g. auto.
  - apply ER; [tauto|]. apply NN, NT in Nd. tauto.
  - apply ER; [tauto|]. apply NN, NT in Ne. tauto.
  - destruct (as_text d) as [t|]; [destruct (as_text e) as [u|]|]; try (apply ER; tauto).
    eapply q_alloc; [exact H|easy|]. intros r s' _ _ M _ _. exists d, e. repeat (split; [assumption|]). right. left. exists t, u, (levenshtein t u). eexists. repeat (split; [assumption|]). split; [apply levenshtein_distance|]. split; [exact M|]. apply fits_wrap.
Qed.
Lemma sqrt_reader : reader BiSqrt sqrt_result.
Proof.
  apply reader_intro; [easy|]. intros n m a env xs s c A IE L E. cbn [builtin_call]. unfold b_sqrt. pose proof (args_start a s A) as H.
  apply wp_bind. eapply args_vec; [exact L|exact E|exact H|]. unfold sqrt_result. destruct xs as [|x [|]]; try err1 H.
  apply wp_bind. eapply args_get; [exact A|exact L|exact E|exact H|now left|]. intros d D. change (of_int 0) with (S754_zero false).
  assert (ND : forall f, number_of d f <-> as_double d = Some f).
  { intros f. split; [intros []; cbn; [now rewrite of_int_eq|reflexivity]|]. destruct d; cbn; try discriminate; intros [= <-]; [rewrite <- of_int_eq|]; constructor. }
  destruct (as_double d) as [f|]; [destruct (SFltb f (S754_zero false)) eqn:Z0|].
  - eapply q_error; [exact H|]. intros r s' _ C. exists d. split; [exact D|]. right. split; [|exact C]. intros g G. apply ND in G. congruence.
  - eapply q_alloc; [exact H|easy|]. intros r s' _ _ M _ _. exists d. split; [exact D|]. left. exists f. split; [now apply ND|]. auto.
  - eapply q_error; [exact H|]. intros r s' _ C. exists d. split; [exact D|]. right. split; [|exact C]. intros g G. apply ND in G. discriminate.
Qed.

(** ** A new vector of new values *)
Lemma fresh_tail {X} P s0 (mkd : X -> data) l r s : (forall x y, ~ dref (mkd x) y) -> mine true P s0 r -> At true P s0 [r] (fun _ => False) s -> data_at s r = Some (DVec []) ->
  wp (iterM (fun x => k <- alloc (mkd x) ;; vec_push r k) l ;;; pop r ;;; ret r) (fun r s' => exists ws, makes s0 s' r (DVec ws) /\ Forall2 (fun x w => makes s0 s' w (mkd x)) l ws) s.
Proof.
  intros ND MR H D.
  eapply (build_tail vec_push DVec (fun l x => l ++ [x]) (fun l : list X => l)) with (xs := l) (El := fun x w s' => makes s0 s' w (mkd x)) (P := P); try assumption; try apply incl_refl; try reflexivity.
  - intros l' x y J. apply in_app_or in J as [J|[->|[]]]; auto.
  - intros R done ws x w F K. apply Forall2_app; [exact F|]. constructor; [exact K|constructor].
  - intros r' l' x s' D'. now apply vec_push_is.
  - intros x s1 pre G _ H1. eapply q_alloc; [exact H1|intros y J; now apply ND in J|]. intros w s' _ A M N _. auto.
  - intros x w s1 s2 (M1 & M2) E. split; [exact M1|]. rewrite <- M2. unfold data_at. now rewrite E.
Qed.
Lemma before_nul_id t : ~ In 0 t -> before_nul t = t.
Proof. intros N. destruct (before_nul_split t) as (q & [(E & _)|E]); [now symmetry|]. destruct N. rewrite E. apply in_or_app. right. now left. Qed.
Lemma split_reader : reader BiSplit split_result.
Proof.
  apply reader_intro; [easy|]. intros n m a env xs s c A IE L E. cbn [builtin_call]. unfold b_split. pose proof (args_start a s A) as H.
  apply wp_bind. eapply args_vec; [exact L|exact E|exact H|]. unfold split_result. destruct xs as [|x [|y [|]]]; try err1 H.
  apply wp_bind. eapply args_get; [exact A|exact L|exact E|exact H|now left|]. intros d D. apply wp_bind. eapply args_get; [exact A|exact L|exact E|exact H|now right; left|]. intros e DE.
  destruct d; try (eapply q_error; [exact H|]; intros r s' _ C; eexists _, e; split; [exact D|]; split; [exact DE|]; exact C).
  match goal with D : data_at s x = Some (DStr ?u) |- _ => rename u into t end.
  destruct e; try (eapply q_error; [exact H|]; intros r s' _ C; eexists _, _; split; [exact D|]; split; [exact DE|]; exact C).
  match goal with D : data_at s y = Some (DChar ?u) |- _ => rename u into k end.
  apply wp_bind. eapply q_alloc; [exact H|intros z []|]. clear H. intros r s1 H _ M _ NP.
  apply wp_bind. eapply q_push_all; [exact H|has|]. clear H. intros s2 H E2.
  apply wp_bind, wp_lift; [intros; apply nd_c_string_copy|]. intros k' K. apply wp_bind, wp_lift; [intros; apply nd_split|]. intros toks T.
  eapply wp_mono; [apply (fresh_tail [a] s DStr toks r s2)|].
  - intros u z [].
  - destruct M as (M & _). split; auto.
  - eapply at_weaken; [exact H|easy].
  - destruct M as (_ & M). rewrite <- M. apply data_same. congruence.
  - intros r' s' (ws & M' & F). eexists _, _. split; [exact D|]. split; [exact DE|]. exists ws, toks. split; [exact M'|]. split.
    + clear - F. induction F; constructor; auto.
    + intros (SK & NK) NE. apply c_string_through in K. rewrite (K SK), before_nul_id in T by exact NK.
      destruct (split_loop_tokens k NE (ucs (text_str t)) [] (not_appears_nil k NE)) as (toks' & ET & TT).
      unfold str_split in T. rewrite T in ET. injection ET as <-. exact TT.
Qed.
