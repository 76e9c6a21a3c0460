(** Properties C40, C41: semantic versions. *)
From Coq Require Import List NArith ZArith Bool Lia.
From Coq Require Import ZifyBool ZifyNat ZifyN.
From Verif Require Import Base SpecText SpecStr OString OStringProofs Semver SpecSemver PropsText.
Import ListNotations.
Local Open Scope N_scope.
Ltac Zify.zify_post_hook ::= Z.div_mod_to_equations.

Lemma size_diff_small a b : a < 2 ^ 31 -> b < 2 ^ 31 -> size_diff a b = (Z.of_N a - Z.of_N b)%Z.
Proof. intros Ha Hb. unfold size_diff, wrap32, two64. lia. Qed.

Lemma diff_sign a b : a < 2 ^ 31 -> b < 2 ^ 31 ->
  (size_diff a b =? 0)%Z = (match a ?= b with Eq => true | _ => false end) /\
  (a <> b -> sign_of (size_diff a b) = of_cmp (a ?= b)).
Proof.
  intros Ha Hb. rewrite size_diff_small by assumption. unfold sign_of.
  destruct (N.compare_spec a b) as [->|H|H]; cbn [of_cmp].
  - split; [lia|congruence].
  - split; [lia|intros _]. destruct (Z.ltb_spec (Z.of_N a - Z.of_N b) 0); lia.
  - split; [lia|intros _]. destruct (Z.ltb_spec (Z.of_N a - Z.of_N b) 0); lia.
Qed.

Lemma text_compare_lex s t : Forall scalar s /\ ~ In 0 s -> Forall scalar t /\ ~ In 0 t ->
  text_compare s t = Ret (lex s t).
Proof.
  intros [S1 S2] [T1 T2]. unfold text_compare.
  apply (C11_string_order (mkStr s [] None) (mkStr t [] None)); auto; left; reflexivity.
Qed.

(** The pre-release parts. *)
Lemma compare_idents_spec a b : Forall ident_ok a -> Forall ident_ok b ->
  exists c, compare_idents a b = Ret (of_cmp c) /\
    idents_prec a b = match c with Eq => N.of_nat (length a) ?= N.of_nat (length b) | r => r end.
Proof.
  revert b; induction a as [|x a IH]; intros [|y b] Fa Fb.
  - exists Eq. split; reflexivity.
  - exists Eq. split; [reflexivity|]. cbn [idents_prec length]. symmetry. apply N.compare_lt_iff. lia.
  - exists Eq. split; [reflexivity|]. cbn [idents_prec length]. symmetry. apply N.compare_gt_iff. lia.
  - inversion Fa as [|? ? Hx Fa']; inversion Fb as [|? ? Hy Fb']; subst.
    destruct (IH b Fa' Fb') as (c & E & P).
    assert (L : (N.of_nat (length (x :: a)) ?= N.of_nat (length (y :: b))) = (N.of_nat (length a) ?= N.of_nat (length b))).
    { cbn [length]. destruct (N.compare_spec (N.of_nat (length a)) (N.of_nat (length b))) as [H|H|H];
        [apply N.compare_eq_iff|apply N.compare_lt_iff|apply N.compare_gt_iff]; lia. }
    destruct x as [m|s], y as [n|t]; cbn [compare_idents idents_prec ident_prec ident_ok] in *.
    + destruct (diff_sign m n Hx Hy) as [D1 D2]. rewrite D1.
      destruct (N.compare_spec m n) as [->|H|H].
      * exists c. rewrite L. auto.
      * exists Lt. rewrite D2 by lia. auto.
      * exists Gt. rewrite D2 by lia. auto.
    + exists Lt. auto.
    + exists Gt. auto.
    + rewrite text_compare_lex by assumption. cbn [obind]. destruct (lex s t).
      * exists c. rewrite L. auto.
      * exists Lt. auto.
      * exists Gt. auto.
Qed.

(** ** C40: for components below 2^31 the comparison is the precedence of
    Semantic Versioning 2.0.0. *)
Theorem C40_semver_precedence_partial : forall a b, semver_ok a -> semver_ok b ->
  semver_compare a b = Ret (of_cmp (precedence a b)).
Proof.
  intros a b (A1 & A2 & A3 & A4 & A5) (B1 & B2 & B3 & B4 & B5). unfold semver_compare, precedence.
  destruct (diff_sign (major a) (major b) A1 B1) as [D1 E1]. rewrite D1.
  destruct (N.compare_spec (major a) (major b)) as [H1|H1|H1]; cbn [negb]; try (now rewrite E1 by lia).
  destruct (diff_sign (minor a) (minor b) A2 B2) as [D2 E2]. rewrite D2.
  destruct (N.compare_spec (minor a) (minor b)) as [H2|H2|H2]; cbn [negb]; try (now rewrite E2 by lia).
  destruct (diff_sign (patch a) (patch b) A3 B3) as [D3 E3]. rewrite D3.
  destruct (N.compare_spec (patch a) (patch b)) as [H3|H3|H3]; cbn [negb]; try (now rewrite E3 by lia).
  destruct (pre a) as [|x p] eqn:Ea, (pre b) as [|y q] eqn:Eb; cbn [pre_prec]; try reflexivity.
  rewrite <- Ea, <- Eb in *.
  destruct (compare_idents_spec _ _ A4 B4) as (c & E & P). rewrite E. cbn [obind]. rewrite P.
  destruct c; cbn [of_cmp Z.eqb negb]; try reflexivity.
  destruct (Nat.eqb_spec (length (pre a)) (length (pre b))) as [HL|HL].
  - rewrite HL, N.compare_refl. reflexivity.
  - destruct (diff_sign (N.of_nat (length (pre a))) (N.of_nat (length (pre b)))) as [_ E']; [lia..|].
    rewrite E' by lia. reflexivity.
Qed.
Print Assumptions C40_semver_precedence_partial.

(** The precedence is a total preorder that ignores build metadata. *)
Lemma ident_prec_opp x y : ident_prec y x = CompOpp (ident_prec x y).
Proof. destruct x, y; cbn; auto using N.compare_antisym, lex_opp. Qed.
Lemma ident_prec_eq x y : ident_prec x y = Eq <-> x = y.
Proof.
  destruct x, y; cbn; try (split; congruence).
  - rewrite N.compare_eq_iff. split; congruence.
  - rewrite lex_eq. split; congruence.
Qed.
Lemma ident_prec_trans x y z : ident_prec x y = Lt -> ident_prec y z = Lt -> ident_prec x z = Lt.
Proof.
  destruct x, y, z; cbn; try congruence; [|apply lex_trans].
  rewrite !N.compare_lt_iff. lia.
Qed.
Lemma idents_prec_opp a b : idents_prec b a = CompOpp (idents_prec a b).
Proof.
  revert b; induction a as [|x a IH]; intros [|y b]; cbn; try reflexivity.
  rewrite (ident_prec_opp x y). destruct (ident_prec x y); cbn; auto.
Qed.
Lemma idents_prec_eq a b : idents_prec a b = Eq <-> a = b.
Proof.
  revert b; induction a as [|x a IH]; intros [|y b]; cbn; try (split; congruence).
  destruct (ident_prec x y) eqn:E.
  - apply ident_prec_eq in E as ->. rewrite IH. split; congruence.
  - split; [discriminate|]. intros [= -> ->]. assert (ident_prec y y = Eq) by now apply ident_prec_eq. congruence.
  - split; [discriminate|]. intros [= -> ->]. assert (ident_prec y y = Eq) by now apply ident_prec_eq. congruence.
Qed.
Lemma idents_prec_trans a b c : idents_prec a b = Lt -> idents_prec b c = Lt -> idents_prec a c = Lt.
Proof.
  revert b c; induction a as [|x a IH]; intros [|y b] [|z c]; cbn; try congruence.
  destruct (ident_prec x y) eqn:E1.
  - apply ident_prec_eq in E1 as ->. destruct (ident_prec y z); try congruence. apply IH.
  - intros _. destruct (ident_prec y z) eqn:E2; try congruence.
    + apply ident_prec_eq in E2 as ->. now rewrite E1.
    + now rewrite (ident_prec_trans _ _ _ E1 E2).
  - discriminate.
Qed.

Theorem C40_precedence_is_a_total_preorder : forall a b c,
  precedence a a = Eq /\ precedence b a = CompOpp (precedence a b) /\
  (precedence a b <> Gt -> precedence b c <> Gt -> precedence a c <> Gt) /\
  (precedence a b = Eq <-> major a = major b /\ minor a = minor b /\ patch a = patch b /\ pre a = pre b).
Proof.
  assert (PO : forall p q, pre_prec q p = CompOpp (pre_prec p q)).
  { intros [|x p] [|y q]; try reflexivity. apply (idents_prec_opp (x :: p) (y :: q)). }
  assert (PE : forall p q, pre_prec p q = Eq <-> p = q).
  { intros [|x p] [|y q]; cbn [pre_prec]; try (split; congruence). apply idents_prec_eq. }
  assert (PT : forall p q r, pre_prec p q = Lt -> pre_prec q r = Lt -> pre_prec p r = Lt).
  { intros [|x p] [|y q] [|z r]; cbn [pre_prec]; try congruence. apply idents_prec_trans. }
  assert (EQ : forall a b, precedence a b = Eq <-> major a = major b /\ minor a = minor b /\ patch a = patch b /\ pre a = pre b).
  { intros a b. unfold precedence.
    destruct (N.compare_spec (major a) (major b)); [|split; [discriminate|lia]..].
    destruct (N.compare_spec (minor a) (minor b)); [|split; [discriminate|lia]..].
    destruct (N.compare_spec (patch a) (patch b)); [|split; [discriminate|lia]..].
    rewrite PE. tauto. }
  assert (OP : forall a b, precedence b a = CompOpp (precedence a b)).
  { intros a b. unfold precedence. rewrite (N.compare_antisym (major a) (major b)).
    destruct (major a ?= major b); cbn [CompOpp]; try reflexivity.
    rewrite (N.compare_antisym (minor a) (minor b)). destruct (minor a ?= minor b); cbn [CompOpp]; try reflexivity.
    rewrite (N.compare_antisym (patch a) (patch b)). destruct (patch a ?= patch b); cbn [CompOpp]; try reflexivity.
    apply PO. }
  assert (LT : forall a b c, precedence a b = Lt -> precedence b c = Lt -> precedence a c = Lt).
  { intros a b c. unfold precedence.
    destruct (N.compare_spec (major a) (major b)), (N.compare_spec (major b) (major c)), (N.compare_spec (major a) (major c));
      try congruence; try lia.
    destruct (N.compare_spec (minor a) (minor b)), (N.compare_spec (minor b) (minor c)), (N.compare_spec (minor a) (minor c));
      try congruence; try lia.
    destruct (N.compare_spec (patch a) (patch b)), (N.compare_spec (patch b) (patch c)), (N.compare_spec (patch a) (patch c));
      try congruence; try lia.
    apply PT. }
  assert (EL : forall a b c, precedence a b = Eq -> precedence a c = precedence b c).
  { intros a b c H. apply EQ in H as (H1 & H2 & H3 & H4). unfold precedence. now rewrite H1, H2, H3, H4. }
  assert (ER : forall a b c, precedence a b = Eq -> precedence c a = precedence c b).
  { intros a b c H. rewrite (OP a c), (OP b c). now rewrite (EL a b c H). }
  intros a b c. split; [apply EQ; auto|]. split; [apply OP|]. split; [|apply EQ].
  intros H1 H2. destruct (precedence a b) eqn:E1; [|..].
  - now rewrite (EL _ _ c E1).
  - destruct (precedence b c) eqn:E2; [|..].
    + rewrite <- (ER _ _ a E2), E1. discriminate.
    + rewrite (LT _ _ _ E1 E2). discriminate.
    + congruence.
  - congruence.
Qed.
Print Assumptions C40_precedence_is_a_total_preorder.

(** Refuted beyond: the size_t difference is stored in an int. *)
Theorem C40_semver_precedence_refuted :
  let v n := mkSemver n 0 0 [] [] in
  semver_compare (v 2147483648) (v 0) = Ret (-1)%Z /\ semver_compare (v 4294967296) (v 0) = Ret 0%Z.
Proof. split; vm_compute; reflexivity. Qed.
Print Assumptions C40_semver_precedence_refuted.

(** 1.0.0-alpha.2 < 1.0.0-alpha.10+x < 1.0.0-alpha.beta *)
Example C40_witness :
  let al := ILex [97;108;112;104;97] in
  let a := mkSemver 1 0 0 [al; INum 2] [] in let b := mkSemver 1 0 0 [al; INum 10] [[120]] in
  let c := mkSemver 1 0 0 [al; ILex [98;101;116;97]] [] in
  semver_ok a /\ semver_ok b /\ semver_ok c /\ semver_compare a b = Ret (-1)%Z /\ semver_compare c b = Ret 1%Z.
Proof.
  repeat split; cbn; try lia; repeat constructor; unfold scalar; try lia; cbn [In]; try lia; vm_compute; reflexivity.
Qed.

(** ** C41 *)
Definition only_major v := major v <> 0 /\ minor v = 0 /\ patch v = 0.
Definition only_minor v := major v = 0 /\ minor v <> 0 /\ patch v = 0.
Definition only_patch v := major v = 0 /\ minor v = 0 /\ patch v <> 0.

(** Proved for an argument without pre-release identifiers (0.0.0 succeeds and
    changes nothing); sums below 2^64. *)
Theorem C41_semver_add_subtract_partial : forall self other s' ok,
  pre other = [] ->
  major self + major other < two64 -> minor self + minor other < two64 -> patch self + patch other < two64 ->
  forall add, semver_add_or_subtract self other add = (s', ok) ->
  pre s' = pre self /\ build s' = build self /\
  (ok = false -> s' = self) /\
  (only_major other ->
     if add then ok = true /\ major s' = major self + major other /\ minor s' = 0 /\ patch s' = 0
     else if major other <=? major self
          then ok = true /\ major s' + major other = major self /\ minor s' = minor self /\ patch s' = patch self
          else ok = false) /\
  (only_minor other ->
     if add then ok = true /\ major s' = major self /\ minor s' = minor self + minor other /\ patch s' = 0
     else if minor other <=? minor self
          then ok = true /\ major s' = major self /\ minor s' + minor other = minor self /\ patch s' = patch self
          else ok = false) /\
  (only_patch other ->
     if add then ok = true /\ major s' = major self /\ minor s' = minor self /\ patch s' = patch self + patch other
     else if patch other <=? patch self
          then ok = true /\ major s' = major self /\ minor s' = minor self /\ patch s' + patch other = patch self
          else ok = false) /\
  (~ only_major other -> ~ only_minor other -> ~ only_patch other ->
     s' = self /\ ok = ((major other =? 0) && (minor other =? 0) && (patch other =? 0))).
Proof.
  intros [a b c p bd] [x y z q bd2] s' ok Hq H1 H2 H3 add H.
  unfold only_major, only_minor, only_patch. cbn [pre major minor patch] in *. subst q.
  unfold semver_add_or_subtract in H. cbn [pre major minor patch build] in H.
  rewrite (N.mod_small (a + x)) in H by lia.
  destruct (N.eqb_spec x 0) as [Hx|Hx], (N.eqb_spec y 0) as [Hy|Hy], (N.eqb_spec z 0) as [Hz|Hz], add;
    cbn [negb orb fst snd pre major minor patch build apply_idents] in H;
    try (rewrite N.mod_small in H by lia);
    try (destruct (N.ltb_spec a x)); try (destruct (N.ltb_spec b y)); try (destruct (N.ltb_spec c z));
    cbn [negb orb fst snd pre major minor patch build apply_idents] in H;
    injection H as <- <-; cbn [pre major minor patch build];
    try (replace (x <=? a) with true by lia); try (replace (x <=? a) with false by lia);
    try (replace (y <=? b) with true by lia); try (replace (y <=? b) with false by lia);
    try (replace (z <=? c) with true by lia); try (replace (z <=? c) with false by lia);
    (repeat match goal with |- _ /\ _ => split end); intros; try reflexivity; try discriminate; try lia;
    (repeat match goal with |- _ /\ _ => split end); try reflexivity; try lia.
Qed.
Print Assumptions C41_semver_add_subtract_partial.

(** Refuted with pre-release identifiers: subtracting 1.0.0-x from 2.0.0
    reports failure but has changed the version to 1.0.0. *)
Theorem C41_failure_changes_nothing_refuted :
  semver_add_or_subtract (mkSemver 2 0 0 [] []) (mkSemver 1 0 0 [ILex [120]] []) false
  = (mkSemver 1 0 0 [] [], false).
Proof. reflexivity. Qed.
Print Assumptions C41_failure_changes_nothing_refuted.

Example C41_witness :
  semver_add_or_subtract (mkSemver 1 2 3 [] []) (mkSemver 0 2 0 [] []) true = (mkSemver 1 4 0 [] [], true)
  /\ semver_add_or_subtract (mkSemver 1 2 3 [] []) (mkSemver 0 0 4 [] []) false = (mkSemver 1 2 3 [] [], false).
Proof. split; reflexivity. Qed.

(** An argument with pre-release identifiers: first its numbers are added or
    subtracted; if that succeeds, the identifiers are appended or taken out, and
    it succeeds if all could be. *)
Lemma ident_eqb_spec x y : ident_eqb x y = true <-> x = y.
Proof.
  destruct x as [m|s], y as [n|t]; cbn [ident_eqb]; try (split; congruence).
  - rewrite N.eqb_eq. split; congruence.
  - destruct (list_eq_dec N.eq_dec s t) as [->|]; split; congruence.
Qed.
Lemma remove_ident_spec x l : match remove_ident x l with
  | Some l' => exists l1 l2, l = l1 ++ x :: l2 /\ l' = l1 ++ l2 /\ ~ In x l1
  | None => ~ In x l
  end.
Proof.
  induction l as [|y t IH]; cbn [remove_ident]; [intros []|]. destruct (ident_eqb y x) eqn:E.
  - apply ident_eqb_spec in E as ->. exists [], t. cbn. auto.
  - assert (NE : y <> x) by (intros ->; assert (ident_eqb x x = true) by (now apply ident_eqb_spec); congruence).
    destruct (remove_ident x t) as [l'|].
    + destruct IH as (l1 & l2 & -> & -> & NI). exists (y :: l1), l2. cbn. repeat split. intros [?|?]; tauto.
    + cbn. intros [?|?]; tauto.
Qed.
Lemma split_first (x : ident) l1 : forall l2 m1 m2, l1 ++ x :: l2 = m1 ++ x :: m2 -> ~ In x l1 -> ~ In x m1 -> l1 ++ l2 = m1 ++ m2.
Proof.
  induction l1 as [|a l1 IH]; intros l2 [|b m1] m2 EQ N1 N2; cbn in *; injection EQ; intros; subst.
  - reflexivity.
  - elim N2. now left.
  - elim N1. now left.
  - f_equal. eapply IH; eauto.
Qed.
Lemma taken_out_inv x others l1 l2 r : taken_out (x :: others) (l1 ++ x :: l2) r -> ~ In x l1 -> taken_out others (l1 ++ l2) r.
Proof.
  intros H NI. remember (l1 ++ x :: l2) as l eqn:E2. remember (x :: others) as xs eqn:E1. destruct H as [l|x' o' m1 m2 r' NM T]; [discriminate|].
  injection E1 as -> ->. now rewrite <- (split_first x m1 m2 l1 l2 E2 NM NI).
Qed.
Lemma apply_idents_spec others : forall l p ok, apply_idents false l others = (p, ok) ->
  if ok then taken_out others l p else forall r, ~ taken_out others l r.
Proof.
  induction others as [|x t IH]; intros l p ok H; cbn [apply_idents] in H.
  - injection H as <- <-. constructor.
  - pose proof (remove_ident_spec x l) as R. destruct (remove_ident x l) as [l'|].
    + destruct R as (l1 & l2 & -> & -> & NI). specialize (IH _ _ _ H). destruct ok; [now constructor|].
      intros r T. apply (IH r). now apply (taken_out_inv x).
    + injection H as <- <-. intros r T. inversion T; subst. apply R. apply in_or_app. right. now left.
Qed.
Lemma apply_idents_add others : forall l, apply_idents true l others = (l ++ others, true).
Proof. induction others as [|x t IH]; intros l; cbn [apply_idents]; [now rewrite app_nil_r|]. rewrite IH. unfold reread. now rewrite <- app_assoc. Qed.
Theorem C41_identifiers : forall self other add s1 ok1 s' ok,
  semver_add_or_subtract self (mkSemver (major other) (minor other) (patch other) [] []) add = (s1, ok1) ->
  semver_add_or_subtract self other add = (s', ok) ->
  if ok1
  then major s' = major s1 /\ minor s' = minor s1 /\ patch s' = patch s1 /\ build s' = build self /\
       if add then ok = true /\ pre s' = pre self ++ pre other
       else if ok then taken_out (pre other) (pre self) (pre s') else forall r, ~ taken_out (pre other) (pre self) r
  else ok = false /\ s' = s1.
Proof.
  intros [a b c p bd] [x y z q bd2] add s1 ok1 s' ok H1 H2. unfold semver_add_or_subtract in *. cbn [pre major minor patch build] in *.
  assert (K : forall s, pre s = p -> (let (p', ok) := apply_idents add (pre s) q in (mkSemver (major s) (minor s) (patch s) p' bd, ok)) = (s', ok) ->
     major s' = major s /\ minor s' = minor s /\ patch s' = patch s /\ build s' = bd /\
       if add then ok = true /\ pre s' = p ++ q else if ok then taken_out q p (pre s') else forall r, ~ taken_out q p r).
  { intros s <- E. destruct (apply_idents add (pre s) q) as [p' ok'] eqn:EA. injection E as <- <-. cbn [pre major minor patch build]. repeat (split; [reflexivity|]).
    destruct add; [rewrite apply_idents_add in EA; injection EA as <- <-; auto|]. exact (apply_idents_spec _ _ _ _ EA). }
  destruct (N.eqb_spec x 0), (N.eqb_spec y 0), (N.eqb_spec z 0), add; cbn [negb orb fst snd pre major minor patch build apply_idents] in *;
    try (destruct (a <? x)); try (destruct (b <? y)); try (destruct (c <? z)); cbn [negb orb fst snd pre major minor patch build apply_idents] in *;
    injection H1 as <- <-; cbn [pre major minor patch build]; try (injection H2 as <- <-; auto; fail);
    match goal with H : (let (_, _) := apply_idents _ _ _ in (mkSemver ?a ?b ?c _ _, _)) = _ |- _ => exact (K (mkSemver a b c p bd) eq_refl H) end.
Qed.
Print Assumptions C41_identifiers.
(** 1.2.3-a.1.b.1 and 0.1.0-1.a *)
Example C41_identifiers_witness :
  semver_add_or_subtract (mkSemver 1 2 3 [ILex [97]; INum 1; ILex [98]; INum 1] []) (mkSemver 0 1 0 [INum 1; ILex [97]] []) false =
  (mkSemver 1 1 3 [ILex [98]; INum 1] [], true).
Proof. reflexivity. Qed.
