(** Adding and subtracting versions is as SpecSemver.v says. *)
From Coq Require Import List NArith ZArith Bool Lia.
From Coq Require Import ZifyBool ZifyNat ZifyN.
From Verif Require Import Base SpecText SpecStr OString Semver SpecSemver PropsSemver Heap Builtins.
Import ListNotations.
Local Open Scope N_scope.

Lemma taken_up_to others : forall l p ok, apply_idents false l others = (p, ok) ->
  (ok = true /\ taken_out others l p) \/ (ok = false /\ exists d x t, others = d ++ x :: t /\ taken_out d l p /\ ~ In x p).
Proof.
  induction others as [|x t IH]; intros l p ok H; cbn [apply_idents] in H.
  - injection H as <- <-. left. split; [reflexivity|constructor].
  - pose proof (remove_ident_spec x l) as R. destruct (remove_ident x l) as [l'|].
    + destruct R as (l1 & l2 & -> & -> & NI). destruct (IH _ _ _ H) as [(-> & T)|(-> & d & y & u & -> & T & NY)].
      * left. split; [reflexivity|now constructor].
      * right. split; [reflexivity|]. exists (x :: d), y, u. split; [reflexivity|]. split; [now constructor|exact NY].
    + injection H as <- <-. right. split; [reflexivity|]. exists [], x, t. split; [reflexivity|]. split; [constructor|exact R].
Qed.
Lemma semver_changed add v w : let q := semver_add_or_subtract v w add in version_changed add v w (fst q) (snd q).
Proof.
  destruct v as [a b c p bd], w as [x y z o bd2]. unfold version_changed, semver_add_or_subtract. cbn [pre major minor patch build].
  assert (K : forall a' b' c', moved add (a, b, c) (x, y, z) (a', b', c') ->
    let q := (let (p', ok) := apply_idents add p o in (mkSemver a' b' c' p' bd, ok)) in
    build (fst q) = bd /\ ((moved add (a, b, c) (x, y, z) (numbers_of (fst q)) /\
      if add then snd q = true /\ pre (fst q) = p ++ o
      else (snd q = true /\ taken_out o p (pre (fst q))) \/ (snd q = false /\ exists d i t, o = d ++ i :: t /\ taken_out d p (pre (fst q)) /\ ~ In i (pre (fst q)))) \/
      ((forall t, ~ moved add (a, b, c) (x, y, z) t) /\ fst q = mkSemver a b c p bd /\ snd q = false))).
  { intros a' b' c' M. destruct (apply_idents add p o) as [p' ok] eqn:EA. cbn [fst snd build pre]. split; [reflexivity|]. left. split; [exact M|].
    destruct add; [rewrite apply_idents_add in EA; injection EA as <- <-; auto|]. now apply taken_up_to. }
  assert (F : (forall t, ~ moved add (a, b, c) (x, y, z) t) -> let q := (mkSemver a b c p bd, false) in
    build (fst q) = bd /\ ((moved add (a, b, c) (x, y, z) (numbers_of (fst q)) /\
      if add then snd q = true /\ pre (fst q) = p ++ o
      else (snd q = true /\ taken_out o p (pre (fst q))) \/ (snd q = false /\ exists d i t, o = d ++ i :: t /\ taken_out d p (pre (fst q)) /\ ~ In i (pre (fst q)))) \/
      ((forall t, ~ moved add (a, b, c) (x, y, z) t) /\ fst q = mkSemver a b c p bd /\ snd q = false))).
  { intros N. cbn [fst snd build]. split; [reflexivity|]. right. auto. }
  destruct (N.eqb_spec x 0) as [->|X], (N.eqb_spec y 0) as [->|Y], (N.eqb_spec z 0) as [->|Z]; cbn [negb orb fst snd pre major minor patch build] in *;
    try (apply F; intros t M; inversion M; subst; congruence).
  - apply K. constructor.
  - destruct add; [apply K; now constructor|]. destruct (N.ltb_spec c z); [apply F; intros t M; inversion M; subst; lia|apply K; now constructor].
  - destruct add; [apply K; now constructor|]. destruct (N.ltb_spec b y); [apply F; intros t M; inversion M; subst; lia|apply K; now constructor].
  - destruct add; [apply K; now constructor|]. destruct (N.ltb_spec a x); [apply F; intros t M; inversion M; subst; lia|apply K; now constructor].
Qed.

(** A version and itself. *)
Lemma self_added v : pre v = [] -> let q := semver_add_or_subtract v (mkSemver (major v) (minor v) (patch v) [] []) true in version_changed true v v (fst q) (snd q).
Proof. intros E. pose proof (semver_changed true v (mkSemver (major v) (minor v) (patch v) [] [])) as H. unfold version_changed in *. cbn [pre numbers_of major minor patch] in H. unfold numbers_of in H at 2 4. cbn [major minor patch] in H. rewrite E in *. exact H. Qed.
Lemma self_refused add v : let q := semver_add_or_subtract v (mkSemver (major v) (minor v) (patch v) [] []) add in snd q = false -> version_changed add v v (fst q) false.
Proof.
  cbv zeta. intros E. pose proof (semver_changed add v (mkSemver (major v) (minor v) (patch v) [] [])) as (B & H). rewrite E in H. split; [exact B|]. right. destruct H as [(M & H)|H].
  - exfalso. destruct add; [destruct H; discriminate|]. destruct H as [(F & _)|(_ & p & x & q & E' & _)]; [discriminate|]. destruct p; discriminate.
  - exact H.
Qed.
Lemma removed_own n : forall i l, exists p, taken_out p l (remove_own n i l).
Proof.
  induction n as [|n IH]; intros i l; cbn [remove_own]; [exists []; constructor|]. destruct (nth_error l i) as [x|]; [|exists []; constructor].
  pose proof (remove_ident_spec x l) as R. destruct (remove_ident x l) as [l'|]; [|exists []; constructor]. destruct R as (l1 & l2 & -> & -> & NI). destruct (IH (S i) (l1 ++ l2)) as (p & T). exists (x :: p). now constructor.
Qed.
Lemma self_subtracted v : let q := semver_add_or_subtract v (mkSemver (major v) (minor v) (patch v) [] []) false in snd q = true ->
  forall n, exists p, version_changed false v (mkSemver (major v) (minor v) (patch v) p []) (mkSemver (major (fst q)) (minor (fst q)) (patch (fst q)) (remove_own n 0 (pre v)) (build v)) true.
Proof.
  cbv zeta. intros E n. pose proof (semver_changed false v (mkSemver (major v) (minor v) (patch v) [] [])) as (B & H). rewrite E in H. destruct (removed_own n 0 (pre v)) as (p & T). exists p.
  destruct H as [(M & _)|(_ & _ & F)]; [|discriminate]. split; [reflexivity|]. left. split; [exact M|]. left. split; [reflexivity|exact T].
Qed.
