(** Proofs about octaspire_string_split. *)
From Coq Require Import List NArith ZArith Bool Lia Arith.
From Coq Require Import ZifyBool ZifyNat ZifyN.
From Verif Require Import Base ListLemmas OString OStringProofs SpecSplit.
Import ListNotations.
Local Open Scope N_scope.

Lemma appears_snoc delim coll c : delim <> [] -> ~ appears delim coll ->
  appears delim (coll ++ [c]) -> exists p, coll ++ [c] = p ++ delim.
Proof.
  intros Hne Hn (p & q & E). destruct q as [|y q] using rev_ind.
  - rewrite app_nil_r in E. eauto.
  - exfalso. apply Hn. rewrite !app_assoc in E. apply app_inj_tail in E as [E _].
    exists p, q. rewrite E, <- app_assoc. reflexivity.
Qed.

Lemma not_appears_nil delim : delim <> [] -> ~ appears delim [].
Proof.
  intros H (p & q & E). symmetry in E. apply app_eq_nil in E as [_ E].
  apply app_eq_nil in E as [E _]. congruence.
Qed.

Lemma split_loop_tokens delim : delim <> [] -> forall l coll,
  ~ appears delim coll ->
  exists toks, split_loop delim coll l = Ret toks /\ tokens delim (coll ++ l) toks.
Proof.
  intros Hne. induction l as [|c l IH]; intros coll Hc; cbn [split_loop].
  - rewrite app_nil_r. destruct coll as [|x coll0] eqn:E.
    + exists []. split; [reflexivity | constructor].
    + rewrite <- E in *.
      assert (N1 : (Nat.eqb (length coll) (length delim) && check_match coll delim)%bool = false).
      { apply not_true_iff_false. intro H. apply andb_prop in H as [_ H].
        apply check_match_spec in H as [r H]. apply Hc. exists [], r. exact H. }
      rewrite N1.
      assert (N2 : str_ends_with coll delim = false).
      { apply not_true_iff_false. intro H. apply ends_with_spec in H as [p H].
        apply Hc. exists p, []. rewrite app_nil_r. exact H. }
      rewrite N2. exists [coll]. split; [reflexivity|]. apply tk_last; [rewrite E; discriminate | exact Hc].
  - unfold split_step.
    destruct (Nat.eqb (length (coll ++ [c])) (length delim) && check_match (coll ++ [c]) delim)%bool eqn:B1.
    + apply andb_prop in B1 as [B1 B2]. apply Nat.eqb_eq in B1.
      apply check_match_same_length in B2; [|exact B1].
      cbn [obind fst snd]. destruct (IH [] (not_appears_nil delim Hne)) as (toks & R & T).
      rewrite R; cbn [obind]. exists toks. split; [reflexivity|].
      replace (coll ++ c :: l) with (delim ++ l) by (rewrite <- B2, <- app_assoc; reflexivity).
      apply tk_skip. exact T.
    + destruct (str_ends_with (coll ++ [c]) delim) eqn:B2.
      * apply ends_with_spec in B2 as [p B2].
        assert (Hp : p <> []).
        { intros ->. cbn [app] in B2. rewrite B2, Nat.eqb_refl in B1. cbn [andb] in B1.
          assert (Hm : check_match delim delim = true)
            by (apply check_match_spec; exists []; symmetry; apply app_nil_r).
          rewrite Hm in B1. discriminate. }
        unfold str_substring, str_length; cbn [ucs]. rewrite B2, app_length.
        replace (length p + length delim - length delim)%nat with (length p) by lia.
        assert (Ld : (0 < length delim)%nat) by (destruct delim; [congruence | cbn; lia]).
        replace (Nat.leb (length p + length delim) (0 + length p)) with false by lia.
        cbn [skipn]. rewrite firstn_app_exact by reflexivity.
        cbn [obind fst snd ucs].
        destruct (IH [] (not_appears_nil delim Hne)) as (toks & R & T).
        rewrite R; cbn [obind]. exists (p :: toks). split; [reflexivity|].
        replace (coll ++ c :: l) with (p ++ delim ++ l)
          by (rewrite app_assoc, <- B2, <- app_assoc; reflexivity).
        apply tk_cut; [exact Hp | | exact T].
        assert (Ed : delim = removelast delim ++ [last delim 0]) by (apply app_removelast_last; exact Hne).
        rewrite Ed in B2. rewrite app_assoc in B2. apply app_inj_tail in B2 as [B2 _].
        rewrite <- B2. exact Hc.
      * cbn [obind fst snd].
        destruct (IH (coll ++ [c])) as (toks & R & T).
        { intro H. apply appears_snoc in H as [p H]; [|assumption..].
          assert (str_ends_with (coll ++ [c]) delim = true) by (apply ends_with_spec; eauto).
          congruence. }
        rewrite R; cbn [obind]. exists toks. split; [reflexivity|].
        rewrite <- app_assoc in T. exact T.
Qed.

Lemma tokens_nil delim : delim <> [] -> forall l t, tokens delim l t -> l = [] -> t = [].
Proof.
  intros Hne l t [|l' H1 H2|q' toks' T'|p' q' toks' H1 H2 T'] El; auto.
  - congruence.
  - apply app_eq_nil in El as [? _]; congruence.
  - apply app_eq_nil in El as [? _]; congruence.
Qed.

Lemma tokens_det delim : delim <> [] -> forall l t1, tokens delim l t1 -> forall t2, tokens delim l t2 -> t1 = t2.
Proof.
  intro Hne.
  assert (Hskipapp : forall q, appears delim (delim ++ q)) by (intro q; exists [], q; reflexivity).
  assert (First : forall p q p' q', ~ appears delim (p ++ removelast delim) ->
            ~ appears delim (p' ++ removelast delim) -> p ++ delim ++ q = p' ++ delim ++ q' -> p = p').
  { assert (Aux : forall p q p' q', ~ appears delim (p' ++ removelast delim) ->
      p ++ delim ++ q = p' ++ delim ++ q' -> (length p' <= length p)%nat).
    { intros p q p' q' H E. destruct (le_lt_dec (length p') (length p)) as [|Hlt]; [assumption|].
      exfalso. apply H.
      assert (EE : firstn (length p + length delim) (p ++ delim ++ q) = p ++ delim).
      { rewrite app_assoc. apply firstn_app_exact. rewrite app_length; reflexivity. }
      assert (Ed : delim = removelast delim ++ [last delim 0]) by (apply app_removelast_last; exact Hne).
      assert (Ld : length delim = S (length (removelast delim)))
        by (rewrite Ed at 1; rewrite app_length; cbn; lia).
      rewrite E in EE. rewrite Ed in EE at 2. rewrite <- !app_assoc, app_assoc in EE.
      rewrite firstn_app_le in EE by (rewrite app_length; lia).
      exists p, (skipn (length p + length delim) (p' ++ removelast delim)).
      rewrite app_assoc, <- EE, firstn_skipn. reflexivity. }
    intros p q p' q' H1 H2 E.
    pose proof (Aux _ _ _ _ H2 E) as L1. symmetry in E. pose proof (Aux _ _ _ _ H1 E) as L2.
    assert (L : length p = length p') by lia.
    assert (E1 : firstn (length p) (p ++ delim ++ q) = p) by (apply firstn_app_exact; reflexivity).
    rewrite <- E, firstn_app_exact in E1 by exact L. symmetry; exact E1. }
  assert (NoRem : ~ appears delim ([] ++ removelast delim)).
  { intros (p & q & E). cbn [app] in E.
    assert (Ed : delim = removelast delim ++ [last delim 0]) by (apply app_removelast_last; exact Hne).
    assert (Ld : length delim = S (length (removelast delim)))
      by (rewrite Ed at 1; rewrite app_length; cbn; lia).
    apply (f_equal (@length N)) in E. rewrite !app_length in E. lia. }
  induction 1 as [|l Hl Hn|q toks T IH|p q toks Hp Hn T IH]; intros t2 T2.
  - symmetry. apply (tokens_nil delim Hne [] t2 T2 eq_refl).
  - remember l as l0 eqn:El.
    destruct T2 as [|l' H1 H2|q' toks' T'|p' q' toks' H1 H2 T'].
    + congruence.
    + reflexivity.
    + exfalso. apply Hn, Hskipapp.
    + exfalso. apply Hn. exists p', q'. reflexivity.
  - remember (delim ++ q) as l eqn:El.
    destruct T2 as [|l' H1 H2|q' toks' T'|p' q' toks' H1 H2 T'].
    + exfalso. symmetry in El. apply app_eq_nil in El as [? _]; congruence.
    + exfalso. apply H2. rewrite El. apply Hskipapp.
    + apply app_inv_head in El. subst. apply IH, T'.
    + exfalso. apply H1. symmetry. apply (First [] q p' q'); [exact NoRem | exact H2 |]. symmetry; exact El.
  - remember (p ++ delim ++ q) as l eqn:El.
    destruct T2 as [|l' H1 H2|q' toks' T'|p' q' toks' H1 H2 T'].
    + exfalso. symmetry in El. apply app_eq_nil in El as [? _]; congruence.
    + exfalso. apply H2. rewrite El. exists p, q. reflexivity.
    + exfalso. apply Hp. symmetry. apply (First [] q' p q); [exact NoRem | exact Hn | exact El].
    + assert (Ep : p' = p) by (apply (First p' q' p q); assumption). subst p'.
      apply app_inv_head in El. apply app_inv_head in El. subst. f_equal. apply IH, T'.
Qed.

(** With a one-character delimiter: the tokens are non-empty, free of the
    delimiter, and together are the text without its delimiters. *)
Lemma tokens_single d l toks : tokens [d] l toks ->
  Forall (fun t => t <> [] /\ ~ In d t) toks /\ concat toks = filter (fun c => negb (c =? d)) l.
Proof.
  assert (A : forall t, ~ In d t -> filter (fun c => negb (c =? d)) t = t).
  { induction t as [|x t IHt]; intro H; [reflexivity|]. cbn [filter].
    destruct (x =? d) eqn:E; [exfalso; apply H; left; lia|]. cbn. f_equal.
    apply IHt. intro; apply H; right; assumption. }
  induction 1 as [|l Hl Hn|q toks T [F C]|p q toks Hp Hn T [F C]].
  - split; constructor.
  - assert (Hin : ~ In d l).
    { intro H. apply in_split in H as (p & q & ->). apply Hn. exists p, q. reflexivity. }
    split; [constructor; [auto | constructor]|]. cbn [concat]. rewrite app_nil_r. symmetry; apply A, Hin.
  - split; [exact F|]. cbn [app filter]. rewrite N.eqb_refl. cbn. exact C.
  - cbn [removelast] in Hn. rewrite app_nil_r in Hn.
    assert (Hin : ~ In d p).
    { intro H. apply in_split in H as (p1 & q1 & ->). apply Hn. exists p1, q1. reflexivity. }
    split; [constructor; auto|]. cbn [concat]. rewrite C.
    rewrite filter_app. cbn [app filter]. rewrite N.eqb_refl. cbn. f_equal. symmetry; apply A, Hin.
Qed.
