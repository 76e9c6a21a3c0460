(** Facts about the parser: termination, soundness and completeness with
    respect to the grammar of SpecRead.v. *)
From Coq Require Import List NArith ZArith Bool Lia Arith.
From Coq Require Import ZifyBool ZifyNat ZifyN.
From Verif Require Import Base ListLemmas SpecText OString OStringProofs Base64 Input Lexer Parser SpecRead LexerProofs.
Import ListNotations.
Local Open Scope N_scope.

Definition token_textual (t : option token) : Prop :=
  match t with Some (TString s) | Some (TChar s) | Some (TSymbol s) => textual s | _ => True end.

(** *** The texts of tokens can be rendered *)
Lemma char_token_textual s t : char_token s = Ret t -> token_textual (Some t).
Proof.
  unfold char_token. destruct s as [|a [|b s]]; [intros [= <-]; exact I| |].
  - destruct (via_cstr [a]) eqn:E; cbn [obind]; try discriminate. intros [= <-]. eapply via_cstr_textual; eassumption.
  - unfold named_char.
    assert (K : forall c, scalar c -> c <> 0 -> Ret (TChar [c]) = Ret t -> token_textual (Some t)).
    { intros c H1 H2 [= <-]. cbn. apply textual_cons. split; [split; assumption|apply textual_nil]. }
    destruct (eqb_list _ _); [apply K; unfold scalar; lia|].
    destruct (eqb_list _ _); [apply K; unfold scalar; lia|].
    destruct (eqb_list _ _); [apply K; unfold scalar; lia|].
    destruct (eqb_list _ _); [apply K; unfold scalar; lia|].
    destruct (eqb_list _ _); [apply K; unfold scalar; lia|].
    destruct (str_get_c_string _); cbn [obind]; try discriminate.
    destruct (Nat.eqb _ _); [|intros [= <-]; exact I]. destruct (Nat.ltb _ _); [intros [= <-]; exact I|].
    destruct (via_cstr _) eqn:E; cbn [obind]; try discriminate. intros [= <-]. eapply via_cstr_textual; eassumption.
Qed.

Lemma finish_number_textual base neg dot frac ds prev t :
  finish_number base neg dot frac ds prev = Ret t -> token_textual (Some t).
Proof.
  unfold finish_number. destruct (prev =? 46); [intros [= <-]; exact I|].
  destruct (sum_digits _ _ _ _); cbn [obind]; try discriminate.
  destruct dot; [intros [= <-]; exact I|]. destruct (in_int32 _); [|discriminate]. intros [= <-]; exact I.
Qed.
Lemma number_loop_textual l ws base neg dot frac chars ds prev t r :
  number_loop l ws base neg dot frac chars ds prev = Ret (t, r) -> token_textual t.
Proof.
  revert ws dot frac chars ds prev; induction l as [|c l IH]; intros ws dot frac chars ds prev; cbn [number_loop].
  - destruct ws; [intros [= <- _]; exact I|].
    destruct (finish_number _ _ _ _ _ _) eqn:E; cbn [obind]; try discriminate.
    intros [= <- _]. eapply finish_number_textual; eassumption.
  - destruct (isspace c); [apply IH|].
    destruct (c =? 46); [destruct dot; [intros [= <- _]; exact I|];
      destruct (Nat.eqb chars 0); [intros [= <- _]; exact I|apply IH]|].
    destruct (isxdigit c); [destruct (Nat.leb _ _); [discriminate|]; destruct (digit_ok base c); [apply IH|intros [= <- _]; exact I]|].
    destruct (c =? 125); [|intros [= <- _]; exact I].
    destruct (finish_number _ _ _ _ _ _) eqn:E; cbn [obind]; try discriminate.
    intros [= <- _]. eapply finish_number_textual; eassumption.
Qed.
Lemma string_loop_textual l esc acc t r : string_loop l esc acc = Ret (t, r) -> token_textual t.
Proof.
  revert esc acc; induction l as [|c l IH]; intros esc acc; cbn [string_loop].
  - destruct esc; intros [= <- _]; exact I.
  - destruct esc as [e|].
    + destruct (c =? 124); [|apply IH]. destruct (char_token (rev e)) as [tk| | | | |]; cbn [obind]; try discriminate.
      destruct tk; try (intros [= <- _]; exact I). destruct s; [discriminate|apply IH].
    + destruct (c =? 93).
      { destruct l as [|d l']; [|destruct (is_delim d); [|intros [= <- _]; exact I]];
        destruct (via_cstr (rev acc)) eqn:E; cbn [obind]; try discriminate; intros [= <- _];
        eapply via_cstr_textual; eassumption. }
      destruct (c =? 124); apply IH.
Qed.
Lemma lex_token_textual l t r : lex_token l = Ret (t, r) -> token_textual t.
Proof.
  unfold lex_token. destruct l as [|c l]; [intros [= <- _]; exact I|].
  destruct (c =? 40); [intros [= <- _]; exact I|]. destruct (c =? 41); [intros [= <- _]; exact I|].
  destruct (c =? 39); [intros [= <- _]; exact I|]. destruct (c =? 96); [intros [= <- _]; exact I|].
  destruct (c =? 123).
  { unfold lex_number. destruct (expect_octet _ _) as [[? ?]|]; [|intros [= <- _]; exact I].
    destruct (expect_octet _ _) as [[? ?]|]; [|intros [= <- _]; exact I].
    destruct (expect_octet _ _) as [[? ?]|]; [|intros [= <- _]; exact I]. apply number_loop_textual. }
  destruct (isdigit c).
  { unfold lex_semver.
    destruct (semver_number _) as [[[?|] ?]| | | | |]; cbn [obind]; try discriminate; [|intros [= <- _]; exact I].
    destruct (expect_octet _ _) as [[? ?]|]; [|intros [= <- _]; exact I].
    destruct (semver_number _) as [[[?|] ?]| | | | |]; cbn [obind]; try discriminate; [|intros [= <- _]; exact I].
    destruct (expect_octet _ _) as [[? ?]|]; [|intros [= <- _]; exact I].
    destruct (semver_number _) as [[[?|] ?]| | | | |]; cbn [obind]; try discriminate; intros [= <- _]; exact I. }
  destruct (c =? 91); [apply string_loop_textual|].
  destruct (c =? 124) eqn:E0.
  { unfold lex_char. rewrite E0. destruct (until_bar l []) as [[s t']|]; [|intros [= <- _]; exact I].
    destruct (char_token s) eqn:E; cbn [obind]; try discriminate. intros [= <- _]. eapply char_token_textual; eassumption. }
  unfold lex_symbol. destruct (symbol_chars (c :: l)) as [s r']. destruct s as [|a s]; [intros [= <- _]; exact I|].
  destruct (eqb_list _ _); [intros [= <- _]; exact I|]. destruct (eqb_list _ _); [intros [= <- _]; exact I|].
  destruct (eqb_list _ _); [intros [= <- _]; exact I|].
  destruct (via_cstr (a :: s)) eqn:E; cbn [obind]; try discriminate. intros [= <- _]. eapply via_cstr_textual; eassumption.
Qed.
Lemma lex_fuel_textual f l t r : lex_fuel f l = Ret (t, r) -> token_textual t.
Proof.
  revert l; induction f as [|f IH]; intros l; cbn [lex_fuel];
    (destruct (skip_ws l) as [|c l']; [intros [= <- _]; exact I|]);
    (destruct (c =? 59); [try discriminate; try apply IH|]);
    (destruct ((c =? 35) && _); [|apply lex_token_textual]);
    (destruct (comment_end _); [try discriminate; try apply IH|intros [= <- _]; exact I]).
Qed.
Lemma lex_textual l t r : lex l = Ret (t, r) -> token_textual t.
Proof. apply lex_fuel_textual. Qed.

(** *** Termination *)
Lemma parse_fuel_ok f :
  (forall t l, (2 * length l + 2 <= f)%nat -> match parse_token f t l with
     | NoFuel => False | Ret (_, r) => suffix r l | _ => True end) /\
  (forall acc l, (2 * length l + 1 <= f)%nat -> match parse_list f acc l with
     | NoFuel => False | Ret (_, r) => suffix r l | _ => True end).
Proof.
  induction f as [|f [IHt IHl]]; [split; intros; lia|]. split.
  - intros [tk|] l Hf; cbn [parse_token]; [|apply suffix_refl].
    assert (Q : match obind (lex l) (fun r => parse_token f (fst r) (snd r)) with
                | NoFuel => False | Ret (_, r) => suffix r l | _ => True end).
    { pose proof (lex_lex_ok l) as HL. destruct (lex l) as [[t r]| | | | |] eqn:E; cbn [obind fst snd]; auto.
      destruct HL as [H1 H2]. pose proof (suffix_length _ _ H1).
      destruct t as [tk'|].
      - assert (HP : tk' = TError \/ (length r < length l)%nat) by (destruct tk'; auto).
        destruct HP as [->|HP].
        + destruct f; [lia|]. cbn [parse_token]. assumption.
        + specialize (IHt (Some tk') r ltac:(lia)).
          destruct (parse_token f _ r) as [[? ?]| | | | |]; auto. eapply suffix_trans; eassumption.
      - destruct f; [lia|]. cbn [parse_token]. assumption. }
    assert (T : forall s k, match from_cstr s k l with
                | NoFuel => False | Ret (_, r) => suffix r l | _ => True end).
    { intros s k. unfold from_cstr. pose proof (via_cstr_fuel s). destruct (via_cstr s); cbn [obind]; auto with sfx. }
    destruct tk; try apply suffix_refl; try apply T.
    + apply IHl. lia.
    + destruct (lex l) as [[t r]| | | | |]; cbn [obind fst snd] in *; auto.
      destruct (parse_token f t r) as [[[v|] q]| | | | |]; cbn [obind fst snd]; auto. destruct v; auto.
    + destruct (lex l) as [[t r]| | | | |]; cbn [obind fst snd] in *; auto.
      destruct (parse_token f t r) as [[[v|] q]| | | | |]; cbn [obind fst snd]; auto. destruct v; auto.
  - intros acc l Hf. cbn [parse_list]. pose proof (lex_lex_ok l) as HL.
    destruct (lex l) as [[t r]| | | | |]; cbn [obind fst snd]; auto.
    destruct HL as [H1 H2]. destruct t as [tk|]; [|assumption].
    assert (G : tk <> TError -> match obind (parse_token f (Some tk) r) (fun q =>
              match fst q with
              | None => Ret (Some SErr, snd q)
              | Some SErr => Ret (Some SErr, snd q)
              | Some v => parse_list f (v :: acc) (snd q)
              end) with NoFuel => False | Ret (_, r) => suffix r l | _ => True end).
    { intro Hne. assert (HP : (length r < length l)%nat) by (destruct tk; auto; congruence).
      specialize (IHt (Some tk) r ltac:(lia)).
      destruct (parse_token f (Some tk) r) as [[v q]| | | | |]; cbn [obind fst snd]; auto.
      assert (Hq : suffix q l) by (eapply suffix_trans; eassumption).
      pose proof (suffix_length _ _ IHt).
      assert (R : forall w, match parse_list f (w :: acc) q with
                 | NoFuel => False | Ret (_, r) => suffix r l | _ => True end).
      { intro w. specialize (IHl (w :: acc) q ltac:(lia)).
        destruct (parse_list f (w :: acc) q) as [[? ?]| | | | |]; auto. eapply suffix_trans; eassumption. }
      destruct v as [[]|]; auto; apply R. }
    destruct tk; try (apply G; discriminate); assumption.
Qed.

(** *** Fuel monotonicity *)
Lemma parse_mono f :
  (forall t l x, parse_token f t l = x -> x <> NoFuel -> parse_token (S f) t l = x) /\
  (forall acc l x, parse_list f acc l = x -> x <> NoFuel -> parse_list (S f) acc l = x).
Proof.
  induction f as [|f [IHt IHl]]; [split; intros; cbn in *; congruence|]. split.
  - intros t l x H Hx.
    assert (M : forall t l, parse_token f t l <> NoFuel -> parse_token (S f) t l = parse_token f t l)
      by (intros; apply IHt; auto).
    destruct t as [tk|]; [|exact H].
    change (parse_token (S (S f)) (Some tk) l) with
      (match tk with
          | TLParen => parse_list (S f) [] l
          | TQuote =>
              obind (lex l) (fun r => obind (parse_token (S f) (fst r) (snd r)) (fun q =>
                match fst q with
                | None => Ret (None, snd q)
                | Some SErr => Ret (Some SErr, snd q)
                | Some v => Ret (Some (SVec [sym_quote; v]), snd q)
                end))
          | TBackQuote =>
              obind (lex l) (fun r => obind (parse_token (S f) (fst r) (snd r)) (fun q =>
                match fst q with
                | None => Ret (None, snd q)
                | Some SErr => Ret (Some SErr, snd q)
                | Some (SVec vs) => Ret (Some (SVec (sym_template :: vs)), snd q)
                | Some v => Ret (Some (SVec [sym_template; v]), snd q)
                end))
          | TTrue => Ret (Some (SBool true), l)
          | TFalse => Ret (Some (SBool false), l)
          | TNil => Ret (Some SNil, l)
          | TInt z => Ret (Some (SInt z), l)
          | TReal r => Ret (Some (SReal r), l)
          | TString s => from_cstr s SStr l
          | TChar s => from_cstr s SChar l
          | TSymbol s => from_cstr s SSym l
          | TSemver a b c => Ret (Some (SSemver a b c), l)
          | TError => Ret (Some SErr, l)
          | TMore => Ret (None, l)
          | TRParen => Ret (Some SErr, l)
          end).
    cbn [parse_token] in H.
    destruct tk; try exact H.
    + apply IHl; assumption.
    + destruct (lex l) as [[t r]| | | | |]; cbn [obind fst snd] in *; auto.
      rewrite M; [assumption|]. intro E. rewrite E in H. cbn in H. congruence.
    + destruct (lex l) as [[t r]| | | | |]; cbn [obind fst snd] in *; auto.
      rewrite M; [assumption|]. intro E. rewrite E in H. cbn in H. congruence.
  - intros acc l x H Hx.
    change (parse_list (S (S f)) acc l) with
     (obind (lex l) (fun r =>
        match fst r with
        | None => Ret (Some SErr, snd r)
        | Some TError => Ret (Some SErr, snd r)
        | Some TRParen => Ret (Some (SVec (rev acc)), snd r)
        | Some t =>
            obind (parse_token (S f) (Some t) (snd r)) (fun q =>
              match fst q with
              | None => Ret (Some SErr, snd q)
              | Some SErr => Ret (Some SErr, snd q)
              | Some v => parse_list (S f) (v :: acc) (snd q)
              end)
        end)).
    cbn [parse_list] in H. destruct (lex l) as [[t r]| | | | |]; cbn [obind fst snd] in *; auto.
    destruct t as [tk|]; [|assumption].
    assert (G : obind (parse_token f (Some tk) r) (fun q =>
              match fst q with
              | None => Ret (Some SErr, snd q)
              | Some SErr => Ret (Some SErr, snd q)
              | Some v => parse_list f (v :: acc) (snd q)
              end) = x -> obind (parse_token (S f) (Some tk) r) (fun q =>
              match fst q with
              | None => Ret (Some SErr, snd q)
              | Some SErr => Ret (Some SErr, snd q)
              | Some v => parse_list (S f) (v :: acc) (snd q)
              end) = x).
    { clear H. intro H. destruct (parse_token f (Some tk) r) as [[v q]| | | | |] eqn:E;
        (rewrite (IHt _ _ _ E) by (try discriminate; cbn in H; congruence)); cbn [obind fst snd] in *; auto;
        try exact H.
      destruct v as [[]|]; auto. }
    destruct tk; auto.
Qed.

Lemma parse_token_mono f g t l x :
  parse_token f t l = x -> x <> NoFuel -> (f <= g)%nat -> parse_token g t l = x.
Proof. intros H Hx Hle. induction Hle; [assumption|]. now apply parse_mono. Qed.
Lemma parse_list_mono f g acc l x :
  parse_list f acc l = x -> x <> NoFuel -> (f <= g)%nat -> parse_list g acc l = x.
Proof. intros H Hx Hle. induction Hle; [assumption|]. now apply parse_mono. Qed.

Lemma parse_no_fuel l : parse l <> NoFuel.
Proof.
  unfold parse. pose proof (lex_lex_ok l) as HL. destruct (lex l) as [[t r]| | | | |]; cbn [obind fst snd]; try discriminate; [|contradiction].
  destruct HL as [H1 _]. apply suffix_length in H1.
  pose proof (proj1 (parse_fuel_ok (2 * length l + 2)) t r ltac:(lia)) as K. intro E. rewrite E in K. exact K.
Qed.

(** Fuel found anywhere is as good as the fuel of [parse]. *)
Lemma parse_some_fuel l t r f x :
  lex l = Ret (t, r) -> parse_token f t r = x -> x <> NoFuel -> parse l = x.
Proof.
  intros HL HP Hx. pose proof (parse_no_fuel l) as HN. unfold parse in *. rewrite HL in *. cbn [obind fst snd] in *.
  destruct (Nat.le_ge_cases f (2 * length l + 2)) as [Hle|Hle].
  - eapply parse_token_mono; eauto.
  - pose proof (parse_token_mono _ f t r _ eq_refl HN Hle) as K. congruence.
Qed.

(** *** Soundness *)
Lemma reads_app l ts r ts' r' : reads l ts r -> reads r ts' r' -> reads l (ts ++ ts') r'.
Proof. induction 1 as [|l t l1 ts r E H IH]; intro K; [assumption|]. cbn [app]. econstructor; eauto. Qed.

Lemma from_cstr_ret s k l v r : textual s -> from_cstr s k l = Ret (Some v, r) -> v = k s /\ r = l.
Proof. intros H. unfold from_cstr. rewrite via_cstr_ok by assumption. cbn. intros [= <- <-]. auto. Qed.

Lemma parse_sound f :
  (forall t l v r, token_textual t -> parse_token f t l = Ret (Some v, r) -> v <> SErr ->
     exists tk ts, t = Some tk /\ reads l ts r /\ form (tk :: ts) v) /\
  (forall acc l v r, parse_list f acc l = Ret (Some v, r) -> v <> SErr ->
     exists ts vs, reads l (ts ++ [TRParen]) r /\ forms ts vs /\ v = SVec (rev acc ++ vs)).
Proof.
  induction f as [|f [IHt IHl]]; [split; intros; discriminate|]. split.
  - intros [tk|] l v r HT H Hv; cbn [parse_token] in H; [|discriminate]. exists tk.
    destruct tk; try discriminate H.
    all: try congruence.
    all: try (injection H as <- <-; exists []; split; [reflexivity|]; split; [constructor|]; constructor; fail).
    all: try (apply from_cstr_ret in H as [-> ->]; [|exact HT]; exists []; split; [reflexivity|]; split; constructor; fail).
    + apply IHl in H as (ts & vs & H1 & H2 & ->); [|assumption]. exists (ts ++ [TRParen]).
      split; [reflexivity|]. split; [assumption|]. now constructor.
    + destruct (lex l) as [[t l1]| | | | |] eqn:E; cbn [obind fst snd] in *; try discriminate.
      destruct (parse_token f t l1) as [[[v'|] q]| | | | |] eqn:E2; cbn [obind fst snd] in *; try discriminate.
      assert (Hv' : v' <> SErr) by (intros ->; congruence).
      destruct (IHt t l1 v' q (lex_textual _ _ _ E) E2 Hv') as (tk & ts & -> & R & F).
      exists (tk :: ts). split; [reflexivity|].
      assert (H' : Ret (Some (SVec [sym_quote; v']), q) = Ret (Some v, r)) by (destruct v'; auto; congruence).
      injection H' as <- <-. split; [econstructor; eassumption|]. now constructor.
    + destruct (lex l) as [[t l1]| | | | |] eqn:E; cbn [obind fst snd] in *; try discriminate.
      destruct (parse_token f t l1) as [[[v'|] q]| | | | |] eqn:E2; cbn [obind fst snd] in *; try discriminate.
      assert (Hv' : v' <> SErr) by (intros ->; congruence).
      destruct (IHt t l1 v' q (lex_textual _ _ _ E) E2 Hv') as (tk & ts & -> & R & F).
      exists (tk :: ts). split; [reflexivity|].
      destruct v'; try congruence; injection H as <- <-; (split; [econstructor; eassumption|]);
        try (apply f_template_vec; assumption); (apply f_template; [assumption|discriminate]).
  - intros acc l v r H Hv. cbn [parse_list] in H.
    destruct (lex l) as [[t l1]| | | | |] eqn:E; cbn [obind fst snd] in *; try discriminate.
    destruct t as [tk|]; [|congruence].
    assert (HR : tk = TRParen \/ obind (parse_token f (Some tk) l1) (fun q =>
              match fst q with
              | None => Ret (Some SErr, snd q)
              | Some SErr => Ret (Some SErr, snd q)
              | Some v => parse_list f (v :: acc) (snd q)
              end) = Ret (Some v, r)) by (destruct tk; auto; congruence).
    destruct HR as [->|HR].
    + injection H as <- <-. exists [], []. rewrite app_nil_r. split; [|split; [constructor|reflexivity]].
      cbn [app]. econstructor; [eassumption|constructor].
    + clear H. destruct (parse_token f (Some tk) l1) as [[[v'|] q]| | | | |] eqn:E2; cbn [obind fst snd] in *; try discriminate; [|congruence].
      assert (Hv' : v' <> SErr) by (intros ->; congruence).
      destruct (IHt (Some tk) l1 v' q (lex_textual _ _ _ E) E2 Hv') as (tk0 & ts & [= <-] & R & F).
      assert (HR' : parse_list f (v' :: acc) q = Ret (Some v, r)) by (destruct v'; auto; congruence).
      apply IHl in HR' as (ts' & vs & R' & F' & ->); [|assumption].
      exists ((tk :: ts) ++ ts'), (v' :: vs). split; [|split; [constructor; assumption|]].
      * rewrite <- app_assoc. cbn [app]. econstructor; [eassumption|]. eapply reads_app; eassumption.
      * cbn [rev]. now rewrite <- app_assoc.
Qed.

Theorem parse_soundness l v r : parse l = Ret (Some v, r) -> v <> SErr ->
  exists ts, reads l ts r /\ form ts v.
Proof.
  unfold parse. destruct (lex l) as [[t l1]| | | | |] eqn:E; cbn [obind fst snd]; try discriminate.
  intros H Hv. destruct (proj1 (parse_sound _) t l1 v r (lex_textual _ _ _ E) H Hv) as (tk & ts & -> & R & F).
  exists (tk :: ts). split; [econstructor; eassumption|assumption].
Qed.

(** *** Completeness *)
Lemma reads_app_inv l ts ts' r : reads l (ts ++ ts') r -> exists m, reads l ts m /\ reads m ts' r.
Proof.
  revert l; induction ts as [|t ts IH]; intros l H; [exists l; split; [constructor|assumption]|].
  cbn [app] in H. inversion H; subst. destruct (IH _ H5) as (m & R1 & R2).
  exists m. split; [econstructor; eassumption|assumption].
Qed.

Lemma form_not_rparen t ts v : form (t :: ts) v -> t <> TRParen /\ t <> TError.
Proof. intro H. inversion H; subst; split; discriminate. Qed.
Lemma form_nonempty v : ~ form [] v.
Proof. intro H; inversion H. Qed.
Lemma form_not_err ts v : form ts v -> v <> SErr.
Proof. intro H; inversion H; discriminate. Qed.

Scheme form_ind2 := Induction for form Sort Prop with forms_ind2 := Induction for forms Sort Prop.
Combined Scheme form_mut from form_ind2, forms_ind2.

Lemma from_cstr_ok s k l : textual s -> from_cstr s k l = Ret (Some (k s), l).
Proof. intros H. unfold from_cstr. now rewrite via_cstr_ok. Qed.

Lemma parse_complete_mut :
  (forall ts v, form ts v -> forall t ts' l r, ts = t :: ts' -> token_textual (Some t) -> reads l ts' r ->
     exists f, parse_token f (Some t) l = Ret (Some v, r)) /\
  (forall ts vs, forms ts vs -> forall acc l m r, reads l ts m -> lex m = Ret (Some TRParen, r) ->
     exists f, parse_list f acc l = Ret (Some (SVec (rev acc ++ vs)), r)).
Proof.
  apply (form_mut
    (fun ts v _ => forall t ts' l r, ts = t :: ts' -> token_textual (Some t) -> reads l ts' r ->
       exists f, parse_token f (Some t) l = Ret (Some v, r))
    (fun ts vs _ => forall acc l m r, reads l ts m -> lex m = Ret (Some TRParen, r) ->
       exists f, parse_list f acc l = Ret (Some (SVec (rev acc ++ vs)), r))).
  1-9: intros; match goal with H : _ = _ :: _ |- _ => injection H as <- <- end;
       match goal with H : reads _ [] _ |- _ => inversion H; subst end;
       exists 1%nat; cbn [parse_token]; first [reflexivity | apply from_cstr_ok; assumption].
  - intros ts v F IH t ts' l r [= <- <-] _ R.
    destruct ts as [|t ts]; [now apply form_nonempty in F|].
    inversion R; subst. destruct (IH t ts _ _ eq_refl (lex_textual _ _ _ H2) H4) as [f Hf].
    exists (S f). cbn [parse_token]. rewrite H2. cbn [obind fst snd]. rewrite Hf. cbn [obind fst snd].
    apply form_not_err in F. destruct v; congruence.
  - intros ts vs F IH t ts' l r [= <- <-] _ R.
    destruct ts as [|t ts]; [now apply form_nonempty in F|].
    inversion R; subst. destruct (IH t ts _ _ eq_refl (lex_textual _ _ _ H2) H4) as [f Hf].
    exists (S f). cbn [parse_token]. rewrite H2. cbn [obind fst snd]. rewrite Hf. reflexivity.
  - intros ts v F IH Hnv t ts' l r [= <- <-] _ R.
    destruct ts as [|t ts]; [now apply form_nonempty in F|].
    inversion R; subst. destruct (IH t ts _ _ eq_refl (lex_textual _ _ _ H2) H4) as [f Hf].
    exists (S f). cbn [parse_token]. rewrite H2. cbn [obind fst snd]. rewrite Hf. cbn [obind fst snd].
    apply form_not_err in F. destruct v; congruence.
  - intros ts vs F IH t ts' l r [= <- <-] _ R.
    apply reads_app_inv in R as (m & R1 & R2). inversion R2; subst. inversion H4; subst.
    destruct (IH [] l m r R1 H2) as [f Hf]. exists (S f). cbn [parse_token]. exact Hf.
  - intros acc l m r R HL. inversion R; subst. exists 1%nat. cbn [parse_list]. rewrite HL. cbn [obind fst snd].
    now rewrite app_nil_r.
  - intros ts v ts' vs F IH Fs IHs acc l m r R HL.
    apply reads_app_inv in R as (m1 & R1 & R2).
    destruct ts as [|t ts]; [now apply form_nonempty in F|].
    inversion R1; subst.
    destruct (IH t ts _ _ eq_refl (lex_textual _ _ _ H2) H4) as [f1 Hf1].
    destruct (IHs (v :: acc) m1 m r R2 HL) as [f2 Hf2].
    exists (S (Nat.max f1 f2)). cbn [parse_list]. rewrite H2. cbn [obind fst snd].
    apply (parse_token_mono _ (Nat.max f1 f2)) in Hf1; [|discriminate|lia].
    apply (parse_list_mono _ (Nat.max f1 f2)) in Hf2; [|discriminate|lia].
    cbn [rev] in Hf2. rewrite <- app_assoc in Hf2. cbn [app] in Hf2.
    destruct (form_not_rparen _ _ _ F) as [N1 N2]. apply form_not_err in F.
    rewrite Hf1. cbn [obind fst snd].
    assert (G : match v with SErr => Ret (Some SErr, m1) | _ => parse_list (Nat.max f1 f2) (v :: acc) m1 end
            = Ret (Some (SVec (rev acc ++ v :: vs)), r)) by (destruct v; congruence).
    destruct t; try congruence; exact G.
Qed.

Theorem parse_completeness l ts v r : reads l ts r -> form ts v -> parse l = Ret (Some v, r).
Proof.
  intros R F. destruct ts as [|t ts]; [now apply form_nonempty in F|]. inversion R; subst.
  destruct (proj1 parse_complete_mut _ _ F t ts _ _ eq_refl (lex_textual _ _ _ H2) H4) as [f Hf].
  eapply parse_some_fuel; eauto. discriminate.
Qed.
