(** Facts about the lexer. *)
From Coq Require Import List NArith ZArith Bool Lia Arith.
From Coq Require Import ZifyBool ZifyNat ZifyN.
From Coq Require Import Floats.SpecFloat.
From Verif Require Import Base ListLemmas Utf8 SpecText Utf8Proofs OString OStringProofs Base64 Input Lexer.
Import ListNotations.
Local Open Scope N_scope.

(** *** Texts rendered as C strings *)
Definition scalarb (c : N) : bool := (c <=? 0x10FFFF) && negb ((0xD800 <=? c) && (c <=? 0xDFFF)).
Lemma scalarb_spec c : scalarb c = true <-> scalar c.
Proof. unfold scalarb, scalar. lia. Qed.

Fixpoint good (l : list N) : list N :=
  match l with
  | [] => []
  | c :: t => if scalarb c && negb (c =? 0) then c :: good t else []
  end.

Definition textual (l : list N) : Prop := Forall scalar l /\ ~ In 0 l.

Lemma textual_cons c l : textual (c :: l) <-> (scalar c /\ c <> 0) /\ textual l.
Proof.
  unfold textual. rewrite Forall_cons_iff. cbn [In].
  split; [intros [[A B] C]; split; [split|split]; auto | intros [[A B] [C D]]; split; [auto|]; intros [K|K]; auto].
Qed.
Lemma textual_nil : textual [].
Proof. split; [constructor | intros []]. Qed.
Lemma textual_app a b : textual (a ++ b) <-> textual a /\ textual b.
Proof.
  induction a as [|c a IH]; [pose proof textual_nil; tauto|].
  cbn [app]. rewrite !textual_cons, IH. tauto.
Qed.

Lemma good_textual l : textual (good l).
Proof.
  induction l as [|c l IH]; [apply textual_nil|]. cbn [good].
  destruct (scalarb c && negb (c =? 0)) eqn:E; [|apply textual_nil].
  rewrite textual_cons, <- scalarb_spec. split; [split; [destruct (scalarb c); [reflexivity|discriminate] | lia] | apply IH].
Qed.
Lemma good_id l : textual l -> good l = l.
Proof.
  induction l as [|c l IH]; intro H; [reflexivity|]. rewrite textual_cons, <- scalarb_spec in H.
  destruct H as [[H1 H2] H3]. cbn [good]. rewrite H1. replace (c =? 0) with false by lia.
  cbn. f_equal. apply IH, H3.
Qed.
Lemma textual_decodable l : textual l -> Forall decodable l.
Proof.
  intros [H1 H2]. apply Forall_forall. intros c Hc. apply scalar_decodable.
  - rewrite Forall_forall in H1. auto.
  - intros ->. auto.
Qed.

Lemma cstr_app a b : ~ In 0 a -> cstr (a ++ b) = a ++ cstr b.
Proof.
  induction a as [|o a IH]; intro H; [reflexivity|]. cbn [cstr app].
  destruct (o =? 0) eqn:E; [exfalso; apply H; left; lia|].
  f_equal. apply IH. intro; apply H; right; assumption.
Qed.

Lemma cstr_encode l : cstr (encode_octets l) = utf8_text (good l).
Proof.
  induction l as [|c l IH]; [reflexivity|]. cbn [encode_octets good].
  destruct (scalarb c) eqn:E.
  - apply scalarb_spec in E. destruct (encode_character_scalar c E) as (u & -> & -> & _).
    cbn [andb]. destruct (N.eqb_spec c 0) as [->|Hc]; [reflexivity|]. cbn [negb].
    rewrite cstr_app by (apply utf8_nonzero; lia). now rewrite IH, utf8_text_cons.
  - rewrite encode_character_nonscalar; [reflexivity|]. rewrite <- scalarb_spec. congruence.
Qed.

Lemma from_good l : textual l -> str_from_buffer (utf8_text l) = Some (mkStr l [] None).
Proof.
  intros H. apply textual_decodable in H. unfold str_from_buffer.
  destruct (decode_loop_spec (length (utf8_text l)) (utf8_text l) 0) as (l' & r & HP & ->);
    [apply utf8_text_octets; assumption | lia |].
  destruct (longest_prefix_unique _ _ _ _ _ HP (longest_prefix_text l H)) as [-> ->]. reflexivity.
Qed.

Lemma via_cstr_cases l : via_cstr l = Ret (good l) \/ via_cstr l = Abort.
Proof.
  unfold via_cstr, str_get_c_string, str_ensure. cbn [oct ucs err].
  pose proof (cstr_encode l) as E. pose proof (good_textual l) as G.
  destruct (encode_octets l) as [|o t] eqn:Eo.
  - left. cbn [obind snd cstr N.eqb]. cbn [cstr] in E.
    change (str_from_buffer []) with (str_from_buffer (cstr [])). cbn [cstr]. rewrite E, from_good by assumption. reflexivity.
  - cbn [oct]. destruct (last (o :: t) 1 =? 0); [left|right; reflexivity].
    cbn [obind snd]. rewrite E, from_good by assumption. reflexivity.
Qed.

Lemma via_cstr_ok l : textual l -> via_cstr l = Ret l.
Proof.
  intros H. unfold via_cstr, str_get_c_string, str_ensure. cbn [oct ucs err].
  pose proof (cstr_encode l) as E. rewrite (good_id l H) in E.
  rewrite encode_octets_scalar by apply H. rewrite encode_octets_scalar in E by apply H.
  destruct (utf8_text l ++ [0]) as [|o t] eqn:Eo; [now apply app_eq_nil in Eo|].
  cbn [oct]. rewrite <- Eo in *. rewrite last_app_nul. cbn [N.eqb obind snd].
  rewrite E, from_good by assumption. reflexivity.
Qed.

Lemma via_cstr_textual l s : via_cstr l = Ret s -> textual s.
Proof. destruct (via_cstr_cases l) as [-> | ->]; [|discriminate]. intros [= <-]. apply good_textual. Qed.
Lemma via_cstr_fuel l : via_cstr l <> NoFuel.
Proof. destruct (via_cstr_cases l) as [-> | ->]; discriminate. Qed.

(** *** Suffixes *)
Definition suffix (r l : list N) : Prop := exists p, l = p ++ r.
Lemma suffix_refl l : suffix l l.
Proof. exists []; reflexivity. Qed.
Lemma suffix_trans a b c : suffix a b -> suffix b c -> suffix a c.
Proof. intros [p ->] [q ->]. exists (q ++ p). apply app_assoc. Qed.
Lemma suffix_cons c r l : suffix r l -> suffix r (c :: l).
Proof. intros [p ->]. exists (c :: p). reflexivity. Qed.
Lemma suffix_nil l : suffix [] l.
Proof. exists l. now rewrite app_nil_r. Qed.
Lemma suffix_length r l : suffix r l -> (length r <= length l)%nat.
Proof. intros [p ->]. rewrite app_length. lia. Qed.
#[global] Hint Resolve suffix_refl suffix_cons suffix_nil : sfx.

Lemma skip_ws_suffix l : suffix (skip_ws l) l.
Proof. induction l as [|c l IH]; cbn [skip_ws]; auto with sfx. destruct (isspace c); auto with sfx. Qed.
Lemma rest_of_line_suffix l : suffix (rest_of_line l) l.
Proof. induction l as [|c l IH]; cbn [rest_of_line]; auto with sfx. destruct (c =? 10); auto with sfx. Qed.
Lemma comment_end_suffix l r : comment_end l = Some r -> suffix r l.
Proof.
  induction l as [|c l IH]; cbn [comment_end]; [discriminate|].
  destruct (c =? 33); [|intro H; auto with sfx].
  destruct l as [|d l]; [discriminate|]. destruct (d =? 35); [intros [= ->]; auto with sfx|].
  intro H; auto with sfx.
Qed.

(** What every lexing function promises: the rest is a suffix, strictly shorter
    for a token that is not an error. *)
Definition shorter (r l : list N) : Prop := suffix r l /\ (length r < length l)%nat.
Definition lex_ok (l : list N) (x : lexed) : Prop :=
  match x with
  | Ret (t, r) => suffix r l /\ (match t with None | Some TError => True | _ => (length r < length l)%nat end)
  | NoFuel => False
  | _ => True
  end.

Lemma lex_ok_weaken a l x : suffix a l -> lex_ok a x -> lex_ok l x.
Proof.
  intros H. destruct x as [[t r]| | | | |]; cbn; auto. intros [H1 H2]. split; [eapply suffix_trans; eauto|].
  apply suffix_length in H. destruct t as [[]|]; auto; lia.
Qed.

(** Any token is fine once something was consumed. *)
Definition lex_after (l : list N) (x : lexed) : Prop :=
  match x with Ret (_, r) => suffix r l | NoFuel => False | _ => True end.
Lemma lex_after_cons c l x : lex_after l x -> lex_ok (c :: l) x.
Proof.
  destruct x as [[t r]| | | | |]; cbn; auto. intro H. split; [auto with sfx|].
  apply suffix_length in H. cbn [length]. destruct t as [[]|]; auto; lia.
Qed.
Lemma lex_after_suffix a l x : suffix a l -> lex_after a x -> lex_after l x.
Proof. intros H. destruct x as [[t r]| | | | |]; cbn; auto. intro. eapply suffix_trans; eauto. Qed.

Lemma sum_digits_fuel base ds i v : sum_digits base ds i v <> NoFuel.
Proof.
  revert i v; induction ds as [|c ds IH]; intros i v; cbn [sum_digits]; [discriminate|].
  unfold digit_term. destruct (_ <? two64); cbn [obind]; [apply IH|discriminate].
Qed.
Lemma finish_number_fuel base neg dot frac ds prev : finish_number base neg dot frac ds prev <> NoFuel.
Proof.
  unfold finish_number. destruct (prev =? 46); [discriminate|].
  destruct (sum_digits base ds 0 0) eqn:E; cbn [obind]; try discriminate.
  - destruct dot; [discriminate|]. destruct (in_int32 _); discriminate.
  - now apply sum_digits_fuel in E.
Qed.

Lemma number_loop_after l ws base neg dot frac chars ds prev :
  lex_after l (number_loop l ws base neg dot frac chars ds prev).
Proof.
  revert ws dot frac chars ds prev; induction l as [|c l IH]; intros; cbn [number_loop].
  - destruct ws; [apply suffix_refl|].
    pose proof (finish_number_fuel base neg dot frac ds prev).
    destruct (finish_number _ _ _ _ _ _); cbn; auto using suffix_refl.
  - destruct (isspace c); [eapply lex_after_suffix; [|apply IH]; auto with sfx|].
    destruct (c =? 46).
    { destruct dot; [apply suffix_refl|]. destruct (Nat.eqb chars 0); [apply suffix_refl|].
      eapply lex_after_suffix; [|apply IH]; auto with sfx. }
    destruct (isxdigit c).
    { destruct (Nat.leb 256 (length ds)); [exact I|]. destruct (digit_ok base c); [|apply suffix_refl].
      eapply lex_after_suffix; [|apply IH]; auto with sfx. }
    destruct (c =? 125); [|apply suffix_refl].
    pose proof (finish_number_fuel base neg dot frac ds prev).
    destruct (finish_number _ _ _ _ _ _); cbn; auto with sfx.
Qed.

Lemma expect_octet_some e l c r : expect_octet e l = Some (c, r) -> l = c :: r.
Proof. destruct l as [|d l]; cbn; [discriminate|]. destruct (_ || _); [|discriminate]. now intros [= -> ->]. Qed.

Lemma lex_number_ok l : lex_ok l (lex_number l).
Proof.
  unfold lex_number. destruct (expect_octet [123] l) as [[a l1]|] eqn:E1; [|split; [apply suffix_refl|exact I]].
  apply expect_octet_some in E1 as ->. apply lex_after_cons.
  destruct (expect_octet _ l1) as [[b l2]|] eqn:E2; [|apply suffix_refl].
  apply expect_octet_some in E2 as ->. apply (lex_after_suffix l2); [auto with sfx|].
  destruct (expect_octet _ l2) as [[s l3]|] eqn:E3; [|apply suffix_refl].
  apply expect_octet_some in E3 as ->. apply (lex_after_suffix l3); [auto with sfx|].
  apply number_loop_after.
Qed.

Lemma semver_digits_spec l ds r : semver_digits l ds = Ret r ->
  suffix (snd r) l /\ (length (snd r) + length (fst r) = length l + length ds)%nat.
Proof.
  revert ds; induction l as [|c l IH]; intros ds; cbn [semver_digits].
  - intros [= <-]. split; [apply suffix_refl|reflexivity].
  - destruct (isdigit c).
    + destruct (Nat.leb 256 (length ds)); [discriminate|]. intros H.
      apply IH in H as [H1 H2]. cbn [length] in *. split; [auto with sfx|lia].
    + intros [= <-]. split; [apply suffix_refl|reflexivity].
Qed.
Lemma semver_digits_fuel l ds : semver_digits l ds <> NoFuel.
Proof.
  revert ds; induction l as [|c l IH]; intros ds; cbn [semver_digits]; [discriminate|].
  destruct (isdigit c); [|discriminate]. destruct (Nat.leb _ _); [discriminate|apply IH].
Qed.
Lemma semver_number_fuel l : semver_number l <> NoFuel.
Proof.
  unfold semver_number. destruct (semver_digits l []) as [[ds r]| | | | |] eqn:E; cbn [obind fst snd]; try discriminate;
    [|now apply semver_digits_fuel in E].
  destruct ds as [|d ds]; [discriminate|]. destruct (sum_digits 10 (d :: ds) 0 0) eqn:E2; cbn [obind]; try discriminate.
  now apply sum_digits_fuel in E2.
Qed.
Lemma semver_number_spec l o r : semver_number l = Ret (o, r) ->
  suffix r l /\ (o <> None -> (length r < length l)%nat).
Proof.
  unfold semver_number. destruct (semver_digits l []) as [[ds r']| | | | |] eqn:E; cbn [obind fst snd]; try discriminate.
  apply semver_digits_spec in E as [H1 H2]. cbn [fst snd length] in *.
  destruct ds as [|d ds].
  - intros [= <- <-]. split; [assumption|congruence].
  - destruct (sum_digits _ _ _ _); cbn [obind]; try discriminate. intros [= <- <-].
    split; [assumption|]. intros _. cbn [length] in H2. lia.
Qed.

Lemma lex_semver_ok l : lex_ok l (lex_semver l).
Proof.
  unfold lex_semver.
  destruct (semver_number l) as [[[a|] l1]| | | | |] eqn:E1; cbn [obind]; try exact I;
    [| | now apply semver_number_fuel in E1].
  2: { apply semver_number_spec in E1 as [H _]. split; [assumption|exact I]. }
  apply semver_number_spec in E1 as [S1 L1]. specialize (L1 ltac:(discriminate)).
  destruct (expect_octet _ l1) as [[x l2]|] eqn:E2; [|split; [assumption|exact I]].
  apply expect_octet_some in E2 as ->.
  assert (S2 : suffix l2 l) by (eapply suffix_trans; [|exact S1]; auto with sfx).
  destruct (semver_number l2) as [[[b|] l3]| | | | |] eqn:E3; cbn [obind]; try exact I;
    [| | now apply semver_number_fuel in E3];
    apply semver_number_spec in E3 as [S3 _];
    assert (S3' : suffix l3 l) by (eapply suffix_trans; [exact S3|exact S2]).
  2: { split; [assumption|exact I]. }
  destruct (expect_octet _ l3) as [[y l4]|] eqn:E4; [|split; [assumption|exact I]].
  apply expect_octet_some in E4 as ->.
  assert (S4 : suffix l4 l) by (eapply suffix_trans; [|exact S3']; auto with sfx).
  destruct (semver_number l4) as [[[c|] l5]| | | | |] eqn:E5; cbn [obind]; try exact I;
    [| | now apply semver_number_fuel in E5];
    apply semver_number_spec in E5 as [S5 _];
    assert (S5' : suffix l5 l) by (eapply suffix_trans; [exact S5|exact S4]).
  2: { split; [assumption|exact I]. }
  split; [assumption|]. apply suffix_length in S5, S3. cbn [length] in *. lia.
Qed.

Lemma until_bar_spec l acc s r : until_bar l acc = Some (s, r) ->
  exists m, l = m ++ 124 :: r /\ ~ In 124 m /\ s = rev acc ++ m.
Proof.
  revert acc; induction l as [|c l IH]; intros acc; cbn [until_bar]; [discriminate|].
  destruct (N.eqb_spec c 124) as [->|Hc].
  - intros [= <- <-]. exists []. rewrite app_nil_r. auto.
  - intros H. apply IH in H as (m & -> & Hm & ->). exists (c :: m). cbn [rev In]. rewrite <- app_assoc.
    repeat split; auto. intros [K|K]; [congruence|auto].
Qed.
Lemma until_bar_found m r acc : ~ In 124 m -> until_bar (m ++ 124 :: r) acc = Some (rev acc ++ m, r).
Proof.
  revert acc; induction m as [|c m IH]; intros acc H; cbn [app until_bar].
  - now rewrite app_nil_r.
  - destruct (N.eqb_spec c 124) as [->|Hc]; [exfalso; apply H; left; reflexivity|].
    rewrite IH by (intro; apply H; right; assumption). cbn [rev]. now rewrite <- app_assoc.
Qed.
Lemma until_bar_none l acc : ~ In 124 l -> until_bar l acc = None.
Proof.
  revert acc; induction l as [|c l IH]; intros acc H; cbn [until_bar]; [reflexivity|].
  destruct (N.eqb_spec c 124) as [->|Hc]; [exfalso; apply H; left; reflexivity|].
  apply IH. intro; apply H; right; assumption.
Qed.

Lemma get_c_string_fuel s : str_get_c_string s <> NoFuel.
Proof. unfold str_get_c_string. destruct (oct (str_ensure s)); [discriminate|]. destruct (_ =? 0); discriminate. Qed.
Lemma char_token_fuel s : char_token s <> NoFuel.
Proof.
  unfold char_token. pose proof (via_cstr_fuel s). destruct s as [|a [|b s]]; [discriminate| |].
  - destruct (via_cstr [a]); cbn [obind]; congruence.
  - destruct (named_char _); [discriminate|].
    pose proof (get_c_string_fuel (mkStr (a :: b :: s) [] None)).
    destruct (str_get_c_string _); cbn [obind]; try congruence.
    destruct (Nat.eqb _ _); [|discriminate]. destruct (Nat.ltb _ _); [discriminate|].
    pose proof (via_cstr_fuel [hex_value (a :: b :: s)]). destruct (via_cstr [_]); cbn [obind]; congruence.
Qed.

Lemma lex_char_ok l : lex_ok l (lex_char l).
Proof.
  unfold lex_char. destruct l as [|c l]; [split; [apply suffix_refl|exact I]|].
  destruct (c =? 124); [|split; [apply suffix_refl|exact I]].
  apply lex_after_cons. destruct (until_bar l []) as [[s t]|] eqn:E; [|apply suffix_nil].
  apply until_bar_spec in E as (m & -> & _ & ->). pose proof (char_token_fuel (rev [] ++ m)).
  destruct (char_token _); cbn; auto. exists (m ++ [124]). now rewrite <- app_assoc.
Qed.

Lemma string_loop_after l esc acc : lex_after l (string_loop l esc acc).
Proof.
  revert esc acc; induction l as [|c l IH]; intros esc acc; cbn [string_loop].
  - destruct esc; apply suffix_refl.
  - assert (IH' : forall e a, lex_after (c :: l) (string_loop l e a))
      by (intros; eapply lex_after_suffix; [|apply IH]; auto with sfx).
    destruct esc as [e|].
    + destruct (c =? 124); [|apply IH'].
      pose proof (char_token_fuel (rev e)). destruct (char_token (rev e)) as [tk| | | | |]; cbn [obind lex_after]; auto.
      destruct tk; try (cbn; auto with sfx; fail). destruct s as [|x s]; [exact I|apply IH'].
    + destruct (c =? 93).
      { pose proof (via_cstr_fuel (rev acc)).
        destruct l as [|d l']; [|destruct (is_delim d)]; [..|cbn; auto with sfx];
        destruct (via_cstr (rev acc)); cbn; auto with sfx. }
      destruct (c =? 124); apply IH'.
Qed.

Lemma symbol_chars_spec l s r : symbol_chars l = (s, r) ->
  l = s ++ r /\ Forall (fun c => is_delim c = false) s /\ (match r with [] => True | c :: _ => is_delim c = true end).
Proof.
  revert s r; induction l as [|c l IH]; intros s r; cbn [symbol_chars]; [intros [= <- <-]; auto|].
  destruct (is_delim c) eqn:E; [intros [= <- <-]; auto|].
  destruct (symbol_chars l) as [s' r'] eqn:E'. intros [= <- <-].
  destruct (IH _ _ eq_refl) as (-> & H & H'). split; [reflexivity|]. split; [constructor; assumption|assumption].
Qed.
Lemma symbol_chars_found s r : Forall (fun c => is_delim c = false) s ->
  (match r with [] => True | c :: _ => is_delim c = true end) -> symbol_chars (s ++ r) = (s, r).
Proof.
  induction s as [|c s IH]; intros H Hr.
  - destruct r as [|c r]; [reflexivity|]. cbn [app symbol_chars]. now rewrite Hr.
  - inversion H; subst. cbn [app symbol_chars]. rewrite H2, IH by assumption. reflexivity.
Qed.

Lemma lex_symbol_ok l : lex_ok l (lex_symbol l).
Proof.
  unfold lex_symbol. destruct (symbol_chars l) as [s r] eqn:E. apply symbol_chars_spec in E as (-> & _ & _).
  destruct s as [|c s]; [split; [apply suffix_refl|exact I]|].
  assert (H : suffix r ((c :: s) ++ r)) by (exists (c :: s); reflexivity).
  assert (H' : (length r < length ((c :: s) ++ r))%nat) by (rewrite app_length; cbn; lia).
  destruct (eqb_list _ _); [split; assumption|]. destruct (eqb_list _ _); [split; assumption|].
  destruct (eqb_list _ _); [split; assumption|].
  pose proof (via_cstr_fuel (c :: s)). destruct (via_cstr (c :: s)); cbn [obind lex_ok]; auto.
Qed.

Lemma lex_token_ok l : lex_ok l (lex_token l).
Proof.
  unfold lex_token. destruct l as [|c l]; [split; [apply suffix_refl|exact I]|].
  assert (K : forall tk, lex_ok (c :: l) (Ret (Some tk, l))) by (intro; apply lex_after_cons, suffix_refl).
  destruct (c =? 40); [apply K|]. destruct (c =? 41); [apply K|].
  destruct (c =? 39); [apply K|]. destruct (c =? 96); [apply K|].
  destruct (c =? 123); [apply lex_number_ok|]. destruct (isdigit c); [apply lex_semver_ok|].
  destruct (c =? 91); [apply lex_after_cons, string_loop_after|].
  destruct (c =? 124); [apply lex_char_ok|apply lex_symbol_ok].
Qed.

Lemma rest_of_line_lt c l : (length (rest_of_line (c :: l)) < length (c :: l))%nat.
Proof.
  cbn [rest_of_line length]. destruct (c =? 10); [lia|]. pose proof (suffix_length _ _ (rest_of_line_suffix l)). lia.
Qed.

Lemma lex_fuel_ok f l : (length l <= f)%nat -> lex_ok l (lex_fuel f l).
Proof.
  revert l; induction f as [|f IH]; intros l Hf.
  - destruct l; [|cbn in Hf; lia]. split; [apply suffix_refl|exact I].
  - cbn [lex_fuel]. pose proof (skip_ws_suffix l) as HS. pose proof (suffix_length _ _ HS) as HL.
    destruct (skip_ws l) as [|c t]; [split; [apply suffix_nil|exact I]|].
    apply (lex_ok_weaken _ _ _ HS).
    destruct (c =? 59).
    { pose proof (rest_of_line_lt c t). eapply lex_ok_weaken; [apply rest_of_line_suffix|]. apply IH. lia. }
    destruct ((c =? 35) && _) eqn:E; [|apply lex_token_ok].
    destruct t as [|d t]; [rewrite andb_false_r in E; discriminate|]. cbn [tl].
    destruct (comment_end t) as [r|] eqn:Ec; [|split; [apply suffix_nil|cbn; lia]].
    apply comment_end_suffix in Ec. eapply lex_ok_weaken; [apply suffix_cons, suffix_cons, Ec|].
    apply IH. apply suffix_length in Ec. cbn [length] in HL. lia.
Qed.

Lemma lex_fuel_enough f g l : (length l <= f)%nat -> (length l <= g)%nat -> lex_fuel f l = lex_fuel g l.
Proof.
  revert g l; induction f as [|f IH]; intros g l Hf Hg.
  - destruct l; [|cbn in Hf; lia]. destruct g; reflexivity.
  - destruct g as [|g]; [destruct l; [reflexivity|cbn in Hg; lia]|].
    cbn [lex_fuel]. pose proof (suffix_length _ _ (skip_ws_suffix l)) as HL.
    destruct (skip_ws l) as [|c t]; [reflexivity|].
    destruct (c =? 59); [pose proof (rest_of_line_lt c t); apply IH; lia|].
    destruct ((c =? 35) && _) eqn:E; [|reflexivity].
    destruct t as [|d t]; [reflexivity|]. cbn [tl].
    destruct (comment_end t) as [r|] eqn:Ec; [|reflexivity].
    apply comment_end_suffix, suffix_length in Ec. cbn [length] in HL. apply IH; lia.
Qed.

Lemma lex_fuel_lex f l : (length l <= f)%nat -> lex_fuel f l = lex l.
Proof. intro. unfold lex. apply lex_fuel_enough; [assumption|lia]. Qed.

Lemma lex_lex_ok l : lex_ok l (lex l).
Proof. apply lex_fuel_ok. lia. Qed.
Lemma lex_no_fuel l : lex l <> NoFuel.
Proof. pose proof (lex_lex_ok l). destruct (lex l); congruence || contradiction. Qed.

(** The unfolding of [lex] without fuel. *)
Lemma lex_unfold l : lex l =
  match skip_ws l with
  | [] => Ret (None, [])
  | c :: t =>
      if c =? 59 then lex (rest_of_line (c :: t))
      else if (c =? 35) && (match t with d :: _ => d =? 33 | [] => false end) then
        match comment_end (tl t) with
        | None => Ret (Some TMore, [])
        | Some r => lex r
        end
      else lex_token (c :: t)
  end.
Proof.
  rewrite <- (lex_fuel_lex (S (length l)) l) by lia. cbn [lex_fuel].
  pose proof (suffix_length _ _ (skip_ws_suffix l)) as HL.
  destruct (skip_ws l) as [|c t]; [reflexivity|].
  destruct (c =? 59); [apply lex_fuel_lex; pose proof (rest_of_line_lt c t); lia|].
  destruct ((c =? 35) && _) eqn:E; [|reflexivity].
  destruct t as [|d t]; [reflexivity|]. cbn [tl].
  destruct (comment_end t) as [r|] eqn:Ec; [|reflexivity].
  apply lex_fuel_lex. apply comment_end_suffix, suffix_length in Ec. cbn [length] in HL. lia.
Qed.

Lemma skip_ws_lex l : lex (skip_ws l) = lex l.
Proof.
  rewrite (lex_unfold l), (lex_unfold (skip_ws l)).
  assert (H : skip_ws (skip_ws l) = skip_ws l); [|now rewrite H].
  induction l as [|c l IH]; [reflexivity|]. cbn [skip_ws]. destruct (isspace c) eqn:E; [assumption|].
  cbn [skip_ws]. now rewrite E.
Qed.
Lemma lex_space c l : isspace c = true -> lex (c :: l) = lex l.
Proof. intro H. rewrite <- skip_ws_lex. cbn [skip_ws]. rewrite H. apply skip_ws_lex. Qed.
Lemma rest_of_line_app body l : ~ In 10 body -> rest_of_line (body ++ 10 :: l) = l.
Proof.
  induction body as [|c b IH]; intro H; [reflexivity|]. cbn [app rest_of_line].
  destruct (N.eqb_spec c 10) as [->|]; [exfalso; apply H; left; reflexivity|].
  apply IH. intro; apply H; right; assumption.
Qed.
Lemma lex_line_comment body l : ~ In 10 body -> lex (59 :: body ++ 10 :: l) = lex l.
Proof.
  intro H. rewrite lex_unfold. cbn [skip_ws isspace N.eqb N.leb orb andb Pos.eqb N.compare Pos.compare Pos.compare_cont].
  cbn [rest_of_line N.eqb Pos.eqb]. now rewrite rest_of_line_app.
Qed.
Lemma comment_end_app body l :
  (forall p q, body ++ [33] <> p ++ [33; 35] ++ q) -> comment_end (body ++ [33; 35] ++ l) = Some l.
Proof.
  induction body as [|c b IH]; intro H; [reflexivity|].
  assert (IH' : comment_end (b ++ [33; 35] ++ l) = Some l)
    by (apply IH; intros p q E; apply (H (c :: p) q); cbn [app]; now rewrite E).
  cbn [app comment_end]. destruct (N.eqb_spec c 33) as [->|]; [|exact IH'].
  destruct (b ++ 33 :: 35 :: l) as [|d t] eqn:E; [destruct b; discriminate|].
  destruct (N.eqb_spec d 35) as [->|]; [|cbn [app] in IH'; rewrite E in IH'; exact IH'].
  exfalso. destruct b as [|d' b]; [discriminate|]. injection E as -> E.
  apply (H [] (b ++ [33])). reflexivity.
Qed.
Lemma lex_multi_comment body l :
  (forall p q, body ++ [33] <> p ++ [33; 35] ++ q) -> lex (35 :: 33 :: body ++ [33; 35] ++ l) = lex l.
Proof.
  intro H. rewrite lex_unfold. cbn [skip_ws isspace N.eqb N.leb orb andb Pos.eqb N.compare Pos.compare Pos.compare_cont tl].
  now rewrite comment_end_app.
Qed.
