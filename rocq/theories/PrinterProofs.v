(** Printed values are read back. *)
From Coq Require Import List NArith ZArith Bool Lia Arith.
From Coq Require Import ZifyBool ZifyNat ZifyN.
From Verif Require Import Base ListLemmas SpecText OString OStringProofs Base64 Input Lexer Parser Printer
  SpecRead LexerProofs ParserProofs.
Import ListNotations.
Local Open Scope N_scope.
Ltac Zify.zify_post_hook ::= Z.div_mod_to_equations.

(** *** Decimal digits *)
Fixpoint lval (ds : list N) : N := match ds with [] => 0 | c :: t => (c - 48) + 10 * lval t end.
Definition dig (c : N) : Prop := 48 <= c <= 57.

Lemma decimal_fuel_spec f n acc : n < 2 ^ N.of_nat f -> (1 <= f)%nat ->
  exists ds, decimal_fuel f n acc = rev ds ++ acc /\ Forall dig ds /\ lval ds = n /\ ds <> [] /\
             (n <> 0 -> 10 ^ (N.of_nat (length ds) - 1) <= n) /\ (n = 0 -> length ds = 1%nat).
Proof.
  revert n acc; induction f as [|f IH]; intros n acc Hn Hf; [lia|]. cbn [decimal_fuel].
  destruct (N.ltb_spec n 10) as [Hlt|Hge].
  - exists [48 + n mod 10]. cbn [rev app lval length]. rewrite N.mod_small by assumption.
    change (N.of_nat 1 - 1) with 0. rewrite N.pow_0_r. unfold dig.
    repeat split; try discriminate; try lia. constructor; [lia|constructor].
  - assert (Hf' : (1 <= f)%nat).
    { destruct f; [|lia]. change (2 ^ N.of_nat 1) with 2 in Hn. lia. }
    destruct (IH (n / 10) ((48 + n mod 10) :: acc)) as (ds & E & F & V & NE & B & _); [|assumption|].
    { rewrite Nnat.Nat2N.inj_succ, N.pow_succ_r' in Hn. lia. }
    exists ((48 + n mod 10) :: ds). rewrite E. cbn [rev lval length]. rewrite <- app_assoc.
    split; [reflexivity|]. split; [constructor; [unfold dig; lia|assumption]|].
    split; [rewrite V; lia|]. split; [discriminate|]. split; [|lia].
    intros _. specialize (B ltac:(lia)). destruct ds as [|d ds]; [congruence|].
    cbn [length] in *.
    replace (N.of_nat (S (S (length ds))) - 1) with (N.succ (N.of_nat (S (length ds)) - 1)) by lia.
    rewrite N.pow_succ_r'. lia.
Qed.

Lemma decimal_spec n : exists ds, decimal n = rev ds /\ Forall dig ds /\ lval ds = n /\ ds <> [] /\
  (n < two64 -> (length ds <= 20)%nat).
Proof.
  unfold decimal. destruct (decimal_fuel_spec (S (N.to_nat (N.log2 n))) n []) as (ds & E & F & V & NE & B & Z0); [|lia|].
  - rewrite Nnat.Nat2N.inj_succ, Nnat.N2Nat.id. destruct (N.eq_dec n 0) as [->|H]; [reflexivity|].
    apply N.log2_spec; lia.
  - exists ds. rewrite E, app_nil_r. repeat split; auto. intro H.
    destruct (N.eq_dec n 0) as [H0|H0]; [rewrite Z0 by assumption; lia|]. specialize (B H0).
    destruct (Nat.leb_spec (length ds) 20) as [|HL]; [assumption|exfalso].
    assert (10 ^ 20 <= 10 ^ (N.of_nat (length ds) - 1)) by (apply N.pow_le_mono_r; lia).
    assert (two64 < 10 ^ 20) by reflexivity. lia.
Qed.

Lemma round53_terms : natforall 20 (fun i => natforall 10 (fun d => round53 (10 ^ i * d) =? 10 ^ i * d)) = true.
Proof. vm_compute. reflexivity. Qed.
Lemma round53_term i d : i < 20 -> d < 10 -> round53 (10 ^ i * d) = 10 ^ i * d.
Proof.
  intros Hi Hd. pose proof (natforall_spec _ _ round53_terms i Hi) as K. cbv beta in K.
  pose proof (natforall_spec _ _ K d Hd) as K2. cbv beta in K2. now apply N.eqb_eq.
Qed.

Lemma sum_digits_spec ds i v : Forall dig ds -> i + N.of_nat (length ds) <= 20 ->
  v + 10 ^ i * lval ds < two64 -> sum_digits 10 ds i v = Ret (v + 10 ^ i * lval ds).
Proof.
  revert i v; induction ds as [|c ds IH]; intros i v F Hi Hv; cbn [sum_digits lval].
  - now rewrite N.mul_0_r, N.add_0_r.
  - inversion F as [|? ? Hc F']; subst. cbn [length lval] in *. unfold dig in Hc.
    unfold digit_term. assert (D : digit_value c = c - 48) by (unfold digit_value, isdigit; replace ((48 <=? c) && (c <=? 57)) with true by lia; reflexivity).
    rewrite D, round53_term by lia.
    replace (10 ^ i * (c - 48 + 10 * lval ds)) with (10 ^ i * (c - 48) + 10 ^ (i + 1) * lval ds) in *
      by (rewrite N.add_1_r, N.pow_succ_r'; lia).
    assert (B : (10 ^ i * (c - 48) <? two64) = true) by lia. rewrite B. cbn [obind].
    rewrite N.mod_small by lia. rewrite IH; [f_equal; lia|assumption|lia|lia].
Qed.

Lemma dig_isdigit c : dig c -> isdigit c = true.
Proof. unfold dig, isdigit. lia. Qed.
Lemma dig_class c : dig c -> isspace c = false /\ (c =? 46) = false /\ isxdigit c = true /\ digit_ok 10 c = true.
Proof. intro H. unfold isspace, isxdigit, digit_ok, isdigit, dig in *. cbn [N.eqb Pos.eqb]. repeat split; lia. Qed.

Lemma number_loop_digits m r ws neg frac chars ds prev :
  Forall dig m -> (length m + length ds <= 256)%nat -> prev <> 46 ->
  exists prev', prev' <> 46 /\
  number_loop (m ++ 125 :: r) ws 10 neg false frac chars ds prev =
  obind (finish_number 10 neg false frac (rev m ++ ds) prev') (fun tk => Ret (Some tk, r)).
Proof.
  revert ws chars ds prev; induction m as [|c m IH]; intros ws chars ds prev F HL Hp.
  - exists prev. split; [assumption|]. reflexivity.
  - inversion F as [|? ? Hc F']; subst. destruct (dig_class c Hc) as (C1 & C2 & C3 & C4).
    cbn [app number_loop]. rewrite C1, C2, C3, C4. cbn [length] in HL.
    replace (Nat.leb 256 (length ds)) with false by lia.
    destruct (IH false (S chars) (c :: ds) c F') as (p & Hp' & E); [cbn [length]; lia | unfold dig in Hc; lia |].
    exists p. split; [assumption|]. rewrite E. cbn [rev]. now rewrite <- app_assoc.
Qed.

(** *** The first character decides *)
Lemma lex_first c t : isspace c = false -> c <> 59 -> (c <> 35 \/ forall t', t <> 33 :: t') -> lex (c :: t) = lex_token (c :: t).
Proof.
  intros H1 H2 H3. rewrite lex_unfold. cbn [skip_ws]. rewrite H1. replace (c =? 59) with false by lia.
  destruct (N.eqb_spec c 35) as [->|]; [|reflexivity]. cbn [andb].
  destruct H3 as [H3|H3]; [congruence|]. destruct t as [|d t]; [reflexivity|].
  destruct (N.eqb_spec d 33) as [->|]; [now elim (H3 t)|reflexivity].
Qed.
Lemma lex_delims t : lex (40 :: t) = Ret (Some TLParen, t) /\ lex (41 :: t) = Ret (Some TRParen, t)
  /\ lex (32 :: t) = lex t.
Proof.
  split; [rewrite lex_first; [reflexivity|reflexivity|lia|lia]|].
  split; [rewrite lex_first; [reflexivity|reflexivity|lia|lia]|]. apply lex_space. reflexivity.
Qed.

Lemma delimiter_delim c : delimiter c <-> is_delim c = true.
Proof.
  unfold delimiter, space, is_delim, isspace. cbn [In]. lia.
Qed.
Lemma space_isspace c : space c <-> isspace c = true.
Proof. unfold space, isspace. cbn [In]. lia. Qed.

(** *** Integers *)
Lemma finish_int n neg prev : n < 2 ^ 31 -> prev <> 46 -> forall ds, Forall dig ds -> lval ds = n -> (length ds <= 20)%nat ->
  finish_number 10 neg false 0 ds prev = Ret (TInt (if neg then - Z.of_N n else Z.of_N n)%Z).
Proof.
  intros Hn Hp ds F V L. unfold finish_number. replace (prev =? 46) with false by lia.
  assert (H64 : two64 = 2 ^ 64) by reflexivity.
  rewrite sum_digits_spec; [|assumption|lia|rewrite N.pow_0_r, V; unfold two64; lia]. cbn [obind].
  rewrite N.pow_0_r, V. replace (0 + 1 * n) with n by lia.
  rewrite wrap32_id by (unfold in_int32, INT32_MIN, INT32_MAX; lia).
  destruct neg; (replace (in_int32 _) with true by (unfold in_int32, INT32_MIN, INT32_MAX; lia)); reflexivity.
Qed.

Lemma lex_number_digits sgn m r : (sgn = 43 \/ sgn = 45) -> Forall dig m -> (length m <= 256)%nat ->
  exists prev, prev <> 46 /\ lex (123 :: 68 :: sgn :: m ++ 125 :: r) =
  obind (finish_number 10 (sgn =? 45) false 0 (rev m) prev) (fun tk => Ret (Some tk, r)).
Proof.
  intros Hs F L. rewrite lex_first; [|reflexivity|lia|lia].
  destruct (number_loop_digits m r false (sgn =? 45) 0 0 [] 0 F) as (p & Hp & E); [cbn; lia|lia|].
  exists p. split; [assumption|]. rewrite app_nil_r in E. rewrite <- E.
  destruct Hs as [-> | ->]; reflexivity.
Qed.

Lemma lex_int z r : (INT32_MIN < z <= INT32_MAX)%Z -> lex (print_int z ++ r) = Ret (Some (TInt z), r).
Proof.
  intros Hz. unfold INT32_MIN, INT32_MAX in Hz. unfold print_int.
  destruct (Z.leb_spec 0 z) as [H|H].
  - destruct (decimal_spec (Z.to_N z)) as (ds & E & F & V & NE & B). rewrite E.
    specialize (B ltac:(unfold two64; lia)).
    cbn [app]. rewrite <- app_assoc. cbn [app].
    destruct (lex_number_digits 43 (rev ds) r) as (p & Hp & E2); [auto|apply Forall_rev; assumption|rewrite rev_length; lia|].
    rewrite E2, rev_involutive. cbn [N.eqb Pos.eqb].
    rewrite (finish_int (Z.to_N z)); [cbn [obind]; do 4 f_equal; lia|lia|assumption..].
  - destruct (decimal_spec (Z.to_N (- z))) as (ds & E & F & V & NE & B). rewrite E.
    specialize (B ltac:(unfold two64; lia)).
    cbn [app]. rewrite <- app_assoc. cbn [app].
    destruct (lex_number_digits 45 (rev ds) r) as (p & Hp & E2); [auto|apply Forall_rev; assumption|rewrite rev_length; lia|].
    rewrite E2, rev_involutive. cbn [N.eqb Pos.eqb].
    rewrite (finish_int (Z.to_N (- z))); [cbn [obind]; do 4 f_equal; lia|lia|assumption..].
Qed.

(** *** Semantic versions *)
Lemma semver_digits_found m r ds : Forall dig m -> (match r with [] => True | c :: _ => ~ dig c end) ->
  (length m + length ds <= 256)%nat -> semver_digits (m ++ r) ds = Ret (rev m ++ ds, r).
Proof.
  revert ds; induction m as [|c m IH]; intros ds F Hr HL.
  - cbn [app rev]. destruct r as [|c r]; [reflexivity|]. cbn [semver_digits].
    replace (isdigit c) with false; [reflexivity|]. unfold isdigit, dig in *. lia.
  - inversion F; subst. cbn [app semver_digits length] in *. rewrite dig_isdigit by assumption.
    replace (Nat.leb 256 (length ds)) with false by lia.
    rewrite IH by (cbn [length]; auto; lia). cbn [rev]. now rewrite <- app_assoc.
Qed.
Lemma semver_number_found n r : n < two64 -> (match r with [] => True | c :: _ => ~ dig c end) ->
  semver_number (decimal n ++ r) = Ret (Some n, r).
Proof.
  intros Hn Hr. destruct (decimal_spec n) as (ds & E & F & V & NE & B). specialize (B Hn).
  rewrite E. unfold semver_number. rewrite semver_digits_found; [|apply Forall_rev; assumption|assumption|rewrite rev_length; cbn; lia].
  rewrite rev_involutive, app_nil_r. cbn [obind fst snd].
  assert (S : sum_digits 10 ds 0 0 = Ret n).
  { rewrite sum_digits_spec; [f_equal; rewrite N.pow_0_r, V; lia|assumption|lia|rewrite N.pow_0_r, V; lia]. }
  destruct ds as [|d ds]; [congruence|]. now rewrite S.
Qed.
Lemma decimal_first n : exists c t, decimal n = c :: t /\ dig c.
Proof.
  destruct (decimal_spec n) as (ds & E & F & V & NE & B). rewrite E.
  destruct (rev ds) as [|c t] eqn:R; [apply (f_equal (@rev N)) in R; rewrite rev_involutive in R; now elim NE|].
  exists c, t. split; [reflexivity|]. apply Forall_rev in F. rewrite R in F. now inversion F.
Qed.
Lemma ends_atom_nodig r : ends_atom r -> match r with [] => True | c :: _ => ~ dig c end.
Proof. destruct r as [|c r]; [auto|]. cbn. unfold delimiter, space, dig. cbn [In]. lia. Qed.

Lemma expect_dot r : expect_octet [46] (46 :: r) = Some (46, r).
Proof. reflexivity. Qed.

Lemma lex_semver_print a b c r : a < two64 -> b < two64 -> c < two64 -> ends_atom r ->
  lex (print_semver a b c ++ r) = Ret (Some (TSemver a b c), r).
Proof.
  intros Ha Hb Hc Hr. apply ends_atom_nodig in Hr. unfold print_semver. rewrite <- !app_assoc. cbn [app].
  assert (ND : forall l, match 46 :: l with [] => True | c :: _ => ~ dig c end) by (intros; unfold dig; lia).
  assert (E : lex_semver (decimal a ++ 46 :: decimal b ++ 46 :: decimal c ++ r) = Ret (Some (TSemver a b c), r)).
  { unfold lex_semver. rewrite semver_number_found by auto. cbn [obind]. rewrite expect_dot.
    rewrite semver_number_found by auto. cbn [obind]. rewrite expect_dot.
    rewrite semver_number_found by auto. reflexivity. }
  destruct (decimal_first a) as (x & t & Et & Hx). rewrite Et in *. cbn [app] in *.
  unfold dig in Hx. rewrite lex_first; [|unfold isspace; lia|lia|lia].
  unfold lex_token. replace (x =? 40) with false by lia. replace (x =? 41) with false by lia.
  replace (x =? 39) with false by lia. replace (x =? 96) with false by lia. replace (x =? 123) with false by lia.
  rewrite dig_isdigit by exact Hx. exact E.
Qed.

(** *** Strings *)
Lemma char_ok_textual s : Forall char_ok s -> textual s.
Proof. induction 1 as [|c s Hc _ IH]; [apply textual_nil|]. apply textual_cons. split; [exact Hc|exact IH]. Qed.

Lemma string_loop_found s r acc : Forall (fun c => c <> 93 /\ c <> 124) s -> ends_atom r -> textual (rev acc ++ s) ->
  string_loop (s ++ 93 :: r) None acc = Ret (Some (TString (rev acc ++ s)), r).
Proof.
  revert acc; induction s as [|c s IH]; intros acc F Hr HT.
  - rewrite app_nil_r in *. cbn [app string_loop N.eqb Pos.eqb]. destruct r as [|d r].
    + now rewrite via_cstr_ok.
    + cbn in Hr. apply delimiter_delim in Hr. now rewrite Hr, via_cstr_ok.
  - inversion F as [|? ? Hc F']; subst. cbn [app string_loop].
    replace (c =? 93) with false by lia. replace (c =? 124) with false by lia.
    rewrite IH; [cbn [rev]; now rewrite <- app_assoc|assumption|assumption|].
    cbn [rev]. now rewrite <- app_assoc.
Qed.
Lemma lex_string s r : Forall (fun c => char_ok c /\ c <> 93 /\ c <> 124) s -> ends_atom r ->
  lex (91 :: s ++ 93 :: r) = Ret (Some (TString s), r).
Proof.
  intros F Hr. rewrite lex_first; [|reflexivity|lia|lia].
  change (lex_token (91 :: s ++ 93 :: r)) with (string_loop (s ++ 93 :: r) None []).
  rewrite string_loop_found; [reflexivity| |assumption|].
  - eapply Forall_impl; [|exact F]. cbv beta. intros; tauto.
  - cbn [rev app]. apply char_ok_textual. eapply Forall_impl; [|exact F]. cbv beta. intros; tauto.
Qed.

(** *** Characters *)
Lemma lex_bars m r tk : ~ In 124 m -> char_token m = Ret tk -> lex (124 :: m ++ 124 :: r) = Ret (Some tk, r).
Proof.
  intros H E. rewrite lex_first; [|reflexivity|lia|lia].
  change (lex_token (124 :: m ++ 124 :: r)) with (lex_char (124 :: m ++ 124 :: r)).
  unfold lex_char. cbn [N.eqb Pos.eqb]. rewrite until_bar_found by assumption. cbn [rev app]. now rewrite E.
Qed.
Lemma lex_char_print c r : char_ok c -> lex (print_char [c] ++ r) = Ret (Some (TChar [c]), r).
Proof.
  intros Hc. unfold print_char.
  destruct (N.eqb_spec c 124) as [->|H1].
  { apply (lex_bars [98; 97; 114]); [cbn [In]; lia|reflexivity]. }
  destruct (N.eqb_spec c 10) as [->|H2].
  { apply (lex_bars [110; 101; 119; 108; 105; 110; 101]); [cbn [In]; lia|reflexivity]. }
  destruct (N.eqb_spec c 9) as [->|H3].
  { apply (lex_bars [116; 97; 98]); [cbn [In]; lia|reflexivity]. }
  apply (lex_bars [c]); [cbn [In]; lia|]. cbn [char_token]. rewrite via_cstr_ok; [reflexivity|].
  apply char_ok_textual. constructor; [assumption|constructor].
Qed.

(** *** Symbols *)
Lemma eqb_list_spec a b : eqb_list a b = true <-> a = b.
Proof.
  revert b; induction a as [|x a IH]; intros [|y b]; cbn [eqb_list]; try (split; [discriminate|discriminate]); [tauto|].
  rewrite andb_true_iff, IH, N.eqb_eq. split; [intros [-> ->]; reflexivity|intros [= -> ->]; auto].
Qed.
Lemma eqb_list_false a b : a <> b -> eqb_list a b = false.
Proof. intro H. destruct (eqb_list a b) eqn:E; [|reflexivity]. apply eqb_list_spec in E. congruence. Qed.

Lemma lex_plain s r : Forall (fun c => ~ delimiter c) s -> ends_atom r ->
  (exists c t, s = c :: t /\ ~ (48 <= c <= 57) /\ ~ In c [59; 96; 123] /\ (forall t', s <> 35 :: 33 :: t')) ->
  lex (s ++ r) = lex_symbol (s ++ r) /\ symbol_chars (s ++ r) = (s, r).
Proof.
  intros F Hr (c & t & -> & H1 & H2 & H3).
  assert (F' : Forall (fun c => is_delim c = false) (c :: t)).
  { eapply Forall_impl; [|exact F]. cbv beta. intros a Ha. rewrite delimiter_delim in Ha. now destruct (is_delim a). }
  split; [|apply symbol_chars_found; [assumption|destruct r; [exact I|now apply delimiter_delim]]].
  inversion F as [|? ? Hc Ft]; subst. cbn [app]. cbn [In] in H2.
  assert (Hs : isspace c = false) by (unfold delimiter in Hc; rewrite space_isspace in Hc; destruct (isspace c); tauto).
  unfold delimiter in Hc. cbn [In] in Hc.
  rewrite lex_first; [|exact Hs|lia|].
  - unfold lex_token.
    replace (c =? 40) with false by lia. replace (c =? 41) with false by lia. replace (c =? 39) with false by lia.
    replace (c =? 96) with false by lia. replace (c =? 123) with false by lia. replace (c =? 91) with false by lia.
    replace (c =? 124) with false by lia. unfold isdigit. replace ((48 <=? c) && (c <=? 57)) with false by lia. reflexivity.
  - destruct (N.eq_dec c 35) as [->|]; [right|auto]. intros t' E.
    destruct t as [|d t]; cbn [app] in E.
    + subst r. cbn in Hr. unfold delimiter, space in Hr. cbn [In] in Hr. lia.
    + injection E as -> _. now apply (H3 t).
Qed.

Lemma lex_sym s r : symbol_text s -> ends_atom r -> lex (s ++ r) = Ret (Some (TSymbol s), r).
Proof.
  intros (F & HS & N1 & N2 & N3) Hr.
  destruct (lex_plain s r) as [-> E]; [eapply Forall_impl; [|exact F]; cbv beta; intros; tauto|assumption|assumption|].
  unfold lex_symbol. rewrite E. destruct HS as (c & t & -> & _).
  rewrite !eqb_list_false by assumption.
  rewrite via_cstr_ok; [reflexivity|]. apply char_ok_textual. eapply Forall_impl; [|exact F]. cbv beta. intros; tauto.
Qed.

Lemma lex_word s r tk :
  (s = [116; 114; 117; 101] /\ tk = TTrue) \/ (s = [102; 97; 108; 115; 101] /\ tk = TFalse) \/ (s = [110; 105; 108] /\ tk = TNil) ->
  ends_atom r -> lex (s ++ r) = Ret (Some tk, r).
Proof.
  intros H Hr.
  assert (ND : Forall (fun c => ~ delimiter c) s).
  { destruct H as [[-> _]|[[-> _]|[-> _]]]; repeat constructor; unfold delimiter, space; cbn [In]; lia. }
  destruct (lex_plain s r) as [-> E]; [assumption|assumption| |].
  - destruct H as [[-> _]|[[-> _]|[-> _]]]; eexists _, _; (split; [reflexivity|]); cbn [In]; (split; [lia|]); (split; [lia|discriminate]).
  - unfold lex_symbol. rewrite E. destruct H as [[-> ->]|[[-> ->]|[-> ->]]]; reflexivity.
Qed.

(** *** Everything *)
Fixpoint sexp_ind' (P : sexp -> Prop)
  (Hnil : P SNil) (Hbool : forall b, P (SBool b)) (Hint : forall z, P (SInt z)) (Hreal : forall r, P (SReal r))
  (Hstr : forall s, P (SStr s)) (Hchar : forall s, P (SChar s)) (Hsym : forall s, P (SSym s))
  (Hsem : forall a b c, P (SSemver a b c)) (Herr : P SErr) (Hvec : forall l, Forall P l -> P (SVec l))
  (v : sexp) : P v :=
  match v with
  | SNil => Hnil | SBool b => Hbool b | SInt z => Hint z | SReal r => Hreal r
  | SStr s => Hstr s | SChar s => Hchar s | SSym s => Hsym s | SSemver a b c => Hsem a b c | SErr => Herr
  | SVec l => Hvec l ((fix go (l : list sexp) : Forall P l :=
      match l with [] => Forall_nil P | x :: t => Forall_cons x
        (sexp_ind' P Hnil Hbool Hint Hreal Hstr Hchar Hsym Hsem Herr Hvec x) (go t) end) l)
  end.

Lemma reads_one l t r : lex l = Ret (Some t, r) -> reads l [t] r.
Proof. intro H. econstructor; [eassumption|constructor]. Qed.

Lemma reads_print v : readable v -> forall r, ends_atom r \/ (exists vs, v = SVec vs) ->
  exists ts, reads (print v ++ r) ts r /\ form ts v.
Proof.
  induction v as [|b|z|x|s|s|s|a b c| |vs IH] using sexp_ind'; intros H r Hr; inversion H; subst; cbn [print].
  1-7: destruct Hr as [Hr|[? Hr]]; [|discriminate Hr].
  - exists [TNil]. split; [apply reads_one, lex_word; auto|constructor].
  - destruct b; [exists [TTrue]|exists [TFalse]]; (split; [apply reads_one, lex_word; auto|constructor]).
  - exists [TInt z]. split; [apply reads_one, lex_int; assumption|constructor].
  - exists [TString s]. split; [apply reads_one|constructor]. rewrite <- !app_assoc. now apply lex_string.
  - exists [TChar [c]]. split; [apply reads_one, lex_char_print; assumption|constructor].
  - exists [TSymbol s]. split; [apply reads_one, lex_sym; assumption|constructor].
  - exists [TSemver a b c]. split; [apply reads_one, lex_semver_print; assumption|constructor].
  - assert (K : exists ts, reads (join (map print vs) ++ 41 :: r) ts (41 :: r) /\ forms ts vs).
    { rename H1 into F. clear H Hr. revert IH F. induction vs as [|v vs IHvs]; intros IH F.
      - exists []. split; constructor.
      - inversion IH as [|? ? IHv IH']; inversion F as [|? ? Fv F']; subst.
        destruct vs as [|w vs].
        + destruct (IHv Fv (41 :: r)) as (ts & R & Fm); [left; right; cbn [In]; auto 10|].
          exists (ts ++ []). split; [rewrite app_nil_r; exact R|]. constructor; [assumption|constructor].
        + destruct (IHvs IH' F') as (ts' & R' & Fs').
          change (join (map print (v :: w :: vs))) with (print v ++ [32] ++ join (map print (w :: vs))).
          rewrite <- !app_assoc. cbn [app].
          set (rest := join (map print (w :: vs)) ++ 41 :: r) in *.
          destruct (IHv Fv (32 :: rest)) as (ts & R & Fm); [left; left; unfold space; cbn [In]; auto 10|].
          exists (ts ++ ts'). split; [|constructor; assumption].
          eapply reads_app; [exact R|].
          inversion R'; subst; [|econstructor; [rewrite (proj2 (proj2 (lex_delims _))); eassumption|eassumption]].
          exfalso. inversion Fs' as [|? ? ? ? FF]. destruct ts0; [now apply form_nonempty in FF|discriminate]. }
    destruct K as (ts & R & F). exists (TLParen :: ts ++ [TRParen]). split; [|now constructor].
    rewrite <- !app_assoc. cbn [app]. econstructor; [apply lex_delims|].
    eapply reads_app; [exact R|]. apply reads_one. apply lex_delims.
Qed.
