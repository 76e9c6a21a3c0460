(** What literals denote. *)
From Coq Require Import List NArith ZArith Bool Lia Arith.
From Coq Require Import Floats.SpecFloat.
From Coq Require Import ZifyBool ZifyNat ZifyN.
From Verif Require Import Base ListLemmas SpecText OString OStringProofs Base64 Input Lexer Parser Printer
  SpecRead SpecLiteral LexerProofs ParserProofs PrinterProofs.
Import ListNotations.
Local Open Scope N_scope.

Fixpoint rvalue (b : N) (ds : list N) : N := match ds with [] => 0 | d :: t => d + b * rvalue b t end.
Lemma rvalue_app b x y : rvalue b (x ++ y) = rvalue b x + b ^ N.of_nat (length x) * rvalue b y.
Proof.
  induction x as [|d x IH]; cbn [app rvalue length]; [rewrite N.pow_0_r; lia|]. rewrite IH, Nnat.Nat2N.inj_succ, N.pow_succ_r'. lia.
Qed.
Lemma value_rvalue b ds : value b ds = rvalue b (rev ds).
Proof.
  unfold value. rewrite <- fold_left_rev_right. induction (rev ds) as [|d t IH]; [reflexivity|]. cbn [fold_right rvalue]. rewrite IH. lia.
Qed.
Lemma round53_small n : n < 2 ^ 53 -> round53 n = n.
Proof. intros H. unfold round53. now replace (n <? 2 ^ 53) with true by lia. Qed.
Lemma digit_value_ok b c d : b <= 16 -> digit b c d -> digit_value c = d.
Proof.
  intros HB (LT & H). unfold digit_value, isdigit. destruct H as [(H & ->)|[(H & ->)|(H & ->)]].
  - replace ((48 <=? 48 + d) && (48 + d <=? 57)) with true by lia. lia.
  - replace ((48 <=? 87 + d) && (87 + d <=? 57)) with false by lia. replace (87 + d <=? 70) with false by lia. lia.
  - replace ((48 <=? 55 + d) && (55 + d <=? 57)) with false by lia. replace (55 + d <=? 70) with true by lia. lia.
Qed.
Lemma sum_digits_value b cs ds i v : b <= 16 -> Forall2 (digit b) cs ds -> v + b ^ i * rvalue b ds < 2 ^ 53 ->
  sum_digits b cs i v = Ret (v + b ^ i * rvalue b ds).
Proof.
  intros HB F. revert i v. induction F as [|c d cs ds D F IH]; intros i v H; cbn [sum_digits rvalue] in *; [f_equal; lia|].
  rewrite (digit_value_ok b c d HB D). replace (b ^ i * (d + b * rvalue b ds)) with (b ^ i * d + b ^ (i + 1) * rvalue b ds) in * by (rewrite N.add_1_r, N.pow_succ_r'; lia).
  unfold digit_term. rewrite round53_small by lia. replace (b ^ i * d <? two64) with true by (unfold two64; lia). cbn [obind].
  rewrite N.mod_small by (unfold two64; lia). rewrite IH by lia. f_equal. lia.
Qed.
Lemma base_le c b : base_letter c b -> b <= 16.
Proof. unfold base_letter. cbn [In]. intros H. repeat destruct H as [[= <- <-]|H]; try lia. Qed.
Lemma base_class b : b = 2 \/ b = 8 \/ b = 10 \/ b = 16 -> forall c d, digit b c d -> isspace c = false /\ (c =? 46) = false /\ isxdigit c = true /\ digit_ok b c = true.
Proof.
  intros HB c d (LT & H). unfold isspace, isxdigit, digit_ok, isdigit.
  destruct HB as [->|[->|[->| ->]]]; cbn [N.eqb Pos.eqb]; repeat split; lia.
Qed.
Lemma base_cases c b : base_letter c b -> b = 2 \/ b = 8 \/ b = 10 \/ b = 16.
Proof. unfold base_letter. cbn [In]. intros H. repeat destruct H as [[= <- <-]|H]; tauto. Qed.
(** The digits before or after the dot. *)
Lemma number_loop_run b m ms rest ws neg dot frac chars ds prev :
  b = 2 \/ b = 8 \/ b = 10 \/ b = 16 -> Forall2 (digit b) m ms -> (length m + length ds <= 256)%nat -> (m = [] -> prev <> 46) ->
  exists prev' ws', (m <> [] \/ prev <> 46 -> prev' <> 46) /\ 
  number_loop (m ++ rest) ws b neg dot frac chars ds prev =
  number_loop rest ws' b neg dot (if dot then length m + frac else frac)%nat (length m + chars) (rev m ++ ds) prev' /\ (m = [] -> ws' = ws).
Proof.
  intros HB F. revert ws frac chars ds prev. induction F as [|c d m ms D F IH]; intros ws frac chars ds prev HL HP.
  - exists prev, ws. repeat split; [tauto|]. cbn. now destruct dot.
  - destruct (base_class b HB c d D) as (C1 & C2 & C3 & C4). cbn [app number_loop]. rewrite C1, C2, C3, C4. cbn [length] in HL.
    replace (Nat.leb 256 (length ds)) with false by lia.
    destruct (IH false (if dot then S frac else frac) (S chars) (c :: ds) c) as (p & w & Hp & E & _); [cbn [length]; lia|intros _; lia|].
    exists p, w. split; [intros _; apply Hp; right; lia|]. split; [|discriminate]. rewrite E. cbn [rev length]. rewrite <- app_assoc. f_equal; [destruct dot; lia|lia].
Qed.
Lemma lex_braces letter b sgn neg l : base_letter letter b -> sign sgn neg ->
  lex (123 :: letter :: sgn :: l) = number_loop l false b neg false 0 0 [] 0.
Proof.
  intros HB HS. rewrite lex_first; [|reflexivity|lia|lia]. unfold base_letter in HB. cbn [In] in HB. unfold sign in HS.
  repeat destruct HB as [[= <- <-]|HB]; try contradiction; destruct neg; subst sgn; reflexivity.
Qed.
Lemma lex_integer letter b sgn neg cs ds r : base_letter letter b -> sign sgn neg -> Forall2 (digit b) cs ds -> (length cs <= 256)%nat -> value b ds < 2 ^ 31 ->
  lex (braces letter sgn cs ++ r) = Ret (Some (TInt (if neg then - Z.of_N (value b ds) else Z.of_N (value b ds))%Z), r).
Proof.
  intros HB HS F HL HV. unfold braces. rewrite <- app_assoc. cbn [app]. rewrite <- app_assoc. cbn [app]. rewrite (lex_braces _ _ _ _ _ HB HS).
  destruct (number_loop_run b cs ds (125 :: r) false neg false 0 0 [] 0 (base_cases _ _ HB) F) as (p & w & Hp & E & _); [cbn; lia|lia|].
  rewrite E. cbn [number_loop]. change (isspace 125) with false. cbn [N.eqb Pos.eqb isxdigit isdigit N.leb N.compare Pos.compare Pos.compare_cont andb orb].
  assert (HP : p <> 46) by (apply Hp; right; lia). rewrite app_nil_r. unfold finish_number. replace (p =? 46) with false by lia.
  assert (F' : Forall2 (digit b) (rev cs) (rev ds)) by (clear -F; induction F; [constructor|cbn [rev]; apply Forall2_app; auto]).
  rewrite value_rvalue in *. rewrite (sum_digits_value b _ (rev ds) 0 0 (base_le _ _ HB) F') by (rewrite N.pow_0_r; lia). cbn [obind].
  rewrite N.pow_0_r. replace (0 + 1 * rvalue b (rev ds)) with (rvalue b (rev ds)) by lia. rewrite wrap32_id by (unfold in_int32, INT32_MIN, INT32_MAX; lia).
  destruct neg; (replace (in_int32 _) with true by (unfold in_int32, INT32_MIN, INT32_MAX; lia)); reflexivity.
Qed.
Lemma lex_wrong_digit letter b sgn neg cs ds c r : base_letter letter b -> sign sgn neg -> Forall2 (digit b) cs ds -> (length cs < 256)%nat ->
  (forall d, ~ digit b c d) -> ~ space c -> c <> 46 -> c <> 125 ->
  lex ([123; letter; sgn] ++ cs ++ c :: r) = Ret (Some TError, c :: r).
Proof.
  intros HB HS F HL NC NS N1 N2. cbn [app]. rewrite (lex_braces _ _ _ _ _ HB HS).
  destruct (number_loop_run b cs ds (c :: r) false neg false 0 0 [] 0 (base_cases _ _ HB) F) as (p & w & Hp & E & _); [cbn; lia|lia|].
  rewrite E. cbn [number_loop]. rewrite space_isspace in NS. destruct (isspace c); [congruence|]. replace (c =? 46) with false by lia.
  assert (LD : Nat.leb 256 (length (rev cs ++ [])) = false) by (rewrite app_nil_r, rev_length; lia). rewrite LD.
  replace (c =? 125) with false by lia.
  destruct (isxdigit c) eqn:X; [|reflexivity]. replace (digit_ok b c) with false; [reflexivity|]. symmetry.
  assert (K : exists d, d < 16 /\ ((48 <= c <= 57 /\ c = 48 + d) \/ (10 <= d <= 15 /\ c = 87 + d) \/ (10 <= d <= 15 /\ c = 55 + d))).
  { unfold isxdigit, isdigit in X. destruct (N.leb_spec c 57); [exists (c - 48); lia|]. destruct (N.leb_spec c 70); [exists (c - 55); lia|exists (c - 87); lia]. }
  destruct K as (d & D1 & D2). assert (GE : b <= d). { destruct (N.le_gt_cases b d); [assumption|]. elim (NC d). split; assumption. }
  unfold digit_ok, isdigit. destruct (base_cases _ _ HB) as [->|[->|[->| ->]]]; cbn [N.eqb Pos.eqb]; lia.
Qed.
Lemma divided_first n f b : divided (S n) f b = divided n (SFdiv 53 1024 f b) b.
Proof. induction n as [|n IH]; [reflexivity|]. change (SFdiv 53 1024 (divided (S n) f b) b = SFdiv 53 1024 (divided n (SFdiv 53 1024 f b) b) b). now rewrite IH. Qed.
Lemma sf_divs_divided n f b : sf_divs n f b = divided n f b.
Proof. revert f. induction n as [|n IH]; intros f; [reflexivity|]. cbn [sf_divs]. now rewrite IH, divided_first. Qed.
Lemma lex_real letter b sgn neg cs ds cs' ds' r : base_letter letter b -> sign sgn neg -> Forall2 (digit b) cs ds -> Forall2 (digit b) cs' ds' ->
  cs <> [] -> cs' <> [] -> (length cs + length cs' <= 256)%nat -> value b (ds ++ ds') < 2 ^ 53 ->
  lex (braces letter sgn (cs ++ 46 :: cs') ++ r) =
  Ret (Some (TReal (SFmul 53 1024 (double (value b (ds ++ ds'))) (divided (length cs') (if neg then SFopp (double 1) else double 1) (double b)))), r).
Proof.
  intros HB HS F F' N1 N2 HL HV.
  replace (braces letter sgn (cs ++ 46 :: cs') ++ r) with (123 :: letter :: sgn :: cs ++ 46 :: cs' ++ 125 :: r) by (unfold braces; repeat (progress (cbn [app]; rewrite <- ?app_assoc)); reflexivity).
  rewrite (lex_braces _ _ _ _ _ HB HS).
  destruct (number_loop_run b cs ds (46 :: cs' ++ 125 :: r) false neg false 0 0 [] 0 (base_cases _ _ HB) F) as (p & w & Hp & E & _); [cbn; lia|lia|].
  rewrite E. cbn [number_loop]. change (isspace 46) with false. cbn [N.eqb Pos.eqb].
  replace (Nat.eqb (length cs + 0) 0) with false by (destruct cs; [congruence|reflexivity]).
  destruct (number_loop_run b cs' ds' (125 :: r) false neg true 0 (S (length cs + 0)) (rev cs ++ []) 46 (base_cases _ _ HB) F') as (p2 & w2 & Hp2 & E2 & _); [rewrite app_nil_r, rev_length; lia|intros; contradiction|].
  rewrite E2. cbn [number_loop]. change (isspace 125) with false. cbn [N.eqb Pos.eqb isxdigit isdigit N.leb N.compare Pos.compare Pos.compare_cont andb orb].
  assert (HP : p2 <> 46) by (apply Hp2; now left). unfold finish_number. replace (p2 =? 46) with false by lia.
  assert (RV : forall cs ds, Forall2 (digit b) cs ds -> Forall2 (digit b) (rev cs) (rev ds)) by (clear; intros cs ds F; induction F; [constructor|cbn [rev]; apply Forall2_app; auto]).
  rewrite app_nil_r, value_rvalue, rev_app_distr in *.
  rewrite (sum_digits_value b _ (rev ds' ++ rev ds) 0 0 (base_le _ _ HB) (Forall2_app (RV _ _ F') (RV _ _ F))) by (rewrite N.pow_0_r; lia). cbn [obind].
  rewrite N.pow_0_r. replace (0 + 1 * rvalue b (rev ds' ++ rev ds)) with (rvalue b (rev ds' ++ rev ds)) by lia.
  rewrite sf_divs_divided, Nat.add_0_r. reflexivity.
Qed.

(** *** Characters and strings *)
Lemma hex_bytes cs ds : Forall2 (digit 16) cs ds -> Forall (fun c => isxdigit c = true) cs.
Proof. induction 1 as [|c d cs ds D F IH]; constructor; [|exact IH]. apply (base_class 16 ltac:(tauto) c d D). Qed.
Lemma hex_ok c : isxdigit c = true -> char_ok c /\ c <> 124.
Proof. unfold isxdigit, isdigit, char_ok, scalar. lia. Qed.
Lemma hex_span_all cs : Forall (fun c => isxdigit c = true) cs -> hex_span cs = length cs.
Proof. induction 1 as [|c cs H F IH]; cbn [hex_span length]; [reflexivity|]. now rewrite H, IH. Qed.
Lemma hex_value_ok cs ds : Forall2 (digit 16) cs ds -> hex_value cs = value 16 ds.
Proof.
  unfold hex_value, value. generalize 0. intros v F. revert v. induction F as [|c d cs ds D F IH]; intros v; [reflexivity|]. cbn [fold_left]. rewrite (digit_value_ok 16 c d ltac:(lia) D). apply IH.
Qed.
Lemma hex_not_named cs : Forall (fun c => isxdigit c = true) cs -> named_char cs = None.
Proof.
  intros F. unfold named_char.
  assert (K : forall l, existsb (fun c => negb (isxdigit c)) l = true -> eqb_list cs l = false).
  { intros l H. apply eqb_list_false. intros ->. apply existsb_exists in H as (c & I & H). rewrite Forall_forall in F. rewrite (F c I) in H. discriminate. }
  rewrite !K by reflexivity. reflexivity.
Qed.

Lemma ascii_text cs : Forall (fun c => isxdigit c = true) cs -> utf8_text cs = cs.
Proof.
  induction 1 as [|c cs H F IH]; [reflexivity|]. unfold utf8_text in *. cbn [map concat]. rewrite IH. unfold utf8. replace (c <? 128) with true; [reflexivity|]. unfold isxdigit, isdigit in H. lia.
Qed.
Lemma char_token_hex cs ds : (2 <= length cs)%nat -> Forall2 (digit 16) cs ds ->
  char_token cs = if Nat.ltb 8 (length cs) then Ret TError else obind (via_cstr [value 16 ds]) (fun v => Ret (TChar v)).
Proof.
  intros L F. pose proof (hex_bytes _ _ F) as H. pose proof (hex_not_named _ H) as NN. pose proof (hex_span_all _ H) as SP.
  assert (SC : Forall scalar cs) by (eapply Forall_impl; [|exact H]; cbv beta; intros c HC; apply hex_ok, HC).
  destruct (get_c_string_scalar (mkStr cs [] None)) as (s' & E & _); [now left|exact SC|]. cbn [ucs] in E.
  assert (C : cstr (utf8_text cs ++ [0]) = cs). { rewrite ascii_text by exact H. apply cstr_app_nul. rewrite Forall_forall in H. intros I. apply H in I. discriminate. }
  unfold char_token. destruct cs as [|a [|a' cs]]; [cbn in L; lia..|]. rewrite NN, E. cbn [obind snd]. rewrite C, SP, Nat.eqb_refl, (hex_value_ok _ _ F). reflexivity.
Qed.
Lemma char_token_name m c : char_name m c -> char_ok c -> ~ In 124 m /\ char_token m = Ret (TChar [c]).
Proof.
  intros H OK. assert (V : via_cstr [c] = Ret [c]) by (apply via_cstr_ok, char_ok_textual; constructor; [exact OK|constructor]).
  destruct H as [c N| | | | | |cs ds L F]; try (split; [cbn [In]; lia|reflexivity]).
  - split; [cbn [In]; lia|]. cbn [char_token]. now rewrite V.
  - split. { intros I. pose proof (hex_bytes _ _ F) as H. rewrite Forall_forall in H. apply H in I. discriminate. }
    rewrite (char_token_hex cs ds) by (assumption || lia). replace (Nat.ltb 8 (length cs)) with false by lia. now rewrite V.
Qed.
Lemma string_loop_esc m r e acc : ~ In 124 m -> string_loop (m ++ 124 :: r) (Some e) acc =
  obind (char_token (rev e ++ m)) (fun tk => match tk with TChar (x :: _) => string_loop r None (x :: acc) | TChar [] => Abort | _ => Ret (Some TError, r) end).
Proof.
  revert e. induction m as [|c m IH]; intros e H.
  - cbn [app string_loop N.eqb Pos.eqb]. now rewrite app_nil_r.
  - cbn [app string_loop]. assert (c <> 124) by (intros ->; apply H; now left). replace (c =? 124) with false by lia. rewrite IH by (intros I; apply H; now right). cbn [rev]. now rewrite <- app_assoc.
Qed.
Lemma string_loop_text l s r : string_text l s -> ends_atom r -> forall acc, textual (rev acc ++ s) -> string_loop (l ++ 93 :: r) None acc = Ret (Some (TString (rev acc ++ s)), r).
Proof.
  intros H Hr. induction H as [|c l s N1 N2 H IH|m c l s NM OK H IH]; intros acc T.
  - apply (string_loop_found [] r acc); [constructor|exact Hr|exact T].
  - cbn [app string_loop]. replace (c =? 93) with false by lia. replace (c =? 124) with false by lia. rewrite IH by (cbn [rev]; now rewrite <- app_assoc). cbn [rev]. now rewrite <- app_assoc.
  - destruct (char_token_name m c NM OK) as (NI & TK). cbn [app]. rewrite <- app_assoc. cbn [app]. cbn [string_loop N.eqb Pos.eqb]. rewrite string_loop_esc by exact NI. cbn [rev app]. rewrite TK. cbn [obind].
    rewrite IH by (cbn [rev]; now rewrite <- app_assoc). cbn [rev]. now rewrite <- app_assoc.
Qed.
