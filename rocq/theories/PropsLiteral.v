(** C73-C75: what literals and abbreviations denote.  See SpecLiteral.v. *)
From Coq Require Import List NArith ZArith Bool Lia Arith.
From Coq Require Import Floats.SpecFloat.
From Verif Require Import Base SpecText Lexer Parser Printer SpecRead SpecLiteral LexerProofs ParserProofs PrinterProofs LiteralProofs.
Import ListNotations.
Local Open Scope N_scope.

Lemma parse_one l t v r : lex l = Ret (Some t, r) -> form [t] v -> parse l = Ret (Some v, r).
Proof. intros E F. apply (parse_completeness l [t]); [now apply reads_one|exact F]. Qed.
Lemma parse_error l r : lex l = Ret (Some TError, r) -> parse l = Ret (Some SErr, r).
Proof. intros E. apply (parse_some_fuel _ _ _ 1%nat _ E); [reflexivity|discriminate]. Qed.

(** ** C73: numbers *)

(** Base letter, sign and at most 256 digits; magnitude below 2^31. *)
Theorem C73_integer_literals_partial : forall letter b sgn neg cs ds r,
  base_letter letter b -> sign sgn neg -> Forall2 (digit b) cs ds -> (length cs <= 256)%nat -> value b ds < 2 ^ 31 ->
  parse (braces letter sgn cs ++ r) = Ret (Some (SInt (if neg then - Z.of_N (value b ds) else Z.of_N (value b ds))%Z), r).
Proof. intros. eapply parse_one; [eapply lex_integer; eassumption|constructor]. Qed.
Print Assumptions C73_integer_literals_partial.
(** "{X-1fA}" *)
Example C73_witness : exists cs ds, base_letter 88 16 /\ sign 45 true /\ Forall2 (digit 16) cs ds /\ cs = [49; 102; 65] /\ value 16 ds = 506 /\
  parse (braces 88 45 cs ++ [120]) = Ret (Some (SInt (-506)), [120]).
Proof.
  exists [49; 102; 65], [1; 15; 10]. split; [cbn; auto|]. split; [reflexivity|].
  split; [repeat (constructor; [unfold digit; lia|]); constructor|]. repeat split; vm_compute; reflexivity.
Qed.
(** A digit that the base does not have (or any other character) is an error. *)
Theorem C73_wrong_digit : forall letter b sgn neg cs ds c r,
  base_letter letter b -> sign sgn neg -> Forall2 (digit b) cs ds -> (length cs < 256)%nat ->
  (forall d, ~ digit b c d) -> ~ space c -> c <> 46 -> c <> 125 ->
  parse ([123; letter; sgn] ++ cs ++ c :: r) = Ret (Some SErr, c :: r).
Proof. intros. apply parse_error. eapply lex_wrong_digit; eassumption. Qed.
Print Assumptions C73_wrong_digit.
(** "{O+78}" *)
Example C73_wrong_digit_witness : (forall d, ~ digit 8 56 d) /\ parse [123; 79; 43; 55; 56; 125] = Ret (Some SErr, [56; 125]).
Proof. split; [unfold digit; lia|vm_compute; reflexivity]. Qed.
(** A number with a point is the natural number all its digits make, multiplied
    (as doubles) by 1 or -1 divided by the base once for each digit after the
    point. *)
Theorem C73_real_literals_partial : forall letter b sgn neg cs ds cs' ds' r,
  base_letter letter b -> sign sgn neg -> Forall2 (digit b) cs ds -> Forall2 (digit b) cs' ds' -> cs <> [] -> cs' <> [] ->
  (length cs + length cs' <= 256)%nat -> value b (ds ++ ds') < 2 ^ 53 ->
  parse (braces letter sgn (cs ++ 46 :: cs') ++ r) =
  Ret (Some (SReal (SFmul 53 1024 (double (value b (ds ++ ds'))) (divided (length cs') (if neg then SFopp (double 1) else double 1) (double b)))), r).
Proof. intros. eapply parse_one; [eapply lex_real; eassumption|constructor]. Qed.
Print Assumptions C73_real_literals_partial.
(** "{D-2.75}" is -2.75 = -11/4. *)
Example C73_real_witness : parse [123; 68; 45; 50; 46; 55; 53; 125] = Ret (Some (SReal (S754_finite true 6192449487634432 (-51))), []) /\
  (6192449487634432 * 4 = 11 * 2 ^ 51)%Z.
Proof. split; vm_compute; reflexivity. Qed.
(** Not every real is read as the nearest one: "{D+0.3}" is not the double
    nearest to 3/10 (whose mantissa is 5404319552844595). *)
Theorem C73_nearest_refuted : parse [123; 68; 43; 48; 46; 51; 125] = Ret (Some (SReal (S754_finite false 5404319552844596 (-54))), []) /\
  (Z.abs (5404319552844595 * 10 - 3 * 2 ^ 54) < Z.abs (5404319552844596 * 10 - 3 * 2 ^ 54))%Z.
Proof. split; vm_compute; reflexivity. Qed.
Print Assumptions C73_nearest_refuted.

(** ** C74: characters and strings *)
Theorem C74_character_literals : forall m c r, char_name m c -> char_ok c ->
  parse (124 :: m ++ 124 :: r) = Ret (Some (SChar [c]), r).
Proof. intros m c r H OK. destruct (char_token_name m c H OK) as (NI & TK). eapply parse_one; [exact (lex_bars m r _ NI TK)|constructor]. Qed.
Print Assumptions C74_character_literals.
(** "|20ac|" *)
Example C74_witness : char_name [50; 48; 97; 99] 0x20AC /\ char_ok 0x20AC.
Proof. split; [apply (name_hex [50; 48; 97; 99] [2; 0; 10; 12]); [cbn; lia|repeat (constructor; [unfold digit; lia|]); constructor]|unfold char_ok, scalar; lia]. Qed.
(** More than eight digits are an error. *)
Theorem C74_long_character : forall cs ds r, (8 < length cs)%nat -> Forall2 (digit 16) cs ds ->
  parse (124 :: cs ++ 124 :: r) = Ret (Some SErr, r).
Proof.
  intros cs ds r L F. apply parse_error. apply lex_bars.
  - intros I. pose proof (hex_bytes _ _ F) as H. rewrite Forall_forall in H. apply H in I. discriminate.
  - rewrite (char_token_hex cs ds) by (assumption || lia). destruct (Nat.ltb_spec 8 (length cs)); [reflexivity|lia].
Qed.
Print Assumptions C74_long_character.
(** The text between the brackets; names of characters may stand between bars. *)
Theorem C74_string_literals : forall l s r, string_text l s -> Forall char_ok s -> ends_atom r ->
  parse (91 :: l ++ 93 :: r) = Ret (Some (SStr s), r).
Proof.
  intros l s r H F Hr. eapply parse_one; [|constructor]. rewrite lex_first; [|reflexivity|lia|lia].
  change (lex_token (91 :: l ++ 93 :: r)) with (string_loop (l ++ 93 :: r) None []). apply (string_loop_text l s r H Hr []). now apply char_ok_textual.
Qed.
Print Assumptions C74_string_literals.
(** "[a|bar||5d|]" is the string "a|]". *)
Example C74_string_witness : string_text [97; 124; 98; 97; 114; 124; 124; 53; 100; 124] [97; 124; 93] /\ Forall char_ok [97; 124; 93].
Proof.
  split; [|repeat constructor; unfold char_ok, scalar; lia]. apply text_char; [lia|lia|].
  apply (text_bars [98; 97; 114] 124 [124; 53; 100; 124]); [constructor|unfold char_ok, scalar; lia|].
  apply (text_bars [53; 100] 93 []); [apply (name_hex [53; 100] [5; 13]); [cbn; lia|repeat (constructor; [unfold digit; lia|]); constructor]|unfold char_ok, scalar; lia|constructor].
Qed.

(** ** C75: abbreviations *)

(** 'x is (quote x); `(x ...) is (template x ...) and `x is (template x). *)
Theorem C75_abbreviations : forall l v r, parse l = Ret (Some v, r) -> v <> SErr ->
  parse (39 :: l) = Ret (Some (SVec [sym_quote; v]), r) /\
  parse (96 :: l) = Ret (Some (SVec (sym_template :: match v with SVec vs => vs | _ => [v] end)), r).
Proof.
  intros l v r H NE. unfold parse in H. destruct (lex l) as [[t l1]| | | | |] eqn:E; cbn [obind fst snd] in H; try discriminate.
  set (f := (2 * length l + 2)%nat) in *.
  assert (Q : lex (39 :: l) = Ret (Some TQuote, l)) by (rewrite lex_first; [reflexivity|reflexivity|lia|lia]).
  assert (B : lex (96 :: l) = Ret (Some TBackQuote, l)) by (rewrite lex_first; [reflexivity|reflexivity|lia|lia]).
  split.
  - apply (parse_some_fuel _ _ _ (S f) _ Q); [|discriminate]. cbn [parse_token]. rewrite E. cbn [obind fst snd]. rewrite H. cbn [obind fst snd]. destruct v; congruence.
  - apply (parse_some_fuel _ _ _ (S f) _ B); [|discriminate]. cbn [parse_token]. rewrite E. cbn [obind fst snd]. rewrite H. cbn [obind fst snd]. destruct v; congruence.
Qed.
Print Assumptions C75_abbreviations.
(** An abbreviated form that is an error is an error. *)
Theorem C75_abbreviated_error : forall l r q, In q [39; 96] -> parse l = Ret (Some SErr, r) -> parse (q :: l) = Ret (Some SErr, r).
Proof.
  intros l r q IQ H. unfold parse in H. destruct (lex l) as [[t l1]| | | | |] eqn:E; cbn [obind fst snd] in H; try discriminate.
  set (f := (2 * length l + 2)%nat) in *.
  assert (Q : exists tk, lex (q :: l) = Ret (Some tk, l) /\ (tk = TQuote \/ tk = TBackQuote)).
  { cbn [In] in IQ. destruct IQ as [<-|[<-|[]]]; (rewrite lex_first; [|reflexivity|lia|lia]); eexists; (split; [reflexivity|tauto]). }
  destruct Q as (tk & Q & K). apply (parse_some_fuel _ _ _ (S f) _ Q); [|discriminate]. destruct K as [-> | ->]; cbn [parse_token]; rewrite E; cbn [obind fst snd]; rewrite H; reflexivity.
Qed.
Print Assumptions C75_abbreviated_error.
Example C75_witness : parse [97; 41] = Ret (Some (SSym [97]), [41]) /\ parse [41] = Ret (Some SErr, []).
Proof. split; vm_compute; reflexivity. Qed.
