(** Properties C25-C34: the reader. *)
From Coq Require Import List NArith ZArith Bool Lia Arith.
From Coq Require Import ZifyBool ZifyNat ZifyN.
From Verif Require Import Base ListLemmas SpecText OString Base64 Input Lexer Parser Printer
  SpecRead LexerProofs ParserProofs PrinterProofs.
Import ListNotations.
Local Open Scope N_scope.

(** ** C25 *)
Lemma input_pops_snoc n i : input_pops (S n) i = fst (input_pop (input_pops n i)).
Proof. revert i; induction n as [|n IH]; intro i; [reflexivity|]. cbn [input_pops] in *. now rewrite <- IH. Qed.

Theorem C25_line_and_column : forall (text : list N) (n : nat), (n < length text)%nat ->
  let i := input_pops n (input_new text) in
  let consumed := firstn n text in
  rest i = skipn n text /\ index i = n /\
  line i = (1 + count_occ N.eq_dec consumed 10%N)%nat /\
  exists a b, consumed = a ++ b /\ ~ In 10 b /\ (a = [] \/ last a 0 = 10) /\
              column i = (1 + length b)%nat.
Proof.
  intros text n. induction n as [|n IH]; intros Hn i consumed.
  - subst i consumed. cbn. repeat split. exists [], []. repeat split; auto.
  - destruct (IH ltac:(lia)) as (R & I0 & L & a & b & E & Hb & Ha & C). subst i consumed.
    rewrite input_pops_snoc. set (j := input_pops n (input_new text)) in *. clearbody j.
    destruct (nth_error text n) as [c|] eqn:Ec; [|apply nth_error_None in Ec; lia].
    apply nth_error_split in Ec as (p & q & -> & Hp).
    rewrite app_length in Hn. cbn [length] in Hn.
    rewrite firstn_app_exact in * by lia. rewrite skipn_app_exact in R by lia.
    replace (p ++ c :: q) with ((p ++ [c]) ++ q) by (rewrite <- app_assoc; reflexivity).
    rewrite firstn_app_exact, skipn_app_exact by (rewrite app_length; cbn; lia).
    unfold input_pop. rewrite R. destruct q as [|d q]; [cbn in Hn; lia|].
    rewrite count_occ_app. cbn [count_occ].
    destruct (N.eqb_spec c 10) as [->|Hc]; cbn [fst rest index line column].
    + repeat split; [lia| |].
      { destruct (N.eq_dec 10 10); [lia|congruence]. }
      exists (p ++ [10]), []. rewrite app_nil_r. repeat split; auto. right. apply last_last.
    + repeat split; [lia| |].
      { destruct (N.eq_dec c 10); [congruence|lia]. }
      exists a, (b ++ [c]). rewrite app_length. cbn [length]. rewrite E, app_assoc.
      repeat split; auto; [|lia]. intro K. apply in_app_or in K as [K|[K|[]]]; auto.
Qed.
Print Assumptions C25_line_and_column.

Example C25_witness :
  let i := input_pops 4 (input_new [97; 10; 98; 99; 100]) in line i = 2%nat /\ column i = 3%nat.
Proof. split; reflexivity. Qed.

(** ** C69: text appended to the input is read after the rest of it, as if it had
    been there from the start, unless everything has been read already. *)
Lemma push_pops more n : forall i, (n < length (rest i))%nat -> input_push (input_pops n i) more = input_pops n (input_push i more).
Proof.
  induction n as [|n IH]; intros [r ix ln cn] H; [reflexivity|]. cbn [rest] in H. destruct r as [|c [|d r]]; cbn [length] in H; [lia|lia|].
  cbn [input_pops input_pop rest input_push app fst]. destruct (c =? 10); cbn [fst]; rewrite IH by (cbn [rest length]; lia); reflexivity.
Qed.
Lemma pops_add k n : forall i, input_pops k (input_pops n i) = input_pops (n + k) i.
Proof. induction n as [|n IH]; intros i; [reflexivity|]. cbn [input_pops Nat.add]. apply IH. Qed.
Theorem C69_appended_text_partial : forall text more n k, (n < length text)%nat ->
  input_pops k (input_push (input_pops n (input_new text)) more) = input_pops (n + k) (input_new (text ++ more)).
Proof. intros text more n k H. rewrite push_pops by exact H. now rewrite pops_add. Qed.
Print Assumptions C69_appended_text_partial.
Example C69_witness :
  let i := input_pops 3 (input_push (input_pops 1 (input_new [97; 10])) [98; 99; 100]) in rest i = [100] /\ line i = 2%nat /\ column i = 3%nat.
Proof. repeat split. Qed.
(** After the end of a text that ends in a newline, the appended text is taken to
    be on the line before. *)
Theorem C69_appended_at_end_refuted :
  let i := input_push (input_pops 2 (input_new [97; 10])) [98; 99] in
  let j := input_pops 2 (input_new [97; 10; 98; 99]) in
  rest i = rest j /\ line j = 2%nat /\ column j = 1%nat /\ line i = 1%nat /\ column i = 2%nat.
Proof. repeat split. Qed.
Print Assumptions C69_appended_at_end_refuted.

(** ** C26 *)
Theorem C26_lexer_progress : forall l,
  lex l <> NoFuel /\
  forall t r, lex l = Ret (t, r) ->
    (exists p, l = p ++ r) /\ (t <> None -> t <> Some TError -> (length r < length l)%nat).
Proof.
  intro l. split; [apply lex_no_fuel|]. intros t r E.
  pose proof (lex_lex_ok l) as K. rewrite E in K. destruct K as [K1 K2]. split; [exact K1|].
  intros H1 H2. destruct t as [[]|]; auto; congruence.
Qed.
Print Assumptions C26_lexer_progress.

(** Tokenising the whole input ends after at most as many tokens as there are
    characters. *)
Theorem C26_tokenising_terminates : forall l ts r, reads l ts r -> ~ In TError ts ->
  (length ts + length r <= length l)%nat.
Proof.
  intros l ts r H. induction H as [|l t l1 ts r E H IH]; intro K; [cbn; lia|].
  destruct (C26_lexer_progress l) as [_ P]. destruct (P _ _ E) as [_ P2].
  specialize (P2 ltac:(discriminate)). cbn [In length] in *.
  assert (t <> TError) by (intro; apply K; left; congruence).
  specialize (P2 ltac:(congruence)). specialize (IH ltac:(tauto)). lia.
Qed.
Print Assumptions C26_tokenising_terminates.

(** The lexer leaves the input exactly behind the token (an input keeps its
    position by popping, Input.v). *)
Theorem C26_input_position : forall i t i', lex_input i = Ret (t, i') ->
  exists r n, lex (rest i) = Ret (t, r) /\ i' = input_pops n i /\ rest i' = r.
Proof.
  intros i t i'. unfold lex_input. destruct (lex (rest i)) as [[t0 r]| | | | |] eqn:E; cbn [obind fst snd]; try discriminate.
  intros [= -> <-]. exists r, (length (rest i) - length r)%nat. repeat split.
  destruct (C26_lexer_progress (rest i)) as [_ P]. destruct (P _ _ E) as [[p Hp] _].
  rewrite Hp, app_length. replace (length p + length r - length r)%nat with (length p) by lia.
  clear E P. revert i Hp; induction p as [|c p IH]; intros i Hp; [exact Hp|].
  cbn [length input_pops]. apply IH. unfold input_pop. rewrite Hp. cbn [app].
  destruct (p ++ r) eqn:Epr; [reflexivity|]. destruct (c =? 10); reflexivity.
Qed.
Print Assumptions C26_input_position.

Example C26_witness : reads [40; 97; 41; 33] [TLParen; TSymbol [97]; TRParen] [33].
Proof. repeat (econstructor; [vm_compute; reflexivity|]). constructor. Qed.

(** ** C27 *)
Theorem C27_blanks_are_insignificant : forall w l, blank w -> lex (w ++ l) = lex l /\ parse (w ++ l) = parse l.
Proof.
  intros w l H.
  assert (E : lex (w ++ l) = lex l).
  { induction H as [|c w Hc H IH|body w Hb H IH|body w Hb H IH]; [reflexivity|..].
    - cbn [app]. rewrite lex_space by (now apply space_isspace). exact IH.
    - cbn [app]. rewrite <- app_assoc. cbn [app]. now rewrite lex_line_comment.
    - cbn [app]. rewrite <- app_assoc. cbn [app]. rewrite <- IH. apply (lex_multi_comment body (w ++ l)). assumption. }
  split; [exact E|].
  pose proof (parse_no_fuel l) as NF. destruct (lex l) as [[t r]| | | | |] eqn:El.
  - unfold parse in NF. rewrite El in NF. cbn [obind fst snd] in NF.
    rewrite (parse_some_fuel _ _ _ _ _ E eq_refl NF).
    unfold parse. rewrite El. reflexivity.
  - unfold parse. now rewrite E, El.
  - unfold parse. now rewrite E, El.
  - unfold parse. now rewrite E, El.
  - unfold parse. now rewrite E, El.
  - now apply lex_no_fuel in El.
Qed.
Print Assumptions C27_blanks_are_insignificant.

(** " ;x\n#! a! !#" *)
Example C27_witness : blank [32; 59; 120; 10; 35; 33; 32; 97; 33; 32; 33; 35].
Proof.
  apply blank_space; [unfold space; cbn [In]; auto 10|].
  apply (blank_line [120]); [cbn [In]; lia|].
  apply (blank_multi [32; 97; 33; 32] []); [|constructor].
  intros p q E. cbn [app] in E.
  assert (K : forall l : list N, natforall 5 (fun k => negb ((nth (N.to_nat k) l 0 =? 33) && (nth (S (N.to_nat k)) l 0 =? 35))) = true ->
     length l = 5%nat -> forall p q, l <> p ++ 33 :: 35 :: q).
  { clear. intros l H L p q ->. rewrite app_length in L. cbn [length] in L.
    pose proof (natforall_spec _ _ H (N.of_nat (length p)) ltac:(lia)) as K. cbv beta in K.
    rewrite Nnat.Nat2N.id in K. rewrite app_nth2, Nat.sub_diag in K by lia.
    rewrite app_nth2 in K by lia. replace (S (length p) - length p)%nat with 1%nat in K by lia.
    cbn in K. discriminate. }
  eapply K; [| |exact E]; reflexivity.
Qed.

(** ** C28: proved for every int32_t but the smallest. *)
Theorem C28_integers_read_back_partial : forall z r, (INT32_MIN < z <= INT32_MAX)%Z ->
  parse (print (SInt z) ++ r) = Ret (Some (SInt z), r).
Proof.
  intros z r Hz. apply (parse_completeness _ [TInt z]); [|constructor].
  apply reads_one. now apply lex_int.
Qed.
Print Assumptions C28_integers_read_back_partial.

(** "{D-2147483648}": the reader negates -2147483648. *)
Theorem C28_integers_read_back_refuted :
  in_int32 INT32_MIN = true /\ parse (print (SInt INT32_MIN)) = Undef.
Proof. split; vm_compute; reflexivity. Qed.
Print Assumptions C28_integers_read_back_refuted.

Example C28_witness : print (SInt (-120)) = [123; 68; 45; 49; 50; 48; 125]
  /\ parse ([123; 68; 45; 49; 50; 48; 125] ++ [120]) = Ret (Some (SInt (-120)), [120]).
Proof. split; vm_compute; reflexivity. Qed.

(** ** C29: proved for strings without ']' and '|'. *)
Theorem C29_strings_read_back_partial : forall s r,
  Forall (fun c => char_ok c /\ c <> 93 /\ c <> 124) s -> ends_atom r ->
  parse (print (SStr s) ++ r) = Ret (Some (SStr s), r).
Proof.
  intros s r F Hr. apply (parse_completeness _ [TString s]); [|constructor].
  apply reads_one. cbn [print]. rewrite <- !app_assoc. now apply lex_string.
Qed.
Print Assumptions C29_strings_read_back_partial.

(** "[a]b]" is an error and "[|bar|]" is the string "|" although it is how the
    string "|bar|" prints. *)
Theorem C29_strings_read_back_refuted :
  (exists r, parse (print (SStr [97; 93; 98])) = Ret (Some SErr, r)) /\
  parse (print (SStr [124; 98; 97; 114; 124])) = Ret (Some (SStr [124]), []).
Proof. split; [eexists|]; vm_compute; reflexivity. Qed.
Print Assumptions C29_strings_read_back_refuted.

Example C29_witness : Forall (fun c => char_ok c /\ c <> 93 /\ c <> 124) [91; 228; 0x1F600] /\ ends_atom [41].
Proof.
  split; [repeat constructor; unfold char_ok, scalar; lia|right; cbn [In]; auto 10].
Qed.

(** ** C30 *)
Theorem C30_characters_and_symbols_read_back_partial :
  (forall c r, char_ok c -> parse (print (SChar [c]) ++ r) = Ret (Some (SChar [c]), r)) /\
  (forall s r, symbol_text s -> ends_atom r -> parse (print (SSym s) ++ r) = Ret (Some (SSym s), r)).
Proof.
  split; intros.
  - apply (parse_completeness _ [TChar [c]]); [|constructor]. apply reads_one. now apply lex_char_print.
  - apply (parse_completeness _ [TSymbol s]); [|constructor]. apply reads_one. now apply lex_sym.
Qed.
Print Assumptions C30_characters_and_symbols_read_back_partial.

(** "|00|" is read as a character value without character, which prints as
    "||", which is not a character. *)
Theorem C30_characters_read_back_refuted :
  parse [124; 48; 48; 124] = Ret (Some (SChar []), []) /\
  parse (print (SChar [])) = Ret (Some SErr, []).
Proof. split; vm_compute; reflexivity. Qed.
Print Assumptions C30_characters_read_back_refuted.

Example C30_witness : char_ok 0x20AC /\ symbol_text [97; 45; 62; 49; 96].
Proof.
  split; [unfold char_ok, scalar; lia|]. split; [|split; [|split; [|split]]]; try discriminate.
  - repeat constructor; unfold char_ok, scalar, delimiter, space; cbn [In]; lia.
  - exists 97, [45; 62; 49; 96]. cbn [In]. repeat split; try lia. discriminate.
Qed.

(** ** C31 *)
Theorem C31_nested_data_reads_back :
  (forall v r, readable v -> ends_atom r -> parse (print v ++ r) = Ret (Some v, r)) /\
  (forall vs r, readable (SVec vs) -> parse (print (SVec vs) ++ r) = Ret (Some (SVec vs), r)).
Proof.
  split; intros.
  - destruct (reads_print v H r (or_introl H0)) as (ts & R & F). eapply parse_completeness; eassumption.
  - destruct (reads_print _ H r) as (ts & R & F); [right; eauto|]. eapply parse_completeness; eassumption.
Qed.
Print Assumptions C31_nested_data_reads_back.

(** (f (1 [a]) |x| 1.2.3)x *)
Example C31_witness :
  let v := SVec [SSym [102]; SVec [SInt 1; SStr [97]]; SChar [120]; SSemver 1 2 3; SVec []] in
  readable v /\ parse (print v ++ [120]) = Ret (Some v, [120]).
Proof.
  intro v. assert (H : readable v).
  { repeat constructor; try (unfold char_ok, scalar, delimiter, space, INT32_MIN, INT32_MAX, two64; cbn [In]; lia);
      try discriminate. exists 102, []. cbn [In]. repeat split; try lia. discriminate. }
  split; [exact H|]. apply (proj2 C31_nested_data_reads_back). exact H.
Qed.

(** ** C32 *)
Lemma depth_app a b : depth (a ++ b) = (depth a + depth b)%Z.
Proof. induction a as [|t a IH]; [reflexivity|]. cbn [app depth]. destruct t; lia. Qed.

Lemma app_split {X} (p q a b : list X) : p ++ q = a ++ b ->
  (exists c, a = p ++ c) \/ (exists c, p = a ++ c /\ b = c ++ q).
Proof.
  revert a; induction p as [|x p IH]; intros a E; [left; exists a; reflexivity|].
  destruct a as [|y a]; [right; exists (x :: p); auto|]. injection E as -> E.
  destruct (IH a E) as [[c ->]|(c & -> & ->)]; [left; exists c; reflexivity|right; exists c; auto].
Qed.

Lemma form_depth :
  (forall ts v, form ts v -> depth ts = 0%Z /\ forall p q, ts = p ++ q -> (0 <= depth p)%Z) /\
  (forall ts vs, forms ts vs -> depth ts = 0%Z /\ forall p q, ts = p ++ q -> (0 <= depth p)%Z).
Proof.
  apply (form_mut (fun ts v _ => depth ts = 0%Z /\ forall p q, ts = p ++ q -> (0 <= depth p)%Z)
                  (fun ts vs _ => depth ts = 0%Z /\ forall p q, ts = p ++ q -> (0 <= depth p)%Z)).
  1-9: intros; (split; [reflexivity|]); intros p q E; destruct p as [|t p]; [cbn; lia|];
       injection E as <- E; symmetry in E; apply app_eq_nil in E as [-> _]; cbn; lia.
  1-3: intros ts v F [D P]; try (intro); (split; [exact D|]); intros p q E; destruct p as [|t p]; [cbn; lia|];
       injection E as <- E; cbn [depth]; eapply P; eassumption.
  - intros ts vs F [D P]. split; [cbn [depth]; rewrite depth_app, D; reflexivity|].
    intros p q E. destruct p as [|t p]; [cbn; lia|]. injection E as <- E. cbn [depth].
    symmetry in E. destruct (app_split _ _ _ _ E) as [[c Ec]|(c & Ec & Eb)].
    + specialize (P p c Ec). lia.
    + subst p. rewrite depth_app, D. destruct c as [|x c]; [cbn; lia|]. injection Eb as <- Eb.
      symmetry in Eb; apply app_eq_nil in Eb as [-> _]. cbn. lia.
  - split; [reflexivity|]. intros p q E. symmetry in E; apply app_eq_nil in E as [-> _]. cbn; lia.
  - intros ts v ts' vs F [D P] F' [D' P']. split; [rewrite depth_app; lia|].
    intros p q E. symmetry in E. destruct (app_split _ _ _ _ E) as [[c Ec]|(c & -> & Eb)].
    + eapply P; eassumption.
    + rewrite depth_app. specialize (P' c q Eb). lia.
Qed.

Lemma reads_prefix l a r r0 b r' : reads l a r -> lex r = Ret (None, r0) -> reads l b r' -> exists c, a = b ++ c.
Proof.
  intros H HE. revert b r'; induction H as [|l t l1 ts r E H IH]; intros b r' Hb.
  - inversion Hb; subst; [exists []; reflexivity|congruence].
  - inversion Hb; subst; [eexists; reflexivity|]. rewrite E in H0. injection H0 as <- <-.
    destruct (IH HE _ _ H1) as [c ->]. exists c. reflexivity.
Qed.

(** All tokens up to the end of the input can be read. *)
Definition tokenises (l : list N) : Prop := exists ts r r', reads l ts r /\ lex r = Ret (None, r').

Lemma lex_none_rest l r : lex l = Ret (None, r) -> r = [].
Proof.
  assert (ST : forall l e a r, string_loop l e a = Ret (None, r) -> r = []).
  { intro m; induction m as [|c m IH]; intros e a q; cbn [string_loop].
    - destruct e; [discriminate|]. intros [= <-]. reflexivity.
    - destruct e as [e|].
      + destruct (c =? 124); [|apply IH]. destruct (char_token (rev e)) as [[]| | | | |]; cbn [obind]; try discriminate.
        destruct s; [discriminate|apply IH].
      + destruct (c =? 93); [destruct m as [|d m']; [|destruct (is_delim d); [|discriminate]];
          destruct (via_cstr (rev a)); cbn [obind]; discriminate|].
        destruct (c =? 124); apply IH. }
  assert (NU : forall l ws b n d f c ds p r, number_loop l ws b n d f c ds p <> Ret (None, r)).
  { intro m; induction m as [|c m IH]; intros; cbn [number_loop].
    - destruct ws; [discriminate|]. destruct (finish_number _ _ _ _ _ _); discriminate.
    - destruct (isspace c); [apply IH|]. destruct (c =? 46); [destruct d; [discriminate|]; destruct (Nat.eqb _ _); [discriminate|apply IH]|].
      destruct (isxdigit c); [destruct (Nat.leb _ _); [discriminate|]; destruct (digit_ok _ _); [apply IH|discriminate]|].
      destruct (c =? 125); [|discriminate]. destruct (finish_number _ _ _ _ _ _); discriminate. }
  assert (TK : forall l r, lex_token l = Ret (None, r) -> r = []).
  { clear l r. intros [|c l] r; unfold lex_token; [intros [= <-]; reflexivity|].
    destruct (c =? 40); [discriminate|]. destruct (c =? 41); [discriminate|].
    destruct (c =? 39); [discriminate|]. destruct (c =? 96); [discriminate|].
    destruct (c =? 123).
    { unfold lex_number. destruct (expect_octet _ _) as [[? ?]|]; [|discriminate].
      destruct (expect_octet _ _) as [[? ?]|]; [|discriminate].
      destruct (expect_octet _ _) as [[? ?]|]; [|discriminate]. intro K; now apply NU in K. }
    destruct (isdigit c).
    { unfold lex_semver.
      destruct (semver_number _) as [[[?|] ?]| | | | |]; cbn [obind]; try discriminate.
      destruct (expect_octet _ _) as [[? ?]|]; [|discriminate].
      destruct (semver_number _) as [[[?|] ?]| | | | |]; cbn [obind]; try discriminate.
      destruct (expect_octet _ _) as [[? ?]|]; [|discriminate].
      destruct (semver_number _) as [[[?|] ?]| | | | |]; cbn [obind]; discriminate. }
    destruct (c =? 91); [apply ST|].
    destruct (c =? 124) eqn:E0.
    { unfold lex_char. rewrite E0. destruct (until_bar l []) as [[s t']|]; [|intros [= <-]; reflexivity].
      destruct (char_token s); cbn [obind]; discriminate. }
    unfold lex_symbol. destruct (symbol_chars (c :: l)) as [s r']. destruct s as [|a s]; [discriminate|].
    destruct (eqb_list _ _); [discriminate|]. destruct (eqb_list _ _); [discriminate|].
    destruct (eqb_list _ _); [discriminate|]. destruct (via_cstr _); discriminate. }
  unfold lex. generalize (length l) as f. intro f; revert l; induction f as [|f IH]; intros l; cbn [lex_fuel];
    (destruct (skip_ws l) as [|c l']; [intros [= <-]; reflexivity|]);
    (destruct (c =? 59); [try discriminate; try apply IH|]);
    (destruct ((c =? 35) && _); [|apply TK]);
    (destruct (comment_end _); [try discriminate; try apply IH|discriminate]).
Qed.

Lemma tokenises_nil : tokenises [].
Proof. exists [], [], []. split; [constructor|reflexivity]. Qed.
Lemma tokenises_lex l : tokenises l -> exists t l1, lex l = Ret (t, l1) /\ tokenises l1.
Proof.
  intros (ts & r & r' & H & E). inversion H; subst.
  - exists None, r'. split; [assumption|]. apply lex_none_rest in E as ->. apply tokenises_nil.
  - exists (Some t), l1. split; [assumption|]. exists ts0, r, r'. auto.
Qed.

Lemma parse_tokenises f :
  (forall t l, token_textual t -> tokenises l -> parse_token f t l = NoFuel \/
     exists v r, parse_token f t l = Ret (v, r) /\ tokenises r) /\
  (forall acc l, tokenises l -> parse_list f acc l = NoFuel \/
     exists v r, parse_list f acc l = Ret (Some v, r) /\ tokenises r).
Proof.
  induction f as [|f [IHt IHl]]; [split; intros; left; reflexivity|]. split.
  - intros [tk|] l HT HS; cbn [parse_token]; [|right; eauto].
    destruct tk; try (right; eauto; fail); try (right; rewrite from_cstr_ok by exact HT; eauto; fail).
    + destruct (IHl [] l HS) as [->|(v & r & -> & H)]; [left; reflexivity|right; eauto].
    + destruct (tokenises_lex l HS) as (t & l1 & E & HS1). rewrite E. cbn [obind fst snd].
      destruct (IHt t l1 (lex_textual _ _ _ E) HS1) as [->|(v & r & -> & H)]; [left; reflexivity|right].
      cbn [obind fst snd]. destruct v as [[]|]; eauto.
    + destruct (tokenises_lex l HS) as (t & l1 & E & HS1). rewrite E. cbn [obind fst snd].
      destruct (IHt t l1 (lex_textual _ _ _ E) HS1) as [->|(v & r & -> & H)]; [left; reflexivity|right].
      cbn [obind fst snd]. destruct v as [[]|]; eauto.
  - intros acc l HS. cbn [parse_list]. destruct (tokenises_lex l HS) as (t & l1 & E & HS1). rewrite E.
    cbn [obind fst snd]. destruct t as [tk|]; [|right; eauto].
    assert (G : obind (parse_token f (Some tk) l1) (fun q =>
              match fst q with
              | None => Ret (Some SErr, snd q)
              | Some SErr => Ret (Some SErr, snd q)
              | Some v => parse_list f (v :: acc) (snd q)
              end) = NoFuel \/ exists v r, obind (parse_token f (Some tk) l1) (fun q =>
              match fst q with
              | None => Ret (Some SErr, snd q)
              | Some SErr => Ret (Some SErr, snd q)
              | Some v => parse_list f (v :: acc) (snd q)
              end) = Ret (Some v, r) /\ tokenises r).
    { destruct (IHt (Some tk) l1 (lex_textual _ _ _ E) HS1) as [->|(v & r & -> & H)]; [left; reflexivity|].
      cbn [obind fst snd]. destruct v as [[]|]; try (right; eauto; fail); apply IHl; exact H. }
    destruct tk; try exact G; right; eauto.
Qed.

Lemma parse_lparen_some f l : parse_token f (Some TLParen) l = NoFuel \/
  forall r, parse_token f (Some TLParen) l <> Ret (None, r).
Proof.
  destruct f as [|f]; [left; reflexivity|]. right. cbn [parse_token]. clear.
  revert l. generalize (@nil sexp) as acc. induction f as [|f IH]; intros acc l r; [discriminate|]. cbn [parse_list].
  destruct (lex l) as [[[tk|] l1]| | | | |]; cbn [obind fst snd]; try discriminate.
  assert (G : obind (parse_token f (Some tk) l1) (fun q =>
              match fst q with
              | None => Ret (Some SErr, snd q)
              | Some SErr => Ret (Some SErr, snd q)
              | Some v => parse_list f (v :: acc) (snd q)
              end) <> Ret (None, r)).
  { destruct (parse_token f (Some tk) l1) as [[v q]| | | | |]; cbn [obind fst snd]; try discriminate.
    destruct v as [[]|]; try discriminate; apply IH. }
  destruct tk; try exact G; discriminate.
Qed.

(** A value that is not an error was read from balanced tokens that form
    exactly this value; conversely such tokens are always read as this value. *)
Theorem C32_values_come_from_balanced_tokens : forall l,
  (forall v r, parse l = Ret (Some v, r) -> v <> SErr ->
     exists ts, reads l ts r /\ form ts v /\ depth ts = 0%Z /\
       (forall p q, ts = p ++ q -> (0 <= depth p)%Z)) /\
  (forall ts v r, reads l ts r -> form ts v -> parse l = Ret (Some v, r)).
Proof.
  intro l. split; [|intros; eapply parse_completeness; eassumption].
  intros v r H Hv. destruct (parse_soundness l v r H Hv) as (ts & R & F). exists ts.
  destruct (proj1 form_depth ts v F). auto.
Qed.
Print Assumptions C32_values_come_from_balanced_tokens.

(** A text that opens a parenthesis and never closes it. *)
Theorem C32_unmatched_open_is_error : forall l ts r r',
  reads l (TLParen :: ts) r -> lex r = Ret (None, r') ->
  (forall p q, ts = p ++ q -> (0 < depth (TLParen :: p))%Z) ->
  exists s, parse l = Ret (Some SErr, s).
Proof.
  intros l ts r r' R E D.
  assert (HL : exists l1, lex l = Ret (Some TLParen, l1) /\ reads l1 ts r) by (inversion R; subst; eauto).
  destruct HL as (l1 & HL & R1).
  assert (TK : tokenises l1) by (exists ts, r, r'; auto).
  pose proof (parse_no_fuel l) as NF.
  assert (HP : exists v s, parse l = Ret (Some v, s)).
  { unfold parse in *. rewrite HL in *. cbn [obind fst snd] in *.
    destruct (proj1 (parse_tokenises (2 * length l + 2)) (Some TLParen) l1 I TK) as [K|(v & s & K & _)]; [congruence|].
    destruct v as [v|]; [eauto|]. exfalso.
    destruct (parse_lparen_some (2 * length l + 2) l1) as [K'|K']; [congruence|]. now apply (K' s). }
  destruct HP as (v & s & HP). exists s.
  assert (V : v = SErr \/ v <> SErr) by (destruct v; auto; right; discriminate).
  destruct V as [->|V]; [assumption|exfalso].
  destruct (parse_soundness _ _ _ HP V) as (ts' & R' & F).
  destruct (reads_prefix _ _ _ _ _ _ R E R') as [c Ec].
  destruct ts' as [|t ts']; [now apply form_nonempty in F|]. injection Ec as <- Ec.
  specialize (D ts' c Ec). destruct (proj1 form_depth _ _ F) as [D0 _]. lia.
Qed.
Print Assumptions C32_unmatched_open_is_error.

Theorem C32_unexpected_close_is_error : forall w r, blank w -> parse (w ++ 41 :: r) = Ret (Some SErr, r).
Proof.
  intros w r H. rewrite (proj2 (C27_blanks_are_insignificant w (41 :: r) H)).
  apply (parse_some_fuel _ (Some TRParen) r 1); [apply lex_delims|reflexivity|discriminate].
Qed.
Print Assumptions C32_unexpected_close_is_error.

(** "(a (b)" *)
Example C32_witness :
  let l := [40; 97; 32; 40; 98; 41] in
  let ts := [TSymbol [97]; TLParen; TSymbol [98]; TRParen] in
  reads l (TLParen :: ts) [] /\ lex [] = Ret (None, []) /\
  (forall p q, ts = p ++ q -> (0 < depth (TLParen :: p))%Z).
Proof.
  intros l ts. subst l ts. split; [repeat (econstructor; [vm_compute; reflexivity|]); constructor|].
  split; [reflexivity|]. intros p q E.
  do 4 (destruct p as [|? p]; [cbn; lia|injection E as <- E]).
  symmetry in E; apply app_eq_nil in E as [-> _]. cbn. lia.
Qed.

(** ** C33: refuted for numbers: "{D+5" is read as 5. *)
Theorem C33_truncated_literals_refuted : parse [123; 68; 43; 53] = Ret (Some (SInt 5), []).
Proof. vm_compute. reflexivity. Qed.
Print Assumptions C33_truncated_literals_refuted.

(** Proved for strings and characters: when the literal that starts here ends
    only inside [t] (whatever it is read as), then the text cut off before [t]
    does not give a value. *)
Lemma string_cut s t esc acc tok r :
  string_loop (s ++ t) esc acc = Ret (tok, r) -> (length r < length t)%nat ->
  string_loop s esc acc = Ret (None, []) \/ string_loop s esc acc = Ret (Some TError, []).
Proof.
  revert esc acc; induction s as [|c s IH]; intros esc acc H L; cbn [string_loop].
  - destruct esc; auto.
  - cbn [app string_loop] in H. destruct esc as [e|].
    + destruct (c =? 124); [|eapply IH; eassumption].
      destruct (char_token (rev e)) as [tk| | | | |]; cbn [obind] in *; try discriminate.
      destruct tk; try (injection H as _ <-; rewrite app_length in L; lia).
      destruct s0; [discriminate|eapply IH; eassumption].
    + destruct (c =? 93).
      { assert (r = s ++ t); [|subst r; rewrite app_length in L; lia].
        destruct (s ++ t) as [|d m] eqn:Em; [|destruct (is_delim d); [|injection H as _ <-; reflexivity]];
          (destruct (via_cstr (rev acc)); cbn [obind] in H; try discriminate; injection H as _ <-; reflexivity). }
      destruct (c =? 124); eapply IH; eassumption.
Qed.

Lemma in_split_first c (s : list N) : In c s -> exists a b, s = a ++ c :: b /\ ~ In c a.
Proof.
  induction s as [|x s IH]; intro H; [destruct H|].
  destruct (N.eq_dec x c) as [->|Hx]; [exists [], s; split; [reflexivity|intros []]|].
  destruct H as [H|H]; [congruence|]. destruct (IH H) as (a & b & -> & Ha).
  exists (x :: a), b. split; [reflexivity|]. intros [K|K]; auto.
Qed.

Theorem C33_truncated_literals_partial : forall w s t,
  blank w ->
  (forall tok r, lex (91 :: s ++ t) = Ret (tok, r) -> (length r < length t)%nat ->
     parse (w ++ 91 :: s) = Ret (None, []) \/ parse (w ++ 91 :: s) = Ret (Some SErr, [])) /\
  (forall tok r, lex (124 :: s ++ t) = Ret (tok, r) -> (length r < length t)%nat ->
     parse (w ++ 124 :: s) = Ret (None, [])).
Proof.
  intros w s t Hw. split; intros tok r H L; rewrite (proj2 (C27_blanks_are_insignificant w _ Hw)).
  - rewrite lex_first in H; [|reflexivity|lia|lia].
    change (lex_token (91 :: s ++ t)) with (string_loop (s ++ t) None []) in H.
    assert (E : lex (91 :: s) = string_loop s None []) by (rewrite lex_first; [reflexivity|reflexivity|lia|lia]).
    destruct (string_cut _ _ _ _ _ _ H L) as [K|K]; rewrite K in E; [left|right];
      (eapply (parse_some_fuel _ _ _ 1); [exact E|reflexivity|discriminate]).
  - rewrite lex_first in H; [|reflexivity|lia|lia].
    change (lex_token (124 :: s ++ t)) with (lex_char (124 :: s ++ t)) in H.
    unfold lex_char in H. cbn [N.eqb Pos.eqb] in H.
    assert (E : lex (124 :: s) = lex_char (124 :: s)) by (rewrite lex_first; [reflexivity|reflexivity|lia|lia]).
    unfold lex_char in E. cbn [N.eqb Pos.eqb] in E.
    assert (K : ~ In 124 s).
    { intro K. destruct (in_split_first 124 s K) as (a & b & -> & Ha). rewrite <- app_assoc in H. cbn [app] in H.
      rewrite until_bar_found in H by assumption.
      destruct (char_token _); cbn [obind] in H; try discriminate. injection H as _ <-. rewrite app_length in L. lia. }
    rewrite until_bar_none in E by assumption.
    eapply (parse_some_fuel _ _ _ 1); [exact E|reflexivity|discriminate].
Qed.
Print Assumptions C33_truncated_literals_partial.

(** "[a|tab|" is cut from "[a|tab|b]". *)
Example C33_witness : lex ([91] ++ [97; 124; 116; 97; 98; 124] ++ [98; 93]) = Ret (Some (TString [97; 9; 98]), []).
Proof. vm_compute. reflexivity. Qed.

(** ** C34 *)
Theorem C34_parser_terminates_and_progresses_partial : forall l,
  parse l <> NoFuel /\
  (forall x r, parse l = Ret (x, r) -> exists p, l = p ++ r) /\
  (forall v r, parse l = Ret (Some v, r) -> v <> SErr -> (length r < length l)%nat) /\
  (tokenises l -> exists x r, parse l = Ret (x, r)).
Proof.
  intro l. split; [apply parse_no_fuel|]. split; [|split].
  - intros x r. unfold parse. destruct (lex l) as [[t l1]| | | | |] eqn:E; cbn [obind fst snd]; try discriminate.
    pose proof (lex_lex_ok l) as K. rewrite E in K. destruct K as [K _].
    pose proof (suffix_length _ _ K).
    pose proof (proj1 (parse_fuel_ok (2 * length l + 2)) t l1 ltac:(lia)) as P.
    intro H'. rewrite H' in P. exact (suffix_trans _ _ _ P K).
  - intros v r H Hv. destruct (parse_soundness _ _ _ H Hv) as (ts & R & F).
    assert (NE : ~ In TError ts).
    { clear -F. destruct form_depth as [_ _]. revert ts v F.
      apply (form_ind2 (fun ts v _ => ~ In TError ts) (fun ts vs _ => ~ In TError ts));
        intros; cbn [In]; rewrite ?in_app_iff; cbn [In]; intuition discriminate. }
    pose proof (C26_tokenising_terminates _ _ _ R NE).
    destruct ts; [now apply form_nonempty in F|]. cbn [length] in *. lia.
  - intro T. pose proof (parse_no_fuel l) as NF. unfold parse in *.
    destruct (tokenises_lex l T) as (t & l1 & E & T1). rewrite E in *. cbn [obind fst snd] in *.
    destruct (proj1 (parse_tokenises (2 * length l + 2)) t l1 (lex_textual _ _ _ E) T1) as [K|(v & s & K & _)]; [congruence|eauto].
Qed.
Print Assumptions C34_parser_terminates_and_progresses_partial.

(** Refuted: a too long number converts an out-of-range double to size_t, and
    a string with an escaped surrogate "[|d800|]" aborts the process. *)
Theorem C34_parsing_never_crashes_refuted :
  parse ([123; 68; 43] ++ repeat 57 30 ++ [125]) = Undef /\
  parse [91; 124; 100; 56; 48; 48; 124; 93] = Abort.
Proof. split; vm_compute; reflexivity. Qed.
Print Assumptions C34_parsing_never_crashes_refuted.

Example C34_witness : tokenises [40; 97; 41; 39].
Proof.
  exists [TLParen; TSymbol [97]; TRParen; TQuote], [], []. split; [|reflexivity].
  repeat (econstructor; [vm_compute; reflexivity|]). constructor.
Qed.
