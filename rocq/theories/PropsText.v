(** Properties C01-C14: UTF-8, strings and vectors. *)
From Coq Require Import List NArith ZArith Bool Lia Arith.
From Coq Require Import ZifyBool ZifyNat ZifyN.
From Verif Require Import Base ListLemmas Utf8 SpecText Utf8Proofs Vec SpecSeq SpecVec VecProofs
  OString SpecStr OStringProofs SpecSplit SplitProofs SpecEdit Leven LevenProofs.
Import ListNotations.
Local Open Scope N_scope.

(** ** C01 *)
Theorem C01_utf8_round_trip : forall c, scalar c ->
  exists u, encode_character c = Some u /\ u8_bytes u = utf8 c /\ (1 <= u8_num u <= 4)%nat /\
    length (u8_bytes u) = u8_num u /\
    (c <> 0 -> forall rest, decode_character (u8_bytes u ++ rest) = (DecOk, c, u8_num u)).
Proof.
  intros c Hc. destruct (encode_character_scalar c Hc) as (u & H1 & H2 & H3).
  exists u. split; [exact H1|]. split; [exact H2|].
  split; [rewrite H3; apply utf8_nonempty|]. split; [now rewrite H2, H3|].
  intros Hnz rest. rewrite H2, H3. destruct Hc as [Hc _]. apply decode_utf8; lia.
Qed.
Print Assumptions C01_utf8_round_trip.

Theorem C01_encoder_accepts_exactly_the_scalar_values : forall c,
  (exists u, encode_character c = Some u) <-> scalar c.
Proof.
  intros c. split.
  - intros [u Hu]. destruct (N.leb_spec c 0x10FFFF) as [H1|H1];
      destruct ((0xD800 <=? c) && (c <=? 0xDFFF)) eqn:E;
      try (split; lia);
      rewrite encode_character_nonscalar in Hu; try discriminate; unfold scalar; lia.
  - intros Hc. destruct (encode_character_scalar c Hc) as (u & H1 & _). eauto.
Qed.
Print Assumptions C01_encoder_accepts_exactly_the_scalar_values.

Example C01_witness : scalar 0x1F600 /\ utf8 0x1F600 = [0xF0; 0x9F; 0x98; 0x80]
  /\ decode_character ([0xF0; 0x9F; 0x98; 0x80] ++ [0x41]) = (DecOk, 0x1F600, 4%nat).
Proof. unfold scalar. split; [lia|]. split; reflexivity. Qed.

(** ** C02 *)
Theorem C02_decode_canonical_and_in_bounds : forall b c n,
  octets b -> decode_character b = (DecOk, c, n) ->
  (1 <= n <= 4)%nat /\ (n <= length b)%nat /\ firstn n b = utf8 c /\
  (forall rest, decode_character (firstn n b ++ rest) = (DecOk, c, n)).
Proof.
  intros b c n Hb H. destruct (decode_character_inv b c n Hb H) as (H1 & H2 & -> & r & ->).
  pose proof (utf8_nonempty c). rewrite app_length, firstn_app_exact by reflexivity.
  repeat split; try lia. intros rest. apply decode_utf8; assumption.
Qed.
Print Assumptions C02_decode_canonical_and_in_bounds.

Theorem C02_no_two_encodings : forall b1 b2 c,
  octets b1 -> octets b2 ->
  decode_character b1 = (DecOk, c, length b1) -> decode_character b2 = (DecOk, c, length b2) ->
  b1 = b2.
Proof.
  intros b1 b2 c O1 O2 H1 H2.
  destruct (C02_decode_canonical_and_in_bounds _ _ _ O1 H1) as (_ & _ & E1 & _).
  destruct (C02_decode_canonical_and_in_bounds _ _ _ O2 H2) as (_ & _ & E2 & _).
  rewrite firstn_all in E1, E2. congruence.
Qed.
Print Assumptions C02_no_two_encodings.

Example C02_witness :
  decode_character [0xC3; 0xA4; 0x21] = (DecOk, 0xE4, 2%nat)
  /\ decode_character [0xC0; 0x80] = (DecOverlong, 0, 2%nat)
  /\ fst (fst (decode_character [0xE2; 0x82])) = DecIllegalOctets.
Proof. repeat split. Qed.

(** ** C03: refuted.  The decoder accepts surrogates and numbers beyond
    0x10FFFF, for which the encoder has no encoding; rendering such a string
    drops it or fails an assertion. *)
Theorem C03_decode_yields_scalars_refuted :
  exists b c n, octets b /\ decode_character b = (DecOk, c, n) /\ ~ scalar c
    /\ encode_character c = None.
Proof.
  exists [0xED; 0xA0; 0x80], 0xD800, 3%nat.
  split; [repeat constructor; unfold octet; lia|]. split; [reflexivity|].
  split; [unfold scalar; lia | reflexivity].
Qed.
Print Assumptions C03_decode_yields_scalars_refuted.

Theorem C03_rendering_decoded_text_refuted :
  (exists b s, octets b /\ str_from_buffer b = Some s /\ err s = None /\ str_get_c_string s = Abort)
  /\ (exists b s, octets b /\ b <> [] /\ str_from_buffer b = Some s /\ err s = None
        /\ exists s', str_get_c_string s = Ret (s', [0])).
Proof.
  split.
  - exists [0x61; 0xED; 0xA0; 0x80], (mkStr [0x61; 0xD800] [] None).
    split; [repeat constructor; unfold octet; lia|]. repeat split.
  - exists [0xF7; 0xBF; 0xBF; 0xBF], (mkStr [0x1FFFFF] [] None).
    split; [repeat constructor; unfold octet; lia|]. split; [discriminate|].
    split; [reflexivity|]. split; [reflexivity|]. eexists. reflexivity.
Qed.
Print Assumptions C03_rendering_decoded_text_refuted.

(** What does hold: decoded characters are non-zero and below 2^21. *)
Theorem C03_decode_range_partial : forall b c n,
  octets b -> decode_character b = (DecOk, c, n) -> 0 < c < 0x200000.
Proof. intros b c n Hb H. destruct (decode_character_inv b c n Hb H) as (H1 & H2 & _). lia. Qed.
Print Assumptions C03_decode_range_partial.

(** ** C04 *)
Theorem C04_longest_valid_prefix : forall b, octets b ->
  exists s rest, str_from_buffer b = Some s /\ longest_prefix b (ucs s) rest /\
    err s = match rest with [] => None | _ => Some (length (utf8_text (ucs s))) end.
Proof.
  intros b Hb. destruct (decode_loop_spec (length b) b 0 Hb (Nat.le_refl _)) as (l & rest & H1 & H2).
  unfold str_from_buffer. rewrite H2. eexists; exists rest; split; [reflexivity|]. cbn. auto.
Qed.
Print Assumptions C04_longest_valid_prefix.

(** The specification determines the characters, and valid text is kept whole
    without error. *)
Theorem C04_prefix_unique : forall b l1 r1 l2 r2,
  longest_prefix b l1 r1 -> longest_prefix b l2 r2 -> l1 = l2 /\ r1 = r2.
Proof. exact longest_prefix_unique. Qed.
Print Assumptions C04_prefix_unique.

Theorem C04_valid_text_kept : forall l, Forall decodable l ->
  str_from_buffer (utf8_text l) = Some (mkStr l [] None).
Proof.
  intros l Hl. pose proof (utf8_text_octets l Hl) as Ho.
  unfold str_from_buffer.
  destruct (decode_loop_spec (length (utf8_text l)) _ 0 Ho (Nat.le_refl _)) as (l' & rest & H1 & H2).
  destruct (longest_prefix_unique _ _ _ _ _ H1 (longest_prefix_text l Hl)) as [-> ->].
  now rewrite H2.
Qed.
Print Assumptions C04_valid_text_kept.

Example C04_witness :
  str_from_buffer [0x61; 0xC3; 0xA4; 0xFF; 0x62] = Some (mkStr [0x61; 0xE4] [] (Some 3%nat)).
Proof. reflexivity. Qed.

(** ** C05: any history. [str_run] starts from an empty string. *)
Theorem C05_strings_are_sequences_under_any_history : forall ops,
  Forall op_ok ops -> Forall op_scalar ops ->
  (Z.of_nat (list_sum (map op_size ops)) < 2 ^ 62)%Z ->
  exists s outs, str_run (mkStr [] [] None) ops = Ret (s, outs) /\
    str_spec_run [] ops (ucs s) outs /\
    (exists s', str_get_c_string s = Ret (s', utf8_text (ucs s) ++ [0])) /\
    str_length s = length (ucs s) /\ coherent s /\
    (forall i, ptrdiff_ok i ->
       str_get s i = match position (length (ucs s)) i with
                     | Some k => match nth_error (ucs s) k with Some c => Ret c | None => Undef end
                     | None => Abort
                     end).
Proof.
  intros ops H1 H2 H3.
  assert (Hc : coherent (mkStr [] [] None)) by (left; reflexivity).
  destruct (str_run_refines ops (mkStr [] [] None) Hc (Forall_nil _) H1 H2) as (s & outs & E & Co & Sc & R).
  { cbn [ucs length Z.of_nat]. lia. }
  exists s, outs. split; [exact E|]. split; [exact R|].
  split. { destruct (get_c_string_scalar s Co Sc) as (s' & G & _). eauto. }
  split; [reflexivity|]. split; [exact Co|].
  intros i Hi. unfold str_get.
  assert (HL : (Z.of_nat (str_length s) < 2 ^ 63)%Z).
  { assert (Hlen : forall l ops l' outs, str_spec_run l ops l' outs ->
      (length l' <= length l + list_sum (map op_size ops))%nat).
    { clear. induction 1 as [l|l ops l' outs Hs H IH|l o l1 ops l' outs Ho Hst H IH].
      - cbn. lia.
      - change (list_sum (map op_size (SGetCString :: ops))) with (list_sum (map op_size ops)). exact IH.
      - apply str_spec_step_length in Hst. change (list_sum (map op_size (o :: ops)))
          with (op_size o + list_sum (map op_size ops))%nat. lia. }
    apply Hlen in R. unfold str_length. cbn [ucs length Nat.add] in R. lia. }
  rewrite str_index_position by assumption. fold (str_length s).
  destruct (position (str_length s) i) as [k|]; [|reflexivity]. now rewrite Nat2Z.id.
Qed.
Print Assumptions C05_strings_are_sequences_under_any_history.

Example C05_witness :
  let ops := [SPush 0x61; SPush 0xE4; SGetCString; SInsert [0x62; 0x63] (-1); SPopFront; SGetCString] in
  Forall op_ok ops /\ Forall op_scalar ops /\
  exists s, str_run (mkStr [] [] None) ops =
    Ret (s, [[]; []; [0x61; 0xC3; 0xA4; 0]; []; []; [0x62; 0x63; 0xC3; 0xA4; 0]]).
Proof.
  cbn zeta. split; [repeat constructor; unfold ptrdiff_ok; cbn; try lia; exact I|].
  split; [repeat constructor; unfold scalar; lia|]. eexists. vm_compute. reflexivity.
Qed.

(** ** C06 *)
Theorem C06_vector_index : forall {X} (v : vec X) i,
  vec_wf v -> (Z.of_nat (num v) < 2 ^ 63)%Z -> ptrdiff_ok i ->
  vec_get v i = match position (length (contents v)) i with
                | Some k => nth_error (contents v) k
                | None => None
                end.
Proof. exact @vec_get_ok. Qed.
Print Assumptions C06_vector_index.

Theorem C06_string_index : forall s i,
  (Z.of_nat (length (ucs s)) < 2 ^ 63)%Z -> ptrdiff_ok i ->
  str_get s i = match position (length (ucs s)) i with
                | Some k => Ret (nth k (ucs s) 0)
                | None => Abort
                end.
Proof.
  intros s i Hl Hi. unfold str_get. rewrite str_index_position by assumption. unfold str_length.
  destruct (position (length (ucs s)) i) as [k|] eqn:E; [|reflexivity].
  rewrite Nat2Z.id. apply position_lt in E.
  rewrite (nth_error_nth' (ucs s) 0 E). reflexivity.
Qed.
Print Assumptions C06_string_index.

Theorem C06_valid_indices : forall n i,
  (exists k, position n i = Some k) <-> (- Z.of_nat n <= i < Z.of_nat n)%Z.
Proof.
  intros n i. unfold position. split.
  - intros [k H]. destruct ((0 <=? i) && (i <? Z.of_nat n))%Z eqn:E1; [lia|].
    destruct ((- Z.of_nat n <=? i) && (i <? 0))%Z eqn:E2; [lia|discriminate].
  - intros H. destruct ((0 <=? i) && (i <? Z.of_nat n))%Z eqn:E1; [eauto|].
    destruct ((- Z.of_nat n <=? i) && (i <? 0))%Z eqn:E2; [eauto|lia].
Qed.
Print Assumptions C06_valid_indices.

Theorem C06_from_the_end : forall n k, (1 <= k <= n)%nat ->
  position n (- Z.of_nat k) = Some (n - k)%nat.
Proof.
  intros n k H. unfold position. replace ((0 <=? - Z.of_nat k) && _)%Z with false by lia.
  replace ((- Z.of_nat n <=? - Z.of_nat k) && _)%Z with true by lia. f_equal; lia.
Qed.
Print Assumptions C06_from_the_end.

Example C06_witness : str_get (mkStr [0x61; 0x62; 0x63] [] None) (-1) = Ret 0x63
  /\ str_get (mkStr [0x61; 0x62; 0x63] [] None) (-4) = Abort.
Proof. split; reflexivity. Qed.

(** ** C07: refuted when the slice reaches the end of the string. *)
Theorem C07_substring_to_the_end_refuted :
  exists s start len, (start + len <= length (ucs s))%nat /\ str_substring s start len = None.
Proof. exists (mkStr [0x61; 0x62] [] None), 0%nat, 2%nat. split; [cbn; lia | reflexivity]. Qed.
Print Assumptions C07_substring_to_the_end_refuted.

Theorem C07_substring_partial : forall s start len,
  (start + len < length (ucs s))%nat ->
  exists s', str_substring s start len = Some s' /\ ucs s' = firstn len (skipn start (ucs s))
    /\ length (ucs s') = len /\ oct s' = [] /\ err s' = None.
Proof.
  intros s start len H. unfold str_substring, str_length.
  destruct (Nat.leb_spec (length (ucs s)) (start + len)); [lia|].
  eexists. split; [reflexivity|]. cbn. repeat split. rewrite firstn_length, skipn_length. lia.
Qed.
Print Assumptions C07_substring_partial.

Theorem C07_substring_reaching_the_end_never_works : forall s start len,
  (length (ucs s) <= start + len)%nat -> str_substring s start len = None.
Proof.
  intros s start len H. unfold str_substring, str_length.
  destruct (Nat.leb_spec (length (ucs s)) (start + len)); [reflexivity|lia].
Qed.
Print Assumptions C07_substring_reaching_the_end_never_works.

Example C07_witness : exists s', str_substring (mkStr [1; 2; 3; 4] [] None) 1 2 = Some s' /\ ucs s' = [2; 3].
Proof. eexists. split; reflexivity. Qed.

(** ** C08 *)
Theorem C08_remove_all_substrings_partial : forall s sub,
  coherent s -> sub <> [] -> (Z.of_nat (length (ucs s)) + Z.of_nat (length sub) < 2 ^ 62)%Z ->
  exists s' n, str_remove_all (length (ucs s)) s sub = Ret (s', n)
    /\ ~ occurs sub (ucs s') /\ removals sub (ucs s) n (ucs s')
    /\ (~ occurs sub (ucs s) -> ucs s' = ucs s /\ n = 0%nat).
Proof.
  intros s sub Hc Hne HL.
  destruct (remove_all_loop_spec sub Hne (length (ucs s)) (mkStr (ucs s) [] (err s)) 0)
    as (s' & n & E & _ & Ho & Hr); [left; reflexivity|exact HL|cbn; lia|].
  exists s', n. split; [exact E|]. split; [exact Ho|]. split; [exact Hr|].
  intros Hno. cbn [ucs] in Hr. inversion Hr as [l E1|p q m l' Hr' E1]; [auto|].
  exfalso. apply Hno. exists p, q. congruence.
Qed.
Print Assumptions C08_remove_all_substrings_partial.

(** The full property also covers the empty substring, for which the loop
    never ends: no amount of fuel is enough. *)
Theorem C08_empty_substring_diverges_refuted : forall s fuel,
  ucs s <> [] -> str_remove_all fuel s [] = NoFuel.
Proof. intros s fuel H. apply remove_all_empty. exact H. Qed.
Print Assumptions C08_empty_substring_diverges_refuted.

Example C08_witness : exists s',
  str_remove_all 5 (mkStr [1; 1; 2; 2; 3] [] None) [1; 2] = Ret (s', 2%nat) /\ ucs s' = [3].
Proof. eexists. split; reflexivity. Qed.

(** ** C09 *)
Theorem C09_split : forall s delim, delim <> [] ->
  exists toks, str_split s delim = Ret toks /\ tokens delim (ucs s) toks
    /\ (forall t2, tokens delim (ucs s) t2 -> t2 = toks).
Proof.
  intros s delim Hne.
  destruct (split_loop_tokens delim Hne (ucs s) [] (not_appears_nil delim Hne)) as (toks & E & T).
  exists toks. split; [exact E|]. split; [exact T|].
  intros t2 T2. exact (tokens_det delim Hne _ _ T2 _ T).
Qed.
Print Assumptions C09_split.

Theorem C09_split_one_character : forall s d,
  exists toks, str_split s [d] = Ret toks /\
    Forall (fun t => t <> [] /\ ~ In d t) toks /\
    concat toks = filter (fun c => negb (c =? d)) (ucs s).
Proof.
  intros s d. destruct (C09_split s [d]) as (toks & E & T & _); [discriminate|].
  exists toks. split; [exact E|]. exact (tokens_single d _ _ T).
Qed.
Print Assumptions C09_split_one_character.

(** An empty delimiter makes every non-empty string fail an assertion. *)
Theorem C09_empty_delimiter_aborts : forall s, ucs s <> [] -> str_split s [] = Abort.
Proof. intros [l o e] H. cbn in H. destruct l as [|c l]; [congruence|]. reflexivity. Qed.
Print Assumptions C09_empty_delimiter_aborts.

Example C09_witness :
  str_split (mkStr [0x61; 0x2C; 0x2C; 0x62; 0x63; 0x2C] [] None) [0x2C] = Ret [[0x61]; [0x62; 0x63]].
Proof. reflexivity. Qed.

(** ** C10 *)
Theorem C10_edit_distance : forall a b, edit_distance a b (levenshtein a b).
Proof. exact levenshtein_distance. Qed.
Print Assumptions C10_edit_distance.

Theorem C10_metric : forall a b,
  (levenshtein a b = 0%nat <-> a = b) /\ levenshtein a b = levenshtein b a
  /\ (levenshtein a b <= Nat.max (length a) (length b))%nat.
Proof.
  intros a b. split; [apply levenshtein_zero|].
  split; [apply levenshtein_sym | apply levenshtein_le_max].
Qed.
Print Assumptions C10_metric.

Example C10_witness : levenshtein [1; 2; 3; 4] [2; 3; 5; 4] = 2%nat.
Proof. reflexivity. Qed.

(** ** C11 *)
Theorem C11_string_order : forall a b,
  coherent a -> coherent b ->
  Forall scalar (ucs a) -> Forall scalar (ucs b) -> ~ In 0 (ucs a) -> ~ In 0 (ucs b) ->
  str_compare a b = Ret (lex (ucs a) (ucs b)).
Proof.
  intros a b Ca Cb Sa Sb Na Nb. apply str_compare_lex; try assumption;
    apply Forall_forall; intros c Hc ->; auto.
Qed.
Print Assumptions C11_string_order.

Lemma lex_eq a : forall b, lex a b = Eq <-> a = b.
Proof.
  induction a as [|x a IH]; intros [|y b]; cbn; try (split; congruence).
  destruct (N.compare_spec x y) as [->|H|H].
  - rewrite IH. split; congruence.
  - split; [discriminate|]. intros E. injection E as -> ->. lia.
  - split; [discriminate|]. intros E. injection E as -> ->. lia.
Qed.
Lemma lex_opp a : forall b, lex b a = CompOpp (lex a b).
Proof.
  induction a as [|x a IH]; intros [|y b]; cbn; try reflexivity.
  rewrite (N.compare_antisym x y). destruct (x ?= y); cbn; auto.
Qed.
Lemma lex_trans a : forall b c, lex a b = Lt -> lex b c = Lt -> lex a c = Lt.
Proof.
  induction a as [|x a IH]; intros [|y b] [|z c]; cbn; try congruence.
  destruct (N.compare_spec x y), (N.compare_spec y z), (N.compare_spec x z); try congruence; try lia.
  subst. eauto.
Qed.

Theorem C11_total_order : forall a b c,
  (lex a b = Eq <-> a = b) /\ lex b a = CompOpp (lex a b)
  /\ (lex a b = Lt -> lex b c = Lt -> lex a c = Lt).
Proof. intros a b c. split; [apply lex_eq|]. split; [apply lex_opp | apply lex_trans]. Qed.
Print Assumptions C11_total_order.

Theorem C11_equality : forall a b, str_is_equal a b = true <-> ucs a = ucs b.
Proof. exact str_is_equal_spec. Qed.
Print Assumptions C11_equality.

Example C11_witness :
  str_compare (mkStr [0x61; 0xFFFD] [] None) (mkStr [0x61; 0x1F600] [] None) = Ret Lt.
Proof. reflexivity. Qed.

(** ** C12 *)
Theorem C12_equal_strings_hash_equally : forall ops1 ops2 s1 s2 o1 o2,
  Forall op_ok ops1 -> Forall op_ok ops2 -> Forall op_scalar ops1 -> Forall op_scalar ops2 ->
  (Z.of_nat (list_sum (map op_size ops1)) < 2 ^ 62)%Z ->
  (Z.of_nat (list_sum (map op_size ops2)) < 2 ^ 62)%Z ->
  str_run (mkStr [] [] None) ops1 = Ret (s1, o1) ->
  str_run (mkStr [] [] None) ops2 = Ret (s2, o2) ->
  ucs s1 = ucs s2 ->
  exists h, str_hash s1 = Ret h /\ str_hash s2 = Ret h /\ h < two32.
Proof.
  assert (Hc : coherent (mkStr [] [] None)) by (left; reflexivity).
  intros ops1 ops2 s1 s2 o1 o2 A1 A2 B1 B2 L1 L2 R1 R2 E.
  destruct (str_run_refines ops1 _ Hc (Forall_nil _) A1 B1) as (s1' & o1' & E1 & Co1 & Sc1 & _);
    [cbn [ucs length Z.of_nat]; lia|].
  destruct (str_run_refines ops2 _ Hc (Forall_nil _) A2 B2) as (s2' & o2' & E2 & Co2 & Sc2 & _);
    [cbn [ucs length Z.of_nat]; lia|].
  rewrite R1 in E1; injection E1 as <- <-. rewrite R2 in E2; injection E2 as <- <-.
  rewrite (str_hash_coherent s1 s2 Co1 Co2 E). unfold str_hash.
  destruct (str_ensure_coherent s2 Co2) as (_ & _ & Ho & _). rewrite Ho, (encode_octets_scalar _ Sc2).
  destruct (utf8_text (ucs s2) ++ [0]) as [|o l] eqn:Eo.
  { apply app_eq_nil in Eo as [_ Eo]. discriminate. }
  rewrite <- Eo, last_app_nul. cbn [N.eqb]. eexists. split; [reflexivity|].
  split; [reflexivity | apply jenkins_lt].
Qed.
Print Assumptions C12_equal_strings_hash_equally.

Example C12_witness : exists s1 s2 o1 o2 h,
  str_run (mkStr [] [] None) [SPush 0x61; SPush 0x62; SGetCString; SPopFront] = Ret (s1, o1) /\
  str_run (mkStr [] [] None) [SConcat [0x62]] = Ret (s2, o2) /\ str_hash s1 = Ret h /\ str_hash s2 = Ret h.
Proof. do 5 eexists. repeat split; vm_compute; reflexivity. Qed.

(** ** C13 *)
Theorem C13_vector_refines_list : forall {X} (zero : X) prealloc ops,
  (Z.of_nat (length ops) < 2 ^ 63)%Z -> Forall ptrdiff_ok (flat_map op_indices ops) ->
  exists v, vec_run zero (vec_new zero prealloc) ops = Ret (v, snd (spec_vec_run [] ops))
    /\ contents v = fst (spec_vec_run [] ops) /\ length (contents v) = num v
    /\ (num v <= allocated v)%nat /\ (1 <= allocated v)%nat
    /\ (forall i, (Z.of_nat (num v) < 2 ^ 63)%Z -> ptrdiff_ok i ->
          vec_get v i = match position (length (contents v)) i with
                        | Some k => nth_error (contents v) k
                        | None => None
                        end).
Proof.
  intros X zero pre ops HL Hi. destruct (vec_new_wf zero pre) as [Hw Hc].
  destruct (vec_run_refines zero ops (vec_new zero pre) Hw) as (v & E & Hv & Cv); [cbn; lia|exact Hi|].
  rewrite Hc in E, Cv. exists v. split; [exact E|]. split; [exact Cv|].
  split; [apply contents_length, Hv|]. destruct Hv as [V1 V2]. repeat split; try assumption.
  intros i Hn Hi'. apply vec_get_ok; try assumption. split; assumption.
Qed.
Print Assumptions C13_vector_refines_list.

Example C13_witness :
  let ops := [VPushBack 1; VPushBack 2; VPushFront 3; VInsertBefore 4 (-1); VRemove 0; VPopBack] in
  Forall ptrdiff_ok (flat_map op_indices ops) /\ fst (spec_vec_run [] ops) = [1; 4].
Proof. split; [repeat constructor; unfold ptrdiff_ok; lia | reflexivity]. Qed.

(** ** C14: refuted: slots freed by earlier removals are not cleared. *)
Theorem C14_gap_is_zero_refuted :
  exists ops v bs v', vec_run 0 (vec_new 0 4) ops = Ret (v, bs) /\
    vec_insert_at 0 v 5 2 = Ret v' /\ contents v' = contents v ++ [8] ++ [5].
Proof.
  exists [VPushBack 7; VPushBack 8; VPushBack 9; VRemove (-1); VRemove (-1)].
  do 3 eexists. split; [reflexivity|]. split; reflexivity.
Qed.
Print Assumptions C14_gap_is_zero_refuted.

Theorem C14_gap_partial : forall {X} (zero : X) (v : vec X) x index,
  vec_wf v -> (num v <= index)%nat ->
  exists v' gap, vec_insert_at zero v x index = Ret v'
    /\ contents v' = contents v ++ gap ++ [x] /\ length (contents v') = S index
    /\ (allocated v <= index -> gap = repeat zero (index - num v))%nat.
Proof.
  intros X zero v x index Hw Hi.
  destruct (insert_at_gap zero v x index Hw Hi) as (v' & gap & E & Hw' & C & L & G).
  exists v', gap. split; [exact E|]. split; [exact C|]. split; [|exact G].
  rewrite C, !app_length, contents_length, L by exact Hw. cbn. lia.
Qed.
Print Assumptions C14_gap_partial.

Example C14_witness : exists v', vec_insert_at 0 (vec_new 0 1) 5 2 = Ret v' /\ contents v' = [0; 0; 5].
Proof. eexists. split; reflexivity. Qed.
