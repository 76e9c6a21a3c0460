(** Proofs about the string model. *)
From Coq Require Import List NArith ZArith Bool Lia Arith.
From Coq Require Import ZifyBool ZifyNat ZifyN.
From Verif Require Import Base ListLemmas Utf8 SpecText Utf8Proofs Vec SpecSeq SpecVec VecProofs OString SpecStr.
Import ListNotations.
Local Open Scope N_scope.

(** *** Decoding loops *)

Lemma utf8_text_app a b : utf8_text (a ++ b) = utf8_text a ++ utf8_text b.
Proof. unfold utf8_text. rewrite map_app, concat_app. reflexivity. Qed.

Lemma utf8_text_cons c l : utf8_text (c :: l) = utf8 c ++ utf8_text l.
Proof. reflexivity. Qed.

Lemma octets_app a b : octets (a ++ b) -> octets a /\ octets b.
Proof. unfold octets. apply Forall_app. Qed.

Lemma decode_loop_spec fuel b index :
  octets b -> (length b <= fuel)%nat ->
  exists l rest, longest_prefix b l rest /\
    decode_loop fuel b index =
      Some (l, match rest with [] => None | _ => Some (index + length (utf8_text l))%nat end).
Proof.
  revert b index; induction fuel as [|fuel IH]; intros b index Hb Hf.
  - destruct b as [|o b]; [|cbn in Hf; lia].
    exists [], []. split; [|reflexivity]. split; [reflexivity|]. split; [constructor|].
    intros (c & r & _ & E). symmetry in E. apply app_eq_nil in E as [E _].
    pose proof (utf8_nonempty c). rewrite E in H. cbn in H; lia.
  - destruct b as [|o b].
    { exists [], []. split; [|reflexivity]. split; [reflexivity|]. split; [constructor|].
      intros (c & r & _ & E). symmetry in E. apply app_eq_nil in E as [E _].
      pose proof (utf8_nonempty c). rewrite E in H. cbn in H; lia. }
    cbn [decode_loop].
    destruct (decode_character (o :: b)) as [[st c] n] eqn:D.
    assert (Hfail : st <> DecOk -> ~ exists c' r, decodable c' /\ o :: b = utf8 c' ++ r).
    { intros Hst (c' & r & [Hc1 Hc2] & E). rewrite E, decode_utf8 in D by assumption.
      injection D as <- _ _. apply Hst; reflexivity. }
    destruct st.
    2,3,4,5: exists [], (o :: b); (split; [split; [reflexivity|split; [constructor|]]|]);
      [apply Hfail; discriminate | cbn [utf8_text map concat length]; rewrite Nat.add_0_r; reflexivity].
    apply decode_character_inv in D; [|exact Hb].
    destruct D as (Hc1 & Hc2 & Hn & r & E).
    rewrite E in *. rewrite Hn. rewrite skipn_app_exact by reflexivity.
    apply octets_app in Hb as [_ Hr].
    pose proof (utf8_nonempty c) as Hne.
    rewrite app_length in Hf.
    destruct (IH r (index + length (utf8 c))%nat Hr ltac:(lia)) as (l & rest & HP & HD).
    exists (c :: l), rest. destruct HP as (P1 & P2 & P3). split.
    + split; [rewrite utf8_text_cons, <- app_assoc, <- P1; reflexivity|].
      split; [constructor; [split; assumption | exact P2] | exact P3].
    + rewrite HD. f_equal. f_equal. destruct rest; [reflexivity|].
      f_equal. rewrite utf8_text_cons, app_length. lia.
Qed.

Lemma longest_prefix_unique b l1 r1 l2 r2 :
  longest_prefix b l1 r1 -> longest_prefix b l2 r2 -> l1 = l2 /\ r1 = r2.
Proof.
  revert b l2; induction l1 as [|c l1 IH]; intros b [|d l2] (E1 & F1 & N1) (E2 & F2 & N2).
  - rewrite E1 in E2. split; [reflexivity | exact E2].
  - exfalso. apply N1. inversion F2; subst. rewrite utf8_text_cons, <- app_assoc in E2.
    exists d, (utf8_text l2 ++ r2). split; [assumption|]. exact E2.
  - exfalso. apply N2. inversion F1; subst. rewrite utf8_text_cons, <- app_assoc in E2.
    exists c, (utf8_text l1 ++ r1). split; [assumption|]. symmetry; exact E2.
  - inversion F1 as [|? ? Hc F1']; inversion F2 as [|? ? Hd F2']; subst.
    rewrite !utf8_text_cons, <- !app_assoc in E2.
    apply utf8_inj_prefix in E2; [|assumption..]. destruct E2 as [-> E2].
    destruct (IH (utf8_text l1 ++ r1) l2) as [-> ->]; repeat split; auto.
Qed.

Lemma longest_prefix_text l : Forall decodable l -> longest_prefix (utf8_text l) l [].
Proof.
  intro F. split; [rewrite app_nil_r; reflexivity|]. split; [exact F|].
  intros (c & r & _ & E). symmetry in E. apply app_eq_nil in E as [E _].
  pose proof (utf8_nonempty c) as H. rewrite E in H. cbn in H; lia.
Qed.

Lemma scalar_decodable c : scalar c -> c <> 0 -> decodable c.
Proof. unfold scalar, decodable. lia. Qed.

Lemma utf8_text_octets l : Forall decodable l -> octets (utf8_text l).
Proof.
  induction l as [|c l IH]; intro F; [constructor|].
  inversion F; subst. rewrite utf8_text_cons. apply Forall_app. split; [|apply IH; assumption].
  apply utf8_octets. unfold decodable in *; lia.
Qed.

Lemma cstr_octets b : octets b -> octets (cstr b).
Proof.
  induction b as [|o b IH]; intro H; [constructor|]. cbn [cstr].
  inversion H; subst. destruct (o =? 0); [constructor|]. constructor; [assumption | apply IH; assumption].
Qed.

Lemma cstr_nonul b : ~ In 0 b -> cstr b = b.
Proof.
  induction b as [|o b IH]; intro H; [reflexivity|]. cbn [cstr].
  destruct (o =? 0) eqn:E; [exfalso; apply H; left; lia|].
  f_equal. apply IH. intro; apply H; right; assumption.
Qed.

Lemma cstr_app_nul a b : ~ In 0 a -> cstr (a ++ 0 :: b) = a.
Proof.
  induction a as [|o a IH]; intro H; [reflexivity|]. cbn [cstr app].
  destruct (o =? 0) eqn:E; [exfalso; apply H; left; lia|].
  f_equal. apply IH. intro; apply H; right; assumption.
Qed.

Lemma utf8_text_nonul l : Forall decodable l -> ~ In 0 (utf8_text l).
Proof.
  induction l as [|c l IH]; intros F H; [destruct H|].
  inversion F; subst. rewrite utf8_text_cons in H. apply in_app_or in H as [H|H].
  - eapply utf8_nonzero; [|exact H]. unfold decodable in *; lia.
  - apply IH; assumption.
Qed.

(** *** Indices *)
Definition str_small (l : list N) : Prop := (Z.of_nat (length l) < 2 ^ 62)%Z.

Lemma str_index_position s i :
  (Z.of_nat (str_length s) < 2 ^ 63)%Z -> ptrdiff_ok i ->
  str_index s i = match position (str_length s) i with
                  | Some k => (Z.of_nat k, true)
                  | None => (size_of_ptrdiff i, false)
                  end.
Proof.
  unfold ptrdiff_ok, str_index, position, size_of_ptrdiff; intros Hn Hi.
  set (n := str_length s) in *. clearbody n.
  destruct (i <? 0)%Z eqn:En.
  - replace ((0 <=? i) && (i <? Z.of_nat n))%Z with false by lia.
    rewrite <- (Z_mod_plus_full i 1 (2 ^ 64)), Z.mod_small by lia.
    replace (i + 1 * 2 ^ 64 <? Z.of_nat n)%Z with false by lia.
    replace ((- Z.of_nat n <=? i) && true)%Z with (0 <=? Z.of_nat n + i)%Z by lia.
    replace (Z.of_nat n + i <? Z.of_nat n)%Z with true by lia.
    rewrite andb_true_r. destruct (0 <=? Z.of_nat n + i)%Z eqn:E; [|reflexivity].
    rewrite Z2Nat.id by lia. reflexivity.
  - rewrite Z.mod_small by lia.
    replace (0 <=? i)%Z with true by lia. cbn [andb].
    destruct (i <? Z.of_nat n)%Z eqn:E.
    + rewrite Z2Nat.id by lia. reflexivity.
    + rewrite andb_false_r. reflexivity.
Qed.

Lemma position_nat n k : (k < n)%nat -> position n (Z.of_nat k) = Some k.
Proof.
  intro H. unfold position.
  replace ((0 <=? Z.of_nat k) && (Z.of_nat k <? Z.of_nat n))%Z with true by lia.
  rewrite Nat2Z.id. reflexivity.
Qed.

Lemma position_nat_out n k : (n <= k)%nat -> position n (Z.of_nat k) = None.
Proof.
  intro H. unfold position.
  replace ((0 <=? Z.of_nat k) && (Z.of_nat k <? Z.of_nat n))%Z with false by lia.
  replace ((- Z.of_nat n <=? Z.of_nat k) && (Z.of_nat k <? 0))%Z with false by lia.
  reflexivity.
Qed.

Lemma ptrdiff_of_size_id z : (0 <= z < 2 ^ 63)%Z -> ptrdiff_of_size z = z.
Proof.
  intro H. unfold ptrdiff_of_size. rewrite Z.mod_small by lia.
  replace (z <? 2 ^ 63)%Z with true by lia. reflexivity.
Qed.

(** *** The octet cache *)
Definition coherent (s : ostr) : Prop := oct s = [] \/ oct s = encode_octets (ucs s).

Lemma encode_octets_scalar l : Forall scalar l -> encode_octets l = utf8_text l ++ [0].
Proof.
  induction l as [|c l IH]; intro F; [reflexivity|].
  inversion F as [|? ? Hc F']; subst. cbn [encode_octets].
  destruct (encode_character_scalar c Hc) as (u & -> & E & _).
  rewrite E, IH by assumption. rewrite utf8_text_cons, app_assoc. reflexivity.
Qed.

Lemma str_ensure_coherent s : coherent s ->
  ucs (str_ensure s) = ucs s /\ err (str_ensure s) = err s /\ oct (str_ensure s) = encode_octets (ucs s)
  /\ coherent (str_ensure s).
Proof.
  intros [H|H]; unfold str_ensure.
  - rewrite H; cbn [ucs err oct]. repeat split. right. reflexivity.
  - destruct (oct s) eqn:E; cbn [ucs err oct].
    + repeat split; right; reflexivity.
    + repeat split; [congruence|]. right. congruence.
Qed.

Lemma last_app_nul (l : list N) d : last (l ++ [0]) d = 0.
Proof. apply last_last. Qed.

Lemma get_c_string_scalar s : coherent s -> Forall scalar (ucs s) ->
  exists s', str_get_c_string s = Ret (s', utf8_text (ucs s) ++ [0]) /\ ucs s' = ucs s /\ coherent s'
             /\ err s' = err s.
Proof.
  intros HC HS. destruct (str_ensure_coherent s HC) as (E1 & E2 & E3 & E4).
  unfold str_get_c_string. exists (str_ensure s).
  rewrite E3, encode_octets_scalar by assumption.
  destruct (utf8_text (ucs s) ++ [0]) as [|o t] eqn:E.
  - apply app_eq_nil in E as [_ E]; discriminate.
  - rewrite <- E, last_app_nul, N.eqb_refl. auto.
Qed.

(** *** Mutations *)
Lemma check_match_spec l sub : check_match l sub = true <-> exists r, l = sub ++ r.
Proof.
  revert l; induction sub as [|x sub IH]; intros l; cbn [check_match].
  - split; [intros _; exists l; reflexivity | reflexivity].
  - destruct l as [|y l].
    + split; [discriminate | intros [r E]; discriminate].
    + rewrite andb_true_iff, IH, N.eqb_eq. split.
      * intros [-> [r ->]]. exists r; reflexivity.
      * intros [r E]. injection E as -> ->. split; [reflexivity | exists r; reflexivity].
Qed.

Lemma remove_at_spec s i :
  (Z.of_nat (str_length s) < 2 ^ 63)%Z -> ptrdiff_ok i -> coherent s ->
  coherent (fst (str_remove_at s i)) /\
  err (fst (str_remove_at s i)) = err s /\
  match position (str_length s) i with
  | Some k => str_remove_at s i = (mkStr (delete_at k (ucs s)) [] (err s), true)
  | None => str_remove_at s i = (s, false)
  end.
Proof.
  intros Hn Hi HC. unfold str_remove_at. rewrite str_index_position by assumption.
  destruct (position _ _) as [k|]; cbn [fst].
  - rewrite Nat2Z.id. repeat split. left; reflexivity.
  - repeat split. exact HC.
Qed.

Lemma remove_loop_spec n : forall s k acc,
  (Z.of_nat k + Z.of_nat n < 2 ^ 63)%Z -> (Z.of_nat (str_length s) < 2 ^ 63)%Z -> coherent s ->
  let r := remove_loop s (Z.of_nat k) n acc in
  coherent (fst r) /\ err (fst r) = err s /\
  ucs (fst r) = firstn k (ucs s) ++ skipn (k + n) (ucs s) /\
  snd r = (acc + Nat.min n (str_length s - k))%nat.
Proof.
  induction n as [|n IH]; intros s k acc Hk Hn HC; cbn [remove_loop].
  - cbn [fst snd]. rewrite Nat.add_0_r, firstn_skipn. repeat split; try assumption. lia.
  - replace (Z.of_nat k + Z.of_nat n)%Z with (Z.of_nat (k + n)) by lia.
    rewrite ptrdiff_of_size_id by lia.
    destruct (remove_at_spec s (Z.of_nat (k + n)) Hn) as (C1 & Er & R); [unfold ptrdiff_ok; lia | exact HC |].
    destruct (lt_dec (k + n) (str_length s)) as [Hlt|Hge].
    + rewrite position_nat in R by lia. rewrite R in *. cbn [fst] in *.
      set (s' := mkStr (delete_at (k + n) (ucs s)) [] (err s)) in *.
      assert (L' : str_length s' = (str_length s - 1)%nat).
      { unfold str_length, s' in *; cbn [ucs]. unfold delete_at.
        rewrite app_length, firstn_length, skipn_length. lia. }
      destruct (IH s' k (S acc)) as (C & E & U & A); [lia | lia | exact C1 |].
      split; [exact C|]. split; [exact E|]. split.
      * rewrite U. unfold s'; cbn [ucs]. unfold delete_at, str_length in *.
        rewrite firstn_app_le by (rewrite firstn_length; lia).
        rewrite firstn_firstn. f_equal; [f_equal; lia|].
        rewrite skipn_app_exact by (rewrite firstn_length; lia).
        f_equal; lia.
      * rewrite A, L'. lia.
    + rewrite position_nat_out in R by lia. rewrite R in *. cbn [fst] in *.
      destruct (IH s k acc) as (C & E & U & A); [lia | lia | exact HC |].
      split; [exact C|]. split; [exact E|]. split.
      * rewrite U. unfold str_length in *. rewrite !skipn_all2 by lia. reflexivity.
      * rewrite A. lia.
Qed.

Lemma remove_chars_spec s i n :
  (Z.of_nat (str_length s) + Z.of_nat n < 2 ^ 63)%Z -> ptrdiff_ok i -> coherent s ->
  let r := str_remove_chars s i n in
  coherent (fst r) /\ err (fst r) = err s /\
  match position (str_length s) i with
  | Some k => ucs (fst r) = firstn k (ucs s) ++ skipn (k + n) (ucs s)
              /\ snd r = Nat.min n (str_length s - k)
  | None => ucs (fst r) = ucs s /\ snd r = O
  end.
Proof.
  intros Hn Hi HC. unfold str_remove_chars. destruct n as [|n].
  - cbn [fst snd]. repeat split; try assumption.
    destruct (position _ _); [|auto]. rewrite Nat.add_0_r, firstn_skipn. auto.
  - rewrite str_index_position by (assumption || lia).
    destruct (position (str_length s) i) as [k|] eqn:P.
    + apply position_lt in P. unfold str_length in *.
      destruct (remove_loop_spec (S n) (mkStr (ucs s) [] (err s)) k 0) as (C & E & U & A);
        [lia | unfold str_length; cbn [ucs]; lia | left; reflexivity |].
      unfold str_length in *; cbn [ucs err] in *. auto.
    + cbn [fst snd]. auto.
Qed.

Lemma insert_chars_spec cs : forall l k,
  (k <= length l)%nat -> (cs = [] \/ k < length l)%nat ->
  (Z.of_nat (length l) + Z.of_nat (length cs) < 2 ^ 63)%Z ->
  insert_chars l k cs = (firstn k l ++ cs ++ skipn k l, true).
Proof.
  induction cs as [|c cs IH]; intros l k Hk Hk2 Hb; cbn [insert_chars].
  - rewrite firstn_skipn. reflexivity.
  - destruct Hk2 as [Hk2|Hk2]; [discriminate|]. cbn [length] in Hb.
    rewrite norm_index_position by (unfold ptrdiff_ok; lia).
    rewrite position_nat by lia.
    assert (L : length (insert_at k c l) = S (length l)) by apply insert_at_length.
    rewrite IH; [| rewrite L; lia | right; rewrite L; lia | rewrite L; lia].
    unfold insert_at. f_equal.
    rewrite firstn_app_ge by (rewrite firstn_length; lia).
    rewrite firstn_length. replace (S k - Nat.min k (length l))%nat with 1%nat by lia.
    rewrite skipn_app_ge by (rewrite firstn_length; lia).
    rewrite firstn_length. replace (S k - Nat.min k (length l))%nat with 1%nat by lia.
    cbn [firstn skipn]. rewrite <- app_assoc. reflexivity.
Qed.

Definition overwrite (k : nat) (cs l : list N) : list N :=
  firstn k l ++ cs ++ skipn (k + length cs) l.

Lemma overwrite_chars_spec cs : forall l k,
  (k <= length l)%nat -> (Z.of_nat (length l) + Z.of_nat (length cs) < 2 ^ 63)%Z ->
  overwrite_chars l (Z.of_nat k) cs = overwrite k cs l.
Proof.
  induction cs as [|c cs IH]; intros l k Hk Hb; cbn [overwrite_chars].
  - unfold overwrite. cbn [app length]. rewrite Nat.add_0_r, firstn_skipn. reflexivity.
  - cbn [length] in Hb.
    rewrite ptrdiff_of_size_id by lia.
    rewrite norm_index_position by (unfold ptrdiff_ok; lia).
    replace (Z.of_nat k + 1)%Z with (Z.of_nat (S k)) by lia.
    destruct (Nat.eq_dec k (length l)) as [->|Hne].
    + rewrite position_nat_out by lia.
      rewrite IH by (rewrite app_length; cbn [length]; lia).
      unfold overwrite.
      rewrite firstn_all2 by (rewrite app_length; cbn; lia).
      rewrite firstn_all.
      rewrite !skipn_all2 by (rewrite ?app_length; cbn [length]; lia).
      rewrite !app_nil_r, <- app_assoc. reflexivity.
    + rewrite position_nat by lia.
      rewrite IH by (rewrite replace_at_length; lia).
      unfold overwrite, replace_at.
      rewrite firstn_app_ge by (rewrite firstn_length; lia).
      rewrite firstn_length. replace (S k - Nat.min k (length l))%nat with 1%nat by lia.
      rewrite skipn_app_ge by (rewrite firstn_length; lia).
      rewrite firstn_length.
      replace (S k + length cs - Nat.min k (length l))%nat with (S (length cs)) by lia.
      rewrite firstn_cons, firstn_O, skipn_cons, skipn_skipn', <- app_assoc. cbn [app length].
      f_equal. f_equal. f_equal. f_equal. lia.
Qed.

Lemma overwrite_chars_past cs : forall l k,
  (Z.of_nat (length l) <= k < 2 ^ 63)%Z -> (k + Z.of_nat (length cs) < 2 ^ 64 - Z.of_nat (length l) - Z.of_nat (length cs))%Z ->
  (Z.of_nat (length l) + Z.of_nat (length cs) < 2 ^ 62)%Z ->
  overwrite_chars l k cs = l ++ cs.
Proof.
  intros l k Hk _ Hb.
  assert (G : forall cs l k, (Z.of_nat (length l) <= k)%Z -> (k + Z.of_nat (length cs) <= 2 ^ 63 + 2 ^ 62)%Z ->
     (Z.of_nat (length l) + Z.of_nat (length cs) < 2 ^ 62)%Z -> overwrite_chars l k cs = l ++ cs).
  { clear. induction cs as [|c cs IH]; intros l k H1 H2 H3; cbn [overwrite_chars].
    - rewrite app_nil_r. reflexivity.
    - cbn [length] in *.
      assert (E : norm_index (length l) (ptrdiff_of_size k) = None).
      { rewrite norm_index_position; [| lia |].
        - unfold ptrdiff_of_size. rewrite Z.mod_small by lia.
          unfold position. destruct (k <? 2 ^ 63)%Z eqn:E.
          + replace ((0 <=? k) && (k <? Z.of_nat (length l)))%Z with false by lia.
            replace ((- Z.of_nat (length l) <=? k) && (k <? 0))%Z with false by lia. reflexivity.
          + replace ((0 <=? k - 2 ^ 64) && (k - 2 ^ 64 <? Z.of_nat (length l)))%Z with false by lia.
            replace ((- Z.of_nat (length l) <=? k - 2 ^ 64) && (k - 2 ^ 64 <? 0))%Z with false by lia.
            reflexivity.
        - unfold ptrdiff_ok, ptrdiff_of_size. rewrite Z.mod_small by lia.
          destruct (k <? 2 ^ 63)%Z eqn:E; lia. }
      rewrite E, IH; [rewrite <- app_assoc; reflexivity | rewrite app_length; cbn; lia | lia
                     | rewrite app_length; cbn; lia]. }
  apply G; lia.
Qed.

(** *** Histories *)

(** What each operation means for the sequence of characters. *)

(** Arguments an operation may get: ptrdiff_t indices, octets, sizes. *)

(** Characters an operation adds at most. *)

Lemma longest_prefix_nil l rest : longest_prefix [] l rest -> l = [] /\ rest = [].
Proof.
  intros (E & _ & _). destruct l as [|c l].
  - split; [reflexivity|]. symmetry in E. exact E.
  - exfalso. rewrite utf8_text_cons, <- app_assoc in E. symmetry in E.
    apply app_eq_nil in E as [E _]. pose proof (utf8_nonempty c) as H. rewrite E in H. cbn in H; lia.
Qed.

Lemma concat_spec s b : octets b -> coherent s ->
  exists s' d rest, str_concat_cstr s b = Some s' /\ coherent s' /\
    longest_prefix (cstr b) d rest /\ ucs s' = ucs s ++ d /\
    err s' = match rest with [] => None | _ => Some (length (utf8_text d)) end.
Proof.
  intros Hb HC. unfold str_concat_cstr.
  pose proof (cstr_octets b Hb) as Hc.
  destruct (decode_loop_spec (length (cstr b)) (cstr b) 0 Hc (le_n _)) as (l & rest & HP & HD).
  destruct (cstr b) as [|o t] eqn:E.
  - apply longest_prefix_nil in HP as HP'. destruct HP' as [-> ->].
    exists (mkStr (ucs s) (oct s) None), [], []. split; [reflexivity|].
    split; [exact HC|]. split; [exact HP|]. cbn [ucs err]. rewrite app_nil_r. auto.
  - rewrite HD. exists (mkStr (ucs s ++ l) [] (match rest with [] => None | _ => Some (0 + length (utf8_text l))%nat end)), l, rest.
    split; [reflexivity|]. split; [left; reflexivity|]. split; [exact HP|]. split; reflexivity.
Qed.

Lemma text_length_le l : (length l <= length (utf8_text l))%nat.
Proof.
  induction l as [|c l IH]; [cbn; lia|].
  rewrite utf8_text_cons, app_length. pose proof (utf8_nonempty c). cbn [length]; lia.
Qed.

Lemma cstr_length b : (length (cstr b) <= length b)%nat.
Proof. induction b as [|o b IH]; [cbn; lia|]. cbn [cstr]. destruct (o =? 0); cbn [length]; lia. Qed.

Lemma longest_prefix_length b l rest : longest_prefix b l rest -> (length l <= length b)%nat.
Proof.
  intros (E & _ & _). rewrite E, app_length. pose proof (text_length_le l). lia.
Qed.

Lemma str_spec_step_length l o l' :
  str_spec_step l o l' -> (length l' <= length l + op_size o)%nat.
Proof.
  destruct o as [c| | |cs i|cs i|b|i|i n| |b|]; cbn [str_spec_step op_size].
  - intros ->. rewrite app_length. cbn; lia.
  - intros ->. destruct l; cbn; lia.
  - intros ->. pose proof (removelast_firstn_pred l (length l) (le_n _)) as E.
    rewrite firstn_all in E. rewrite E, firstn_length. lia.
  - destruct (position _ _); intros ->; [|lia].
    rewrite !app_length, firstn_length, skipn_length. lia.
  - destruct (position (length l) i) eqn:P; intros ->.
    + rewrite !app_length, firstn_length, skipn_length. lia.
    + destruct (i <? 0)%Z; [lia|]. rewrite app_length. lia.
  - intros (d & rest & HP & ->). rewrite app_length.
    apply longest_prefix_length in HP. pose proof (cstr_length b). lia.
  - destruct (position _ _); intros ->; [|lia].
    unfold delete_at. rewrite app_length, firstn_length, skipn_length. lia.
  - destruct (position _ _); intros ->; [|lia].
    rewrite app_length, firstn_length, skipn_length. lia.
  - intros ->. cbn; lia.
  - intros (d & rest & HP & ->).
    apply longest_prefix_length in HP. pose proof (cstr_length b). lia.
  - intros ->. lia.
Qed.

Lemma str_step_refines s o s' out :
  coherent s -> op_ok o -> (Z.of_nat (length (ucs s)) + Z.of_nat (op_size o) < 2 ^ 62)%Z ->
  str_step s o = Ret (s', out) ->
  coherent s' /\ str_spec_step (ucs s) o (ucs s').
Proof.
  intros HC Ho Hb H.
  assert (Hn : (Z.of_nat (str_length s) < 2 ^ 63)%Z) by (unfold str_length; lia).
  destruct o as [c| | |cs i|cs i|b|i|i n| |b|]; cbn [str_step str_spec_step op_ok op_size] in *.
  - injection H as <- <-. split; [left; reflexivity | reflexivity].
  - injection H as <- <-. unfold str_pop_front. destruct (ucs s) as [|c l] eqn:E.
    + cbn [fst]. rewrite E. auto.
    + set (s0 := mkStr (c :: l) [] (err s)).
      destruct (remove_at_spec s0 0) as (C & _ & R);
        [unfold str_length, s0 in *; cbn [ucs] in *; rewrite E in Hn; exact Hn
        | unfold ptrdiff_ok; lia | left; reflexivity |].
      split; [exact C|]. rewrite position_0 in R by (unfold str_length, s0; cbn; lia).
      rewrite R. reflexivity.
  - injection H as <- <-. unfold str_pop_back. destruct (ucs s) as [|c l] eqn:E.
    + cbn [fst]. rewrite E. auto.
    + set (s0 := mkStr (c :: l) [] (err s)).
      assert (L : str_length s0 = str_length s) by (unfold str_length, s0; rewrite E; reflexivity).
      assert (L0 : str_length s = S (length l)) by (unfold str_length; rewrite E; reflexivity).
      destruct (remove_at_spec s0 (Z.of_nat (str_length s) - 1)) as (C & _ & R);
        [lia | unfold ptrdiff_ok; lia | left; reflexivity |].
      split; [exact C|].
      replace (Z.of_nat (str_length s) - 1)%Z with (Z.of_nat (length l)) in * by lia.
      rewrite position_nat in R by lia. rewrite R. cbn [fst ucs].
      rewrite <- delete_last by discriminate. unfold s0; cbn [ucs]. f_equal. cbn [length]; lia.
  - injection H as <- <-. unfold str_insert. rewrite str_index_position by assumption.
    unfold str_length in *.
    destruct (position (length (ucs s)) i) as [k|] eqn:P.
    + apply position_lt in P. rewrite Nat2Z.id.
      rewrite insert_chars_spec; [| lia | right; lia | lia].
      cbn [fst ucs]. split; [left; reflexivity | reflexivity].
    + cbn [fst]. auto.
  - injection H as <- <-. unfold str_overwrite. rewrite str_index_position by assumption.
    unfold str_length in *.
    destruct (position (length (ucs s)) i) as [k|] eqn:P.
    + apply position_lt in P. cbn [negb andb].
      rewrite overwrite_chars_spec by lia.
      cbn [fst ucs]. split; [left; reflexivity | reflexivity].
    + cbn [negb andb]. destruct (i <? 0)%Z eqn:En; cbn [fst ucs].
      * auto.
      * split; [left; reflexivity|].
        unfold position in P. unfold ptrdiff_ok in Ho.
        destruct ((0 <=? i) && (i <? Z.of_nat (length (ucs s))))%Z eqn:E1; [discriminate|].
        assert (Es : size_of_ptrdiff i = i) by (unfold size_of_ptrdiff; apply Z.mod_small; lia).
        rewrite Es. apply overwrite_chars_past; lia.
  - destruct (concat_spec s b Ho HC) as (s1 & d & rest & E & C & P & U & _).
    rewrite E in H. injection H as <- <-. split; [exact C|]. exists d, rest. auto.
  - injection H as <- <-. destruct (remove_at_spec s i Hn Ho HC) as (C & _ & R).
    split; [exact C|]. unfold str_length in *. destruct (position (length (ucs s)) i); rewrite R; reflexivity.
  - injection H as <- <-. destruct Ho as [Ho1 Ho2].
    destruct (remove_chars_spec s i n) as (C & _ & R); [unfold str_length; lia | exact Ho1 | exact HC|].
    split; [exact C|]. unfold str_length in *. destruct (position (length (ucs s)) i); apply R.
  - injection H as <- <-. split; [left; reflexivity | reflexivity].
  - unfold str_set_cstr in H.
    destruct (concat_spec (str_clear s) b Ho) as (s1 & d & rest & E & C & P & U & _); [left; reflexivity|].
    rewrite E in H. injection H as <- <-. split; [exact C|]. exists d, rest. auto.
  - unfold str_get_c_string in H. destruct (str_ensure_coherent s HC) as (E1 & E2 & E3 & E4).
    destruct (oct (str_ensure s)) as [|o t] eqn:EO.
    + injection H as <- <-. split; assumption.
    + destruct (last (o :: t) 1 =? 0); [|discriminate]. injection H as <- <-. split; assumption.
Qed.

(** Only reading the C string of a text with unencodable characters can fail. *)
Lemma str_step_total s o : coherent s -> op_ok o ->
  (o = SGetCString -> Forall scalar (ucs s)) -> exists r, str_step s o = Ret r.
Proof.
  intros HC Ho HS. destruct o; cbn [str_step op_ok] in *; eauto.
  - destruct (concat_spec s b Ho HC) as (s1 & d & rest & E & _). rewrite E. eauto.
  - unfold str_set_cstr.
    destruct (concat_spec (str_clear s) b Ho) as (s1 & d & rest & E & _); [left; reflexivity|].
    rewrite E. eauto.
  - destruct (get_c_string_scalar s HC (HS eq_refl)) as (s' & E & _). rewrite E. eauto.
Qed.


(** Operations that add only encodable characters. *)

Lemma Forall_firstn {X} (P : X -> Prop) n l : Forall P l -> Forall P (firstn n l).
Proof.
  revert l; induction n as [|n IH]; intros [|x l] H; cbn [firstn]; auto.
  inversion H; subst. constructor; auto.
Qed.
Lemma Forall_skipn {X} (P : X -> Prop) n l : Forall P l -> Forall P (skipn n l).
Proof.
  revert l; induction n as [|n IH]; intros [|x l] H; cbn [skipn]; auto.
  inversion H; subst. auto.
Qed.
Lemma Forall_removelast {X} (P : X -> Prop) l : Forall P l -> Forall P (removelast l).
Proof.
  intro H. pose proof (removelast_firstn_pred l (length l) (le_n _)) as E.
  rewrite firstn_all in E. rewrite E. apply Forall_firstn, H.
Qed.

Lemma prefix_scalar b d rest :
  longest_prefix (cstr b) d rest ->
  (exists l, Forall scalar l /\ Forall (fun c => c <> 0) l /\ cstr b = utf8_text l) ->
  Forall scalar d.
Proof.
  intros HP (l & H1 & H2 & E).
  assert (HD : Forall decodable l).
  { apply Forall_forall. intros c Hc. apply scalar_decodable.
    - rewrite Forall_forall in H1; auto.
    - rewrite Forall_forall in H2; auto. }
  rewrite E in HP. destruct (longest_prefix_unique _ _ _ _ _ HP (longest_prefix_text l HD)) as [-> _].
  exact H1.
Qed.

Lemma spec_step_scalar l o l' : op_scalar o -> Forall scalar l -> str_spec_step l o l' -> Forall scalar l'.
Proof.
  intros Ho Hl H. destruct o as [c| | |cs i|cs i|b|i|i n| |b|]; cbn [str_spec_step op_scalar] in *.
  - subst. apply Forall_app; auto.
  - subst. destruct l; [constructor | inversion Hl; auto].
  - subst. apply Forall_removelast, Hl.
  - destruct (position _ _); subst; [|exact Hl].
    apply Forall_app; split; [apply Forall_firstn, Hl|]. apply Forall_app; split; [exact Ho | apply Forall_skipn, Hl].
  - destruct (position _ _); subst.
    + apply Forall_app; split; [apply Forall_firstn, Hl|]. apply Forall_app; split; [exact Ho | apply Forall_skipn, Hl].
    + destruct (i <? 0)%Z; [exact Hl|]. apply Forall_app; auto.
  - destruct H as (d & rest & HP & ->). apply Forall_app; split; [exact Hl|]. eapply prefix_scalar; eassumption.
  - destruct (position _ _); subst; [|exact Hl]. apply Forall_app; split; [apply Forall_firstn, Hl | apply Forall_skipn, Hl].
  - destruct (position _ _); subst; [|exact Hl]. apply Forall_app; split; [apply Forall_firstn, Hl | apply Forall_skipn, Hl].
  - subst. constructor.
  - destruct H as (d & rest & HP & ->). eapply prefix_scalar; eassumption.
  - subst; exact Hl.
Qed.

Lemma str_run_refines ops : forall s,
  coherent s -> Forall scalar (ucs s) -> Forall op_ok ops -> Forall op_scalar ops ->
  (Z.of_nat (length (ucs s)) + Z.of_nat (list_sum (map op_size ops)) < 2 ^ 62)%Z ->
  exists s' outs, str_run s ops = Ret (s', outs) /\ coherent s' /\ Forall scalar (ucs s')
    /\ str_spec_run (ucs s) ops (ucs s') outs.
Proof.
  induction ops as [|o ops IH]; intros s HC HS Ho Hs Hb; cbn [str_run].
  - exists s, []. repeat split; try assumption. constructor.
  - inversion Ho as [|? ? Ho1 Ho2]; inversion Hs as [|? ? Hs1 Hs2]; subst.
    unfold list_sum in Hb; cbn [map fold_right] in Hb.
    destruct (str_step_total s o HC Ho1 (fun _ => HS)) as ([s1 out] & E).
    rewrite E; cbn [obind fst snd].
    destruct (str_step_refines s o s1 out HC Ho1 ltac:(lia) E) as (C1 & R1).
    pose proof (spec_step_scalar _ _ _ Hs1 HS R1) as HS1.
    pose proof (str_spec_step_length _ _ _ R1) as HL.
    destruct (IH s1 C1 HS1 Ho2 Hs2) as (s2 & outs & E2 & C2 & S2 & R2); [unfold list_sum; lia|].
    rewrite E2; cbn [obind fst snd].
    exists s2, (out :: outs). repeat split; try assumption.
    destruct o; cbn [str_step] in E;
      try (injection E as E' <-; eapply ssr_op; [discriminate | exact R1 | exact R2]).
    + destruct (str_concat_cstr s b); [|discriminate].
      injection E as E' <-; eapply ssr_op; [discriminate | exact R1 | exact R2].
    + destruct (str_set_cstr s b); [|discriminate].
      injection E as E' <-; eapply ssr_op; [discriminate | exact R1 | exact R2].
    + destruct (get_c_string_scalar s HC HS) as (s3 & E3 & U3 & _).
      rewrite E3 in E. injection E as <- <-. rewrite U3 in R2. apply ssr_get; assumption.
Qed.

(** *** Search and removal *)
Lemma find_loop_none n : forall l i sub, find_loop n l i sub = None ->
  forall k, (k < n)%nat -> check_match (skipn k l) sub = false.
Proof.
  induction n as [|n IH]; intros l i sub H k Hk; [lia|]. cbn [find_loop] in H.
  destruct (check_match l sub) eqn:E; [discriminate|].
  destruct k as [|k]; [exact E|].
  specialize (IH _ _ _ H k ltac:(lia)). destruct l; cbn [tl skipn] in *; rewrite ?skipn_nil in *; exact IH.
Qed.

Lemma find_loop_some n : forall l i sub j, find_loop n l i sub = Some j ->
  exists k, (k < n)%nat /\ j = (i + k)%nat /\ check_match (skipn k l) sub = true /\
            forall m, (m < k)%nat -> check_match (skipn m l) sub = false.
Proof.
  induction n as [|n IH]; intros l i sub j H; [discriminate|]. cbn [find_loop] in H.
  destruct (check_match l sub) eqn:E.
  - injection H as <-. exists O. repeat split; [lia | lia | exact E | lia].
  - destruct (IH _ _ _ _ H) as (k & H1 & H2 & H3 & H4).
    exists (S k). repeat split; [lia | lia | |].
    + destruct l; cbn [tl skipn] in *; rewrite ?skipn_nil in *; exact H3.
    + intros [|m] Hm; [exact E|]. specialize (H4 m ltac:(lia)).
      destruct l; cbn [tl skipn] in *; rewrite ?skipn_nil in *; exact H4.
Qed.

(** [sub] occurs in [l]. *)

Lemma not_occurs sub l : sub <> [] ->
  (forall k, (k < length l)%nat -> check_match (skipn k l) sub = false) -> ~ occurs sub l.
Proof.
  intros Hne H (p & q & E). specialize (H (length p)).
  rewrite E in H. rewrite skipn_app_exact in H by reflexivity.
  assert (Hm : check_match (sub ++ q) sub = true) by (apply check_match_spec; eauto).
  rewrite Hm in H. enough (true = false) by discriminate. apply H.
  rewrite !app_length. destruct sub; [congruence|]. cbn [length]. lia.
Qed.

Lemma str_find_first_0 s sub : ucs s <> [] ->
  str_find_first s 0 sub = find_loop (length (ucs s)) (ucs s) 0 sub.
Proof.
  intro H. unfold str_find_first, str_index, size_of_ptrdiff.
  rewrite Z.mod_0_l by lia. cbn [Z.ltb Z.compare].
  unfold str_length. destruct (ucs s) as [|c l] eqn:E; [congruence|].
  replace (0 <? Z.of_nat (length (c :: l)))%Z with true by (cbn [length]; lia).
  reflexivity.
Qed.

(** Successive removals of an occurrence of [sub]. *)

Lemma remove_all_loop_spec sub : sub <> [] -> forall fuel s acc,
  coherent s -> (Z.of_nat (length (ucs s)) + Z.of_nat (length sub) < 2 ^ 62)%Z ->
  (length (ucs s) <= fuel)%nat ->
  exists s' n, remove_all_loop fuel s sub acc = Ret (s', acc + n)%nat
    /\ coherent s' /\ ~ occurs sub (ucs s') /\ removals sub (ucs s) n (ucs s').
Proof.
  intros Hne. induction fuel as [|fuel IH]; intros s acc HC Hb Hf; cbn [remove_all_loop].
  - destruct (ucs s) as [|c l] eqn:E; [|cbn in Hf; lia].
    exists s, O. rewrite Nat.add_0_r. repeat split; try assumption.
    + rewrite E. intros (p & q & E'). symmetry in E'. apply app_eq_nil in E' as [_ E'].
      apply app_eq_nil in E' as [E' _]. congruence.
    + rewrite E. constructor.
  - destruct (ucs s) as [|c l] eqn:E.
    { exists s, O. rewrite Nat.add_0_r. repeat split; try assumption.
      + rewrite E. intros (p & q & E'). symmetry in E'. apply app_eq_nil in E' as [_ E'].
        apply app_eq_nil in E' as [E' _]. congruence.
      + rewrite E. constructor. }
    rewrite <- E in *.
    rewrite str_find_first_0 by (rewrite E; discriminate).
    destruct (find_loop (length (ucs s)) (ucs s) 0 sub) as [j|] eqn:F.
    + destruct (find_loop_some _ _ _ _ _ F) as (k & Hk & -> & Hm & _). rewrite Nat.add_0_l.
      apply check_match_spec in Hm as [r Hr].
      assert (Es : ucs s = firstn k (ucs s) ++ sub ++ r) by (rewrite <- Hr, firstn_skipn; reflexivity).
      destruct (remove_chars_spec s (Z.of_nat k) (length sub)) as (C & Er & R);
        [unfold str_length; lia | unfold ptrdiff_ok; lia | exact HC |].
      unfold str_length in R. rewrite position_nat in R by lia. destruct R as [U Nn].
      assert (LS : (length sub <= length (ucs s) - k)%nat).
      { rewrite <- skipn_length, Hr, app_length. lia. }
      assert (LP : (0 < length sub)%nat) by (destruct sub; [congruence | cbn; lia]).
      rewrite Nat.min_l in Nn by lia.
      destruct (str_remove_chars s (Z.of_nat k) (length sub)) as [s1 n1]. cbn [fst snd] in *.
      rewrite Nat.add_comm, <- skipn_skipn', Hr, skipn_app_exact in U by reflexivity.
      subst n1. destruct (length sub) as [|ls] eqn:EL; [lia|].
      destruct (IH s1 (S acc) C) as (s' & n & R1 & C1 & N1 & RM).
      * rewrite U, app_length. rewrite Es, !app_length, EL in Hb. lia.
      * rewrite U, app_length. rewrite Es, !app_length, EL in Hf. lia.
      * exists s', (S n). replace (acc + S n)%nat with (S acc + n)%nat by lia.
        repeat split; try assumption.
        rewrite Es. constructor. rewrite <- U. exact RM.
    + exists s, O. rewrite Nat.add_0_r. repeat split; try assumption; [|constructor].
      apply not_occurs; [exact Hne|]. intros k Hk. eapply find_loop_none; eassumption.
Qed.

Lemma remove_all_empty fuel : forall s acc, ucs s <> [] -> remove_all_loop fuel s [] acc = NoFuel.
Proof.
  induction fuel as [|fuel IH]; intros s acc H; cbn [remove_all_loop].
  - destruct (ucs s) as [|c l] eqn:E; [congruence|].
    rewrite str_find_first_0 by (rewrite E; discriminate).
    rewrite E. reflexivity.
  - destruct (ucs s) as [|c l] eqn:E; [congruence|].
    rewrite str_find_first_0 by (rewrite E; discriminate).
    rewrite E. cbn [find_loop check_match length]. cbn [str_remove_chars].
    apply IH. rewrite E; discriminate.
Qed.

(** *** Equality and hashing *)
Lemma check_match_same_length a b : length a = length b -> check_match a b = true -> a = b.
Proof.
  intros HL H. apply check_match_spec in H as [r ->]. rewrite app_length in HL.
  destruct r; [apply app_nil_r | cbn in HL; lia].
Qed.

Lemma str_is_equal_spec a b : str_is_equal a b = true <-> ucs a = ucs b.
Proof.
  unfold str_is_equal, str_length. split.
  - intro H. apply andb_prop in H as [H1 H2]. apply Nat.eqb_eq in H1.
    apply check_match_same_length; assumption.
  - intros ->. rewrite Nat.eqb_refl. cbn. apply check_match_spec. exists []. symmetry; apply app_nil_r.
Qed.

Lemma str_hash_coherent a b : coherent a -> coherent b -> ucs a = ucs b -> str_hash a = str_hash b.
Proof.
  intros Ha Hb E. unfold str_hash.
  destruct (str_ensure_coherent a Ha) as (_ & _ & -> & _).
  destruct (str_ensure_coherent b Hb) as (_ & _ & -> & _).
  rewrite E. reflexivity.
Qed.

Lemma lxor_u32 a b : a < two32 -> b < two32 -> N.lxor a b < two32.
Proof.
  intros Ha Hb. change two32 with (2 ^ 32) in *.
  destruct (N.eq_dec (N.lxor a b) 0) as [->|Hne]; [lia|].
  apply N.log2_lt_pow2; [lia|].
  eapply N.le_lt_trans; [apply N.log2_lxor|].
  destruct (N.eq_dec a 0) as [->|Ha0]; destruct (N.eq_dec b 0) as [->|Hb0].
  - exfalso; apply Hne; reflexivity.
  - rewrite N.max_r by (apply N.log2_le_mono; lia). apply N.log2_lt_pow2; lia.
  - rewrite N.max_l by (apply N.log2_le_mono; lia). apply N.log2_lt_pow2; lia.
  - apply N.max_lub_lt; apply N.log2_lt_pow2; lia.
Qed.

Lemma u32_lt n : u32 n < two32.
Proof. apply N.mod_lt. discriminate. Qed.

Lemma jenkins_lt l : jenkins l < two32.
Proof. unfold jenkins. apply u32_lt. Qed.

(** *** strcmp and code point order *)

Lemma strcmp_app p a b : strcmp (p ++ a) (p ++ b) = strcmp a b.
Proof. induction p as [|x p IH]; cbn; [reflexivity|]. rewrite N.compare_refl. exact IH. Qed.

Lemma strcmp_flip a : forall b, strcmp b a = CompOpp (strcmp a b).
Proof.
  induction a as [|x a IH]; intros [|y b]; cbn; try reflexivity.
  rewrite (N.compare_antisym x y). destruct (x ?= y); cbn; auto.
Qed.

Ltac Zify.zify_post_hook ::= Z.div_mod_to_equations.

Lemma utf8_lt c d r1 r2 : c < d -> d < 0x200000 -> strcmp (utf8 c ++ r1) (utf8 d ++ r2) = Lt.
Proof.
  intros Hcd Hd. unfold utf8.
  destruct (c <? 0x80) eqn:C1; [|destruct (c <? 0x800) eqn:C2; [|destruct (c <? 0x10000) eqn:C3]];
  (destruct (d <? 0x80) eqn:D1; [|destruct (d <? 0x800) eqn:D2; [|destruct (d <? 0x10000) eqn:D3]]);
  try lia; cbn [app strcmp].
  all: match goal with |- context [?a ?= ?b] => destruct (N.compare_spec a b) as [E1|E1|E1]; [|reflexivity|exfalso; lia] end.
  all: try (exfalso; lia).
  all: match goal with |- context [?a ?= ?b] => destruct (N.compare_spec a b) as [E2|E2|E2]; [|reflexivity|exfalso; lia] end.
  all: try (exfalso; lia).
  all: match goal with |- context [?a ?= ?b] => destruct (N.compare_spec a b) as [E3|E3|E3]; [|reflexivity|exfalso; lia] end.
  all: try (exfalso; lia).
  all: match goal with |- context [?a ?= ?b] => destruct (N.compare_spec a b) as [E4|E4|E4]; [|reflexivity|exfalso; lia] end.
  all: exfalso; lia.
Qed.

Lemma strcmp_text a : forall b, Forall decodable a -> Forall decodable b ->
  strcmp (utf8_text a) (utf8_text b) = lex a b.
Proof.
  induction a as [|c a IH]; intros [|d b] Ha Hb.
  - reflexivity.
  - rewrite utf8_text_cons. pose proof (utf8_nonempty d) as H.
    destruct (utf8 d); [cbn in H; lia | reflexivity].
  - rewrite utf8_text_cons. pose proof (utf8_nonempty c) as H.
    destruct (utf8 c); [cbn in H; lia | reflexivity].
  - inversion Ha as [|? ? Hc Ha']; inversion Hb as [|? ? Hd Hb']; subst.
    rewrite !utf8_text_cons. cbn [lex]. unfold decodable in Hc, Hd.
    destruct (N.compare_spec c d) as [->|Hlt|Hgt].
    + rewrite strcmp_app. apply IH; assumption.
    + apply utf8_lt; lia.
    + rewrite strcmp_flip, utf8_lt by lia. reflexivity.
Qed.

Lemma str_compare_lex a b :
  coherent a -> coherent b ->
  Forall scalar (ucs a) -> Forall scalar (ucs b) ->
  Forall (fun c => c <> 0) (ucs a) -> Forall (fun c => c <> 0) (ucs b) ->
  str_compare a b = Ret (lex (ucs a) (ucs b)).
Proof.
  intros Ca Cb Sa Sb Za Zb. unfold str_compare.
  destruct (get_c_string_scalar b Cb Sb) as (b' & -> & _ & _ & _). cbn [obind snd].
  destruct (str_ensure_coherent a Ca) as (_ & _ & E & _). rewrite E, encode_octets_scalar by assumption.
  assert (Da : Forall decodable (ucs a)).
  { rewrite Forall_forall in *. intros c Hc. apply scalar_decodable; auto. }
  assert (Db : Forall decodable (ucs b)).
  { rewrite Forall_forall in *. intros c Hc. apply scalar_decodable; auto. }
  destruct (utf8_text (ucs a) ++ [0]) as [|o t] eqn:EO.
  { apply app_eq_nil in EO as [_ EO]; discriminate. }
  rewrite <- EO, last_app_nul, N.eqb_refl.
  rewrite !cstr_app_nul by (apply utf8_text_nonul; assumption).
  rewrite strcmp_text by assumption. reflexivity.
Qed.

(** *** Splitting *)

Lemma ends_with_spec a b : str_ends_with a b = true <-> exists p, a = p ++ b.
Proof.
  unfold str_ends_with. split.
  - intro H. apply andb_prop in H as [H1 H2]. apply Nat.leb_le in H1.
    exists (firstn (length a - length b) a).
    rewrite <- (firstn_skipn (length a - length b) a) at 1. f_equal.
    apply check_match_same_length; [rewrite skipn_length; lia | exact H2].
  - intros [p ->]. rewrite app_length.
    replace (Nat.leb (length b) (length p + length b)) with true by (symmetry; apply Nat.leb_le; lia).
    replace (length p + length b - length b)%nat with (length p) by lia.
    rewrite skipn_app_exact by reflexivity. cbn. apply check_match_spec. exists []. symmetry; apply app_nil_r.
Qed.
