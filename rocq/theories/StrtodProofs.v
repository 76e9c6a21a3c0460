(** strtod reads the longest number at the beginning of a text. *)
From Coq Require Import String List NArith ZArith Bool Lia Arith.
From Coq Require Import Floats.SpecFloat.
From Verif Require Import Base Heap Env SpecText SpecReal RealText RealProofs RealUnique SpecWrite Strtod SpecStrtod StrtodRound.
Import ListNotations.
Local Open Scope list_scope.
Local Open Scope N_scope.

(** ** Runs of characters *)
Lemma run_app p a r : forallb p a = true -> run_of p (a ++ r) = (a ++ fst (run_of p r), snd (run_of p r)).
Proof.
  induction a as [|c a IH]; cbn [app forallb run_of]; intros H; [now destruct (run_of p r)|]. apply andb_true_iff in H as (C & H). rewrite C, (IH H). reflexivity.
Qed.
Lemma run_sound p t a r : run_of p t = (a, r) -> t = a ++ r /\ forallb p a = true.
Proof.
  revert a r. induction t as [|c t IH]; cbn [run_of]; intros a r; [intros [= <- <-]; auto|]. destruct (p c) eqn:C; [|intros [= <- <-]; auto].
  destruct (run_of p t) as [a' r'] eqn:E. intros [= <- <-]. destruct (IH _ _ eq_refl) as (-> & F). cbn [app forallb]. now rewrite C, F.
Qed.
Lemma run_stop p r : (forall c r', r = c :: r' -> p c = false) -> run_of p r = ([], r).
Proof. destruct r as [|c r]; cbn [run_of]; [reflexivity|]. intros H. now rewrite (H c r eq_refl). Qed.
Lemma run_length p t : (List.length (snd (run_of p t)) <= List.length t)%nat.
Proof. destruct (run_of p t) as [a r] eqn:E. apply run_sound in E as (-> & _). cbn [snd]. rewrite app_length. lia. Qed.
Lemma run_or p r : run_of p r = ([], r) \/ exists c r', r = c :: r' /\ p c = true /\ (List.length (snd (run_of p r)) < List.length r)%nat.
Proof.
  destruct r as [|c r]; [now left|]. cbn [run_of]. destruct (p c) eqn:C; [right|now left]. exists c, r. split; [reflexivity|split; [exact C|]].
  pose proof (run_length p r). destruct (run_of p r). cbn [snd List.length] in *. lia.
Qed.
Lemma digit_iff c : digit_char c = true <-> digit c.
Proof. unfold digit_char, digit. rewrite andb_true_iff, !N.leb_le. reflexivity. Qed.
Lemma hex_iff c : hex_char c = true <-> hex_digit c.
Proof. unfold hex_char, hex_digit. rewrite !orb_true_iff, !andb_true_iff, !N.leb_le, digit_iff. tauto. Qed.
Lemma white_iff c : white_char c = true <-> white c.
Proof. unfold white_char, white. rewrite orb_true_iff, andb_true_iff, !N.leb_le, N.eqb_eq. tauto. Qed.
Lemma letter_iff l c : letter l c = true <-> cased l c.
Proof. unfold letter, cased. now rewrite orb_true_iff, !N.eqb_eq. Qed.
Lemma all_iff (p : N -> bool) (P : N -> Prop) (H : forall c, p c = true <-> P c) l : forallb p l = true <-> Forall P l.
Proof. rewrite forallb_forall, Forall_forall. split; intros K c I; apply H, K, I. Qed.
Lemma hex_worths u : Forall hex_digit u -> hex_worth u = Z.of_N (hex_digits_worth u).
Proof.
  intros F. unfold hex_worth, hex_digits_worth. f_equal. generalize 0 as v. induction F as [|c u H F IH]; intros v; cbn [fold_left]; [reflexivity|]. rewrite IH. do 2 f_equal.
  unfold hex_value, hex_digit_worth. unfold hex_digit, digit in H. destruct (N.leb_spec c 57), (N.ltb_spec c 58), (N.leb_spec c 70), (N.ltb_spec c 97); lia.
Qed.

(** ** Mantissas *)
Lemma mantissa_sound p t a b r : mantissa p t = (a, b, r) -> a ++ b <> [] -> exists u, t = u ++ r /\ pointed a b u /\ forallb p (a ++ b) = true.
Proof.
  unfold mantissa. destruct (run_of p t) as [a0 r0] eqn:E. apply run_sound in E as (-> & F).
  assert (PLAIN : (a0, [], r0) = (a, b, r) -> exists u, a0 ++ r0 = u ++ r /\ pointed a b u /\ forallb p (a ++ b) = true).
  { intros [= <- <- <-]. exists a0. split; [reflexivity|]. split; [now right|]. now rewrite app_nil_r. }
  destruct r0 as [|c r0]; [auto|]. destruct (N.eqb_spec c 46) as [->|NE].
  - destruct (run_of p r0) as [b0 r1] eqn:E. apply run_sound in E as (-> & F'). destruct (a0 ++ b0) eqn:AB; intros [= <- <- <-] NE; [now elim NE|]. exists (a0 ++ asc "." ++ b0).
    split; [now rewrite <- !app_assoc|]. split; [now left|]. now rewrite forallb_app, F, F'.
  - auto.
Qed.
Lemma mantissa_max p a b u r : p 46 = false -> forallb p (a ++ b) = true -> a ++ b <> [] -> pointed a b u ->
  mantissa p (u ++ r) = (a, b, r) \/
  exists a2 b2 r2 c r0, r = c :: r0 /\ (p c = true \/ c = 46) /\ mantissa p (u ++ r) = (a2, b2, r2) /\ a2 ++ b2 <> [] /\ (List.length r2 < List.length r)%nat.
Proof.
  intros P F NE PT. rewrite forallb_app in F. apply andb_true_iff in F as (FA & FB). unfold mantissa. destruct PT as [->|(-> & ->)].
  - change (asc ".") with [46]. rewrite <- !app_assoc. cbn [app]. rewrite (run_app p a _ FA). cbn [run_of]. rewrite P. cbn [fst snd]. rewrite app_nil_r. cbn [N.eqb Pos.eqb]. rewrite (run_app p b _ FB).
    destruct (run_or p r) as [->|(c & r' & -> & C & L)].
    + cbn [fst snd]. rewrite app_nil_r. left. destruct (a ++ b); [now elim NE|reflexivity].
    + right. assert (X : a ++ b ++ fst (run_of p (c :: r')) <> []). { intro K. apply app_eq_nil in K as (-> & K). apply app_eq_nil in K as (-> & _). now elim NE. }
      exists a, (b ++ fst (run_of p (c :: r'))), (snd (run_of p (c :: r'))), c, r'. repeat split; auto. destruct (a ++ b ++ _); [now elim X|reflexivity].
  - rewrite app_nil_r in NE. rewrite (run_app p a _ FA). destruct (run_or p r) as [E|(c & r' & -> & C & L)].
    + rewrite E. cbn [fst snd]. rewrite app_nil_r. destruct r as [|c r]; [now left|]. destruct (N.eqb_spec c 46) as [->|NC]; [|now left]. right. pose proof (run_length p r) as L. destruct (run_of p r) as [b2 r2]. cbn [snd] in L.
      assert (X : a ++ b2 <> []) by (intro K; apply app_eq_nil in K as (K & _); contradiction). exists a, b2, r2, 46, r. repeat split; auto; [|cbn [List.length]; lia]. destruct (a ++ b2); [now elim X|reflexivity].
    + right. destruct (run_of p (c :: r')) as [x r1]. cbn [fst snd] in *. assert (X : (a ++ x) ++ [] <> []) by (rewrite app_nil_r; intro K; apply app_eq_nil in K as (K & _); contradiction).
      assert (PLAIN : exists a2 b2 r2 c0 r0, c :: r' = c0 :: r0 /\ (p c0 = true \/ c0 = 46) /\ (a ++ x, @nil N, r1) = (a2, b2, r2) /\ a2 ++ b2 <> [] /\ (List.length r2 < List.length (c :: r'))%nat).
      { exists (a ++ x), [], r1, c, r'. repeat split; auto. }
      destruct r1 as [|d r1]; [exact PLAIN|]. destruct (N.eqb_spec d 46) as [->|ND]; [|exact PLAIN]. pose proof (run_length p r1) as L1. destruct (run_of p r1) as [b2 r2]. cbn [snd List.length] in *.
      assert (Y : (a ++ x) ++ b2 <> []) by (rewrite <- app_assoc; intro K; apply app_eq_nil in K as (K & _); contradiction). exists (a ++ x), b2, r2, c, r'. repeat split; auto; [|lia]. destruct ((a ++ x) ++ b2); [now elim Y|reflexivity].
Qed.

(** ** Exponents *)
Lemma sign_sound t neg r : take_sign t = (neg, r) -> exists s, plus_minus neg s /\ t = s ++ r.
Proof.
  unfold take_sign. destruct t as [|c t]; [intros [= <- <-]; exists []; split; [constructor|reflexivity]|].
  destruct (N.eqb_spec c 43) as [->|N1]; [intros [= <- <-]; exists [43]; split; [constructor|reflexivity]|]. destruct (N.eqb_spec c 45) as [->|N2]; [intros [= <- <-]; exists [45]; split; [constructor|reflexivity]|].
  intros [= <- <-]. exists []. split; [constructor|reflexivity].
Qed.
Lemma sign_take neg s r : plus_minus neg s -> (forall c r', r = c :: r' -> c <> 43 /\ c <> 45) -> take_sign (s ++ r) = (neg, r).
Proof.
  intros [ | | ] H; try reflexivity. cbn [app]. destruct r as [|c r]; [reflexivity|]. destruct (H c r eq_refl) as (A & B). cbn [take_sign]. destruct (N.eqb_spec c 43); [contradiction|]. destruct (N.eqb_spec c 45); [contradiction|]. reflexivity.
Qed.
Lemma exponent_sound mark t x r : exponent_at mark t = (x, r) -> exists e, t = e ++ r /\ power_part mark x e.
Proof.
  assert (NONE : (0%Z, t) = (x, r) -> exists e, t = e ++ r /\ power_part mark x e) by (intros [= <- <-]; exists []; split; [reflexivity|constructor]).
  unfold exponent_at. destruct t as [|c t]; [exact NONE|]. destruct (letter mark c) eqn:C; [|exact NONE]. apply letter_iff in C. destruct (take_sign t) as [neg r1] eqn:S. apply sign_sound in S as (s & S & ->).
  destruct (run_of digit_char r1) as [d r2] eqn:D. apply run_sound in D as (-> & D). apply (all_iff _ _ digit_iff) in D. destruct d as [|d0 d]; [exact NONE|]. intros [= <- <-].
  exists (c :: s ++ d0 :: d). split; [cbn [app]; now rewrite <- app_assoc|]. apply (pp_some mark c neg s (d0 :: d)); auto. discriminate.
Qed.
Lemma exponent_length mark t : (List.length (snd (exponent_at mark t)) <= List.length t)%nat.
Proof. destruct (exponent_at mark t) as [x r] eqn:E. apply exponent_sound in E as (e & -> & _). cbn [snd]. rewrite app_length. lia. Qed.
Lemma exponent_max mark x e r : power_part mark x e -> exists x' r', exponent_at mark (e ++ r) = (x', r') /\ ((x' = x /\ r' = r) \/ (List.length r' < List.length r)%nat).
Proof.
  intros [|c neg s d C S D NE].
  - cbn [app]. destruct (exponent_at mark r) as [x' r'] eqn:E. exists x', r'. split; [reflexivity|]. destruct (exponent_sound _ _ _ _ E) as (e' & -> & PP). destruct PP as [|c neg s d C S D NE]; [left; split; reflexivity|]. right. rewrite app_length. cbn [List.length]. lia.
  - assert (FD : forallb digit_char d = true) by (now apply (all_iff _ _ digit_iff)). apply letter_iff in C. cbn [app exponent_at]. rewrite C, <- app_assoc, (sign_take neg s (d ++ r) S).
    2: { intros k r' E. destruct d as [|d0 d]; [now elim NE|]. injection E as <- _. inversion D as [|? ? DG]. unfold digit in DG. lia. }
    rewrite (run_app _ d r FD). destruct d as [|d0 d]; [now elim NE|]. destruct (run_or digit_char r) as [->|(k & r' & -> & _ & L)].
    + cbn [fst snd app]. rewrite app_nil_r. eexists _, _. split; [reflexivity|]. left. split; reflexivity.
    + cbn [app]. eexists _, _. split; [reflexivity|]. now right.
Qed.

(** ** Numbers *)
Definition quantity_of (q : amount) : quantity :=
  match q with Num n b x => Finite (n * fst (power b x), snd (power b x))%Z | Infinite => Unbounded | NotANumber => Undefined end.
Lemma decimal_sound t q r : decimal_at t = Some (q, r) -> exists u, t = u ++ r /\ spelled u (quantity_of q).
Proof.
  unfold decimal_at. destruct (mantissa digit_char t) as [[a b] r0] eqn:M. destruct (a ++ b) as [|d0 ds] eqn:AB; [discriminate|]. assert (NE : a ++ b <> []) by now rewrite AB. rewrite <- AB. clear d0 ds AB.
  destruct (exponent_at 101 r0) as [x r'] eqn:E. intros [= <- <-]. apply mantissa_sound in M as (u & -> & PT & F); [|exact NE]. apply exponent_sound in E as (e & -> & PP).
  exists (u ++ e). split; [now rewrite <- app_assoc|]. apply (all_iff _ _ digit_iff) in F. cbn [quantity_of]. exact (spelled_decimal a b u x e F NE PT PP).
Qed.
Lemma hex_sound t q r : hex_at t = Some (q, r) -> exists u, t = u ++ r /\ spelled u (quantity_of q) /\ (2 <= List.length u)%nat.
Proof.
  unfold hex_at. destruct t as [|z [|c r0]]; try discriminate. destruct (N.eqb_spec z 48) as [->|]; cbn [andb]; [|discriminate]. destruct (letter 120 c) eqn:C; [|discriminate]. apply letter_iff in C.
  destruct (mantissa hex_char r0) as [[a b] r1] eqn:M. destruct (a ++ b) as [|d0 ds] eqn:AB; [discriminate|]. assert (NE : a ++ b <> []) by now rewrite AB. rewrite <- AB. clear d0 ds AB.
  destruct (exponent_at 112 r1) as [x r'] eqn:E. intros [= <- <-]. apply mantissa_sound in M as (u & -> & PT & F); [|exact NE]. apply exponent_sound in E as (e & -> & PP). apply (all_iff _ _ hex_iff) in F.
  exists (asc "0" ++ [c] ++ u ++ e). split; [change (asc "0") with [48]; cbn [app]; now rewrite <- app_assoc|]. split; [|cbn; lia]. cbn [quantity_of]. rewrite (hex_worths _ F). apply (spelled_hex c a b u x e); auto. constructor; [exact C|constructor].
Qed.
Lemma part_follows mark x e r c r0 : power_part mark x e -> e ++ r = c :: r0 -> e = [] \/ cased mark c.
Proof. intros [|c' neg s d C S D NE] E; [now left|]. injection E as <- _. now right. Qed.
Lemma decimal_max a b u x p r : Forall digit (a ++ b) -> a ++ b <> [] -> pointed a b u -> power_part 101 x p ->
  exists q' r', decimal_at ((u ++ p) ++ r) = Some (q', r') /\
    ((q' = Num (dec_worth (a ++ b)) 10 (x - Z.of_nat (List.length b)) /\ r' = r) \/ (List.length r' < List.length r)%nat).
Proof.
  intros F NE PT PP. apply (all_iff _ _ digit_iff) in F. rewrite <- app_assoc. unfold decimal_at. destruct (mantissa_max digit_char a b u (p ++ r) eq_refl F NE PT) as [->|(a2 & b2 & r2 & c & r0 & E & C & -> & N2 & L)].
  - destruct (exponent_max 101 x p r PP) as (x' & r' & -> & K). destruct (a ++ b); [now elim NE|]. eexists _, _. split; [reflexivity|]. destruct K as [(-> & ->)|K]; [left; split; reflexivity|now right].
  - destruct (part_follows _ _ _ _ _ _ PP E) as [->|X].
    + cbn [app] in *. pose proof (exponent_length 101 r2) as L2. destruct (exponent_at 101 r2) as [x' r']. cbn [snd] in L2. destruct (a2 ++ b2); [now elim N2|]. eexists _, _. split; [reflexivity|]. right. lia.
    + exfalso. unfold cased in X. destruct C as [C|C]; [apply digit_iff in C; unfold digit in C|]; lia.
Qed.
Lemma hex_max z a b u x p r : cased 120 z -> Forall hex_digit (a ++ b) -> a ++ b <> [] -> pointed a b u -> power_part 112 x p ->
  exists q' r', hex_at ((48 :: z :: u ++ p) ++ r) = Some (q', r') /\
    ((q' = Num (hex_worth (a ++ b)) 2 (x - 4 * Z.of_nat (List.length b)) /\ r' = r) \/ (List.length r' < List.length r)%nat).
Proof.
  intros Z F NE PT PP. apply (all_iff _ _ hex_iff) in F. cbn [app]. rewrite <- app_assoc. unfold hex_at. cbn [N.eqb Pos.eqb andb]. apply letter_iff in Z. rewrite Z.
  destruct (mantissa_max hex_char a b u (p ++ r) eq_refl F NE PT) as [->|(a2 & b2 & r2 & c & r0 & E & C & -> & N2 & L)].
  - destruct (exponent_max 112 x p r PP) as (x' & r' & -> & K). destruct (a ++ b); [now elim NE|]. eexists _, _. split; [reflexivity|]. destruct K as [(-> & ->)|K]; [left; split; reflexivity|now right].
  - destruct (part_follows _ _ _ _ _ _ PP E) as [->|X].
    + cbn [app] in *. pose proof (exponent_length 112 r2) as L2. destruct (exponent_at 112 r2) as [x' r']. cbn [snd] in L2. destruct (a2 ++ b2); [now elim N2|]. eexists _, _. split; [reflexivity|]. right. lia.
    + exfalso. unfold cased in X. destruct C as [C|C]; [apply hex_iff in C; unfold hex_digit, digit in C|]; lia.
Qed.
Lemma strip_cased w u r : Forall2 cased w u -> strip_word w (u ++ r) = Some r.
Proof. induction 1 as [|l c w u C F IH]; cbn [app strip_word]; [now destruct r|]. apply letter_iff in C. now rewrite C. Qed.
Lemma strip_sound w t r : strip_word w t = Some r -> exists u, Forall2 cased w u /\ t = u ++ r.
Proof.
  revert t. induction w as [|l w IH]; intros t; cbn [strip_word]; [destruct t; intros [= <-]; exists []; auto|]. destruct t as [|c t]; [discriminate|]. destruct (letter l c) eqn:C; [|discriminate]. intros E. destruct (IH _ E) as (u & F & ->).
  exists (c :: u). split; [constructor; [now apply letter_iff|exact F]|reflexivity].
Qed.
Lemma strip_first l w c t : ~ cased l c -> strip_word (l :: w) (c :: t) = None.
Proof. intros N. cbn [strip_word]. destruct (letter l c) eqn:C; [|reflexivity]. now apply letter_iff in C. Qed.
Lemma cased_length w u : Forall2 cased w u -> List.length u = List.length w.
Proof. induction 1; cbn [List.length]; lia. Qed.

Theorem amount_sound t q r : amount_at t = Some (q, r) -> exists u, t = u ++ r /\ spelled u (quantity_of q).
Proof.
  unfold amount_at. destruct (strip_word [105; 110; 102; 105; 110; 105; 116; 121] t) as [r1|] eqn:E1.
  { intros [= <- <-]. apply strip_sound in E1 as (u & F & ->). exists u. split; [reflexivity|]. apply spelled_infinity. now right. }
  destruct (strip_word [105; 110; 102] t) as [r2|] eqn:E2.
  { intros [= <- <-]. apply strip_sound in E2 as (u & F & ->). exists u. split; [reflexivity|]. apply spelled_infinity. now left. }
  destruct (strip_word [110; 97; 110] t) as [r3|] eqn:E3.
  { intros [= <- <-]. apply strip_sound in E3 as (u & F & ->). exists u. split; [reflexivity|]. now apply spelled_nan. }
  destruct (hex_at t) as [[q' r']|] eqn:E4; [intros [= <- <-]; apply hex_sound in E4 as (u & A & B & _); eauto|apply decimal_sound].
Qed.
(** The characters of decimal numbers. *)
Definition decimal_char (c : N) : Prop := digit c \/ c = 46 \/ cased 101 c \/ c = 43 \/ c = 45.
Lemma part_chars mark x e : power_part mark x e -> Forall (fun c => digit c \/ cased mark c \/ c = 43 \/ c = 45) e.
Proof.
  intros [|c neg s d C S D NE]; constructor; [tauto|]. apply Forall_app. split; [destruct S; repeat constructor; tauto|]. eapply Forall_impl; [|exact D]. cbv beta. tauto.
Qed.
Lemma pointed_chars (P : N -> Prop) a b u : Forall P (a ++ b) -> pointed a b u -> Forall (fun c => P c \/ c = 46) u.
Proof.
  intros F PT. apply Forall_app in F as (FA & FB). assert (W : forall l, Forall P l -> Forall (fun c => P c \/ c = 46) l) by (intros l H; eapply Forall_impl; [|exact H]; cbv beta; tauto).
  destruct PT as [->|(-> & ->)]; [|auto]. apply Forall_app. split; [auto|]. constructor; [now right|auto].
Qed.
Lemma pointed_first a b u : Forall digit (a ++ b) -> a ++ b <> [] -> pointed a b u -> exists c u', u = c :: u' /\ (digit c \/ c = 46).
Proof.
  intros F NE PT. pose proof (pointed_chars _ _ _ _ F PT) as C. destruct u as [|c u]; [|exists c, u; split; [reflexivity|now inversion C]]. destruct PT as [E|(-> & <-)]; [now destruct a|now elim NE].
Qed.
Lemma not_words c t : digit c \/ c = 46 -> forall l w, l = 105 \/ l = 110 -> strip_word (l :: w) (c :: t) = None.
Proof. intros C l w L. apply strip_first. unfold cased, digit in *. lia. Qed.
Theorem amount_max u q r : spelled u q -> exists q' r', amount_at (u ++ r) = Some (q', r') /\ ((quantity_of q' = q /\ r' = r) \/ (List.length r' < List.length r)%nat).
Proof.
  intros [a b v x p F NE PT PP|z a b v x p Z F NE PT PP|v V|v V]; unfold amount_at.
  - destruct (decimal_max a b v x p r F NE PT PP) as (q' & r' & D & K). destruct (pointed_first a b v F NE PT) as (c & v' & EV & C).
    replace ((v ++ p) ++ r) with (c :: (v' ++ p) ++ r) by (rewrite EV; reflexivity). rewrite !(not_words c _ C) by auto. replace (c :: (v' ++ p) ++ r) with ((v ++ p) ++ r) by (rewrite EV; reflexivity).
    destruct (hex_at ((v ++ p) ++ r)) as [[qh rh]|] eqn:H.
    + exists qh, rh. split; [reflexivity|]. right. pose proof (hex_sound _ _ _ H) as (w & W & _ & WL).
      unfold hex_at in H. destruct ((v ++ p) ++ r) as [|z [|k t]] eqn:T; try discriminate. destruct (N.eqb_spec z 48) as [->|]; cbn [andb] in H; [|discriminate]. destruct (letter 120 k) eqn:CK; [|discriminate]. apply letter_iff in CK.
      assert (ALL : Forall decimal_char (v ++ p)).
      { apply Forall_app. split; [eapply Forall_impl; [|exact (pointed_chars _ _ _ _ F PT)]|eapply Forall_impl; [|exact (part_chars _ _ _ PP)]]; unfold decimal_char; cbv beta; tauto. }
      destruct (v ++ p) as [|c1 [|c2 l]] eqn:VP; [rewrite EV in VP; discriminate|..].
      * cbn [app] in T. injection T as -> ->. apply (f_equal (@List.length N)) in W. rewrite app_length in W. cbn [List.length] in *. lia.
      * exfalso. cbn [app] in T. injection T as _ -> _. inversion ALL as [|? ? _ A2]. inversion A2 as [|? ? A3 _]. unfold decimal_char, digit, cased in *. lia.
    + exists q', r'. split; [exact D|]. destruct K as [(-> & ->)|K]; [left; split; reflexivity|now right].
  - inversion Z as [|? ? ? ? CZ _]; subst. change (asc "0" ++ [z] ++ v ++ p) with (48 :: z :: v ++ p). destruct (hex_max z a b v x p r CZ F NE PT PP) as (q' & r' & D & K). rewrite D. cbn [app]. rewrite !(not_words 48) by (auto; left; unfold digit; lia).
    exists q', r'. split; [reflexivity|]. destruct K as [(-> & ->)|K]; [left|now right]. cbn [quantity_of]. rewrite (hex_worths _ F). split; reflexivity.
  - unfold cased_word in V. change (asc "infinity") with [105; 110; 102; 105; 110; 105; 116; 121] in V. change (asc "inf") with [105; 110; 102] in V. destruct V as [V|V].
    + destruct (strip_word [105; 110; 102; 105; 110; 105; 116; 121] (v ++ r)) as [r1|] eqn:E.
      * exists Infinite, r1. split; [reflexivity|]. right. apply strip_sound in E as (w & W & E). apply cased_length in W, V. apply (f_equal (@List.length N)) in E. rewrite !app_length in E. cbn [List.length] in *. lia.
      * rewrite (strip_cased _ _ r V). exists Infinite, r. auto.
    + rewrite (strip_cased _ _ r V). exists Infinite, r. auto.
  - unfold cased_word in V. change (asc "nan") with [110; 97; 110] in V. pose proof (strip_cased _ _ r V) as S. inversion V as [|? c ? l C]; subst. cbn [app] in *.
    rewrite !(strip_first 105) by (unfold cased in *; lia). rewrite S. exists NotANumber, r. auto.
Qed.
Lemma spelled_first u q : spelled u q -> exists c u', u = c :: u' /\ ~ white c /\ c <> 43 /\ c <> 45.
Proof.
  intros [a b v x p F NE PT PP|z a b v x p Z F NE PT PP|v V|v V].
  - destruct (pointed_first a b v F NE PT) as (c & v' & -> & C). exists c, (v' ++ p). split; [reflexivity|]. unfold digit, white in *. lia.
  - exists 48, (z :: v ++ p). split; [reflexivity|]. unfold white. lia.
  - destruct V as [V|V]; inversion V as [|? c ? l C]; subst; exists c, l; (split; [reflexivity|]); unfold cased, white in *; lia.
  - inversion V as [|? c ? l C]; subst. exists c, l. split; [reflexivity|]. unfold cased, white in *. lia.
Qed.

(** ** The whole text *)
Lemma white_run w r : Forall white w -> (forall c r', r = c :: r' -> ~ white c) -> run_of white_char (w ++ r) = (w, r).
Proof.
  intros W N. assert (F : forallb white_char w = true) by (now apply (all_iff _ _ white_iff)). rewrite (run_app _ _ _ F). rewrite run_stop; [cbn [fst snd]; now rewrite app_nil_r|].
  intros c r' E. destruct (white_char c) eqn:C; [|reflexivity]. apply white_iff in C. now elim (N c r' E).
Qed.
Lemma start_run w s neg u q r : Forall white w -> plus_minus neg s -> spelled u q ->
  take_sign (snd (run_of white_char (w ++ s ++ u ++ r))) = (neg, u ++ r).
Proof.
  intros W S SP. destruct (spelled_first u q SP) as (c & u' & -> & NW & N1 & N2). rewrite white_run; [|exact W|].
  - cbn [snd]. apply sign_take; [exact S|]. intros k r' [= <- _]. auto.
  - intros k r' E. destruct S; cbn [app] in E; injection E as <- _; [exact NW|unfold white; lia..].
Qed.
Lemma amount_rounded neg q : (forall n b x, q = Num n b x -> (0 <= n)%Z /\ (0 < b)%Z) -> double_of neg (quantity_of q) (amount_double neg q).
Proof.
  destruct q as [n b x| |]; cbn [quantity_of amount_double]; intros H; [|constructor..]. destruct (H n b x eq_refl) as (N & B). apply double_finite. unfold power. cbn [fst snd].
  apply nearest_rounded; [apply Z.mul_nonneg_nonneg; [exact N|apply Z.pow_nonneg; lia]|apply Z.pow_pos_nonneg; lia].
Qed.
Lemma amount_sane t n b x r : amount_at t = Some (Num n b x, r) -> (0 <= n)%Z /\ (0 < b)%Z.
Proof.
  assert (D : decimal_at t = Some (Num n b x, r) -> (0 <= n)%Z /\ (0 < b)%Z).
  { unfold decimal_at. destruct (mantissa digit_char t) as [[a b0] r0]. destruct (a ++ b0); [discriminate|]. destruct (exponent_at 101 r0). intros [= <- <- _ _]. unfold dec_worth. lia. }
  assert (H : hex_at t = Some (Num n b x, r) -> (0 <= n)%Z /\ (0 < b)%Z).
  { unfold hex_at. destruct t as [|z [|c t]]; try discriminate. destruct (_ && _); [|discriminate]. destruct (mantissa hex_char t) as [[a b0] r0]. destruct (a ++ b0); [discriminate|]. destruct (exponent_at 112 r0). intros [= <- <- _ _]. unfold hex_worth. lia. }
  unfold amount_at. destruct (strip_word _ t); [discriminate|]. destruct (strip_word _ t); [discriminate|]. destruct (strip_word _ t); [discriminate|]. destruct (hex_at t); auto.
Qed.
Lemma strtod_sound t : leading_real t (strtod t).
Proof.
  unfold strtod. destruct (run_of white_char t) as [w t1] eqn:W. cbn [snd]. destruct (take_sign t1) as [neg t2] eqn:S. destruct (amount_at t2) as [[q r]|] eqn:A.
  - apply run_sound in W as (-> & W). apply (all_iff _ _ white_iff) in W. apply sign_sound in S as (s & S & ->). destruct (amount_sound _ _ _ A) as (u & E & SP).
    apply (real_number w s neg t2 u (quantity_of q)); auto.
    + split; [exact SP|]. exists r. split; [exact E|]. intros u' r' q' E' SP'. destruct (amount_max u' q' r' SP') as (q2 & r2 & A2 & K). rewrite <- E', A in A2. injection A2 as <- <-.
      assert (L : (List.length u + List.length r = List.length u' + List.length r')%nat) by (rewrite <- !app_length; congruence). destruct K as [(_ & ->)|K]; lia.
    + apply amount_rounded. intros n b x ->. eapply amount_sane. exact A.
  - apply real_none. intros w' s' neg' u q r W' S' SP ->. pose proof (start_run w' s' neg' u q r W' S' SP) as K. rewrite W in K. cbn [snd] in K. rewrite K in S. injection S as <- <-.
    destruct (amount_max u q r SP) as (q2 & r2 & A2 & _). congruence.
Qed.
Lemma spelled_positive u v : spelled u (Finite v) -> (0 < snd v)%Z.
Proof. intros S. inversion S; subst; cbn [snd]; apply power_snd; lia. Qed.
Theorem strtod_leading t f : leading_real t f <-> strtod t = f.
Proof.
  split; [|intros <-; apply strtod_sound]. intros [w s neg t0 u q f' W S (SP & r & -> & MAX) D|t0 NONE].
  - destruct (amount_max u q r SP) as (q2 & r2 & A2 & K). assert (QQ : quantity_of q2 = q).
    { destruct K as [(Q & _)|K]; [exact Q|]. exfalso. destruct (amount_sound _ _ _ A2) as (u2 & E & S2). pose proof (MAX _ _ _ E S2). assert (List.length u + List.length r = List.length u2 + List.length r2)%nat by (rewrite <- !app_length; congruence). lia. }
    unfold strtod. rewrite (start_run w s neg u q r W S SP), A2. subst q. pose proof (amount_rounded neg q2 (fun n b x E => amount_sane _ n b x _ ltac:(rewrite <- E; exact A2))) as D2.
    destruct q2 as [n b x| |]; cbn [quantity_of] in *; [|cbn [amount_double]; inversion D; reflexivity..]. inversion D as [v f1 R| |]; subst. inversion D2 as [v f2 R2| |]; subst. eapply rounded_unique; [|exact R2|exact R]. now apply spelled_positive in SP.
  - pose proof (strtod_sound t0) as K. inversion K as [w s neg t1 u q f' W S (SP & r & -> & _) D E|t1 _ E]; [|congruence]. exfalso. exact (NONE w s neg u q r W S SP (eq_sym E)).
Qed.
