(** Numbers read from the C string of a text are those of the text. *)
From Coq Require Import String NArith ZArith Bool Lia Arith List.
From Coq Require Import ZifyBool ZifyNat ZifyN.
From Coq Require Import Floats.SpecFloat.
From Verif Require Import Base OString Heap ValueOps Env SpecText OStringProofs LexerProofs Builtins SpecReal SpecWrite TextNumber Strtod SpecStrtod StrtodProofs.
Import ListNotations.
Local Open Scope list_scope.
Local Open Scope N_scope.

Definition foreign (c : N) : Prop := c = 0 \/ 128 <= c.
Lemma foreign_split t : exists a rest, t = a ++ rest /\ Forall (fun c => ~ foreign c) a /\ (rest = [] \/ exists c r, rest = c :: r /\ foreign c).
Proof.
  induction t as [|c t (a & rest & -> & A & R)]; [exists [], []; auto|]. destruct (N.eq_dec c 0) as [->|N0]; [exists [], (0 :: a ++ rest); repeat split; auto; right; exists 0, (a ++ rest); split; [reflexivity|now left]|].
  destruct (N.le_gt_cases 128 c) as [G|L]; [exists [], (c :: a ++ rest); repeat split; auto; right; exists c, (a ++ rest); split; [reflexivity|now right]|].
  exists (c :: a), rest. repeat split; auto. constructor; [unfold foreign; lia|exact A].
Qed.
Lemma utf8_plain a : Forall (fun c => ~ foreign c) a -> utf8_text a = a.
Proof. induction 1 as [|c a C F IH]; [reflexivity|]. rewrite utf8_text_cons, IH. unfold utf8. destruct (N.ltb_spec c 128) as [L|G]; [reflexivity|]. unfold foreign in C. lia. Qed.
(** A reader that stops at NUL and beyond ASCII reads the same in the C string. *)
Lemma c_string_reads {A} (F : text -> A) : (forall a c r, foreign c -> F (a ++ c :: r) = F a) -> forall t, F (cstr (utf8_text t ++ [0])) = F t.
Proof.
  intros STOP t. destruct (foreign_split t) as (a & rest & -> & P & R). assert (NZ : ~ In 0 a) by (intros I; apply (proj1 (Forall_forall _ _) P) in I; apply I; now left).
  rewrite utf8_text_app, (utf8_plain a P), <- app_assoc. rewrite cstr_app by exact NZ. destruct R as [->|(c & r & -> & C)]; [reflexivity|]. rewrite (STOP a c r C), utf8_text_cons. destruct C as [->|C].
  - change (utf8 0) with [0]. cbn [app cstr N.eqb]. now rewrite app_nil_r.
  - assert (X : exists o l, utf8 c = o :: l /\ 128 <= o).
    { unfold utf8. destruct (N.ltb_spec c 128); [lia|]. destruct (c <? 0x800); [|destruct (c <? 0x10000)]; eexists _, _; (split; [reflexivity|]); lia. }
    destruct X as (o & l & -> & O). cbn [app cstr]. destruct (N.eqb_spec o 0); [lia|]. apply STOP. now right.
Qed.

(** ** Reals *)
Lemma before_foreign (a : text) c r (x y : text) : a ++ c :: r = x ++ y -> ~ In c x -> exists z, a = x ++ z.
Proof.
  revert x. induction a as [|d a IH]; intros x E N.
  - destruct x as [|e x]; [exists []; reflexivity|]. injection E as -> _. elim N. now left.
  - destruct x as [|e x]; [exists (d :: a); reflexivity|]. injection E as <- E. destruct (IH x E) as (z & ->); [intros I; apply N; now right|]. exists z. reflexivity.
Qed.
Lemma cased_plain w u : Forall2 cased w u -> Forall (fun c => 32 < c < 128) w -> Forall (fun c => ~ foreign c) u.
Proof. induction 1 as [|l c w u C F IH]; constructor; inversion H; subst; [unfold cased, foreign in *; lia|auto]. Qed.
Lemma spelled_plain u q : spelled u q -> Forall (fun c => ~ foreign c) u.
Proof.
  assert (PART : forall mark x p, 32 < mark < 128 -> power_part mark x p -> Forall (fun c => ~ foreign c) p).
  { intros mark x p M PP. eapply Forall_impl; [|exact (part_chars _ _ _ PP)]. cbv beta. intros c C. unfold digit, cased, foreign in *. lia. }
  intros [a b v x p F NE PT PP|z a b v x p Z F NE PT PP|v V|v V].
  - apply Forall_app. split; [|apply (PART 101 x); [lia|exact PP]]. eapply Forall_impl; [|exact (pointed_chars _ _ _ _ F PT)]. cbv beta. intros c C. unfold digit, foreign in *. lia.
  - inversion Z as [|? ? ? ? CZ _]; subst. change (Ascii.N_of_ascii _) with 120 in CZ. change (asc "0" ++ [z] ++ v ++ p) with (48 :: z :: v ++ p). constructor; [unfold foreign; lia|]. constructor; [unfold cased, foreign in *; lia|]. apply Forall_app. split; [|apply (PART 112 x); [lia|exact PP]].
    eapply Forall_impl; [|exact (pointed_chars _ _ _ _ F PT)]. cbv beta. intros c C. unfold hex_digit, digit, foreign in *. lia.
  - destruct V as [V|V]; eapply cased_plain; try exact V; repeat constructor.
  - eapply cased_plain; [exact V|]. repeat constructor.
Qed.
Lemma plain_not c u : foreign c -> Forall (fun c => ~ foreign c) u -> ~ In c u.
Proof. intros F A I. now apply (proj1 (Forall_forall _ _) A) in I. Qed.
Lemma strtod_stop a c r : foreign c -> strtod (a ++ c :: r) = strtod a.
Proof.
  intros C. apply strtod_leading. pose proof (strtod_sound a) as L. remember (strtod a) as f eqn:E. clear E. destruct L as [w s neg t u q f W S (SP & r0 & -> & MAX) D|t NONE].
  - rewrite <- !app_assoc. apply (real_number w s neg (u ++ r0 ++ c :: r) u q); auto. split; [exact SP|]. exists (r0 ++ c :: r). split; [reflexivity|]. intros u' r' q' E' SP'.
    rewrite app_assoc in E'. destruct (before_foreign _ _ _ _ _ E') as (z & Z); [apply plain_not; [exact C|eapply spelled_plain; exact SP']|]. eapply MAX; [exact Z|exact SP'].
  - apply real_none. intros w s neg u q r0 W S SP E. rewrite !app_assoc in E. destruct (before_foreign _ _ _ _ _ E) as (z & Z).
    + apply plain_not; [exact C|]. apply Forall_app. split; [apply Forall_app; split|eapply spelled_plain; exact SP].
      * eapply Forall_impl; [|exact W]. cbv beta. intros k K. unfold white, foreign in *. lia.
      * destruct S; [constructor|..]; (constructor; [|constructor]); intros [K|K]; [discriminate K|now elim K|discriminate K|now elim K].
    + rewrite <- !app_assoc in Z. exact (NONE w s neg u q z W S SP Z).
Qed.
Lemma text_real t p : str_get_c_string (text_str t) = Ret p -> Forall scalar t -> leading_real t (strtod (cstr (snd p))).
Proof.
  intros E SC. destruct (get_c_string_scalar (text_str t)) as (s' & E' & _); [now left|exact SC|]. rewrite E in E'. injection E' as ->. cbn [snd text_str ucs]. apply strtod_leading. symmetry. apply c_string_reads. intros. now apply strtod_stop.
Qed.

(** ** Integers *)
Lemma white_split t : exists sp rest, t = sp ++ rest /\ Forall white sp /\ (forall c r, rest = c :: r -> ~ white c).
Proof.
  induction t as [|c t (sp & rest & -> & W & R)]; [exists [], []; repeat split; [constructor|discriminate]|].
  destruct ((c =? 32) || ((9 <=? c) && (c <=? 13))) eqn:E.
  - exists (c :: sp), rest. repeat split; [|exact R]. constructor; [now apply white_test|exact W].
  - exists [], (c :: sp ++ rest). repeat split; [constructor|]. intros c' r [= <- _] K. apply white_test in K. congruence.
Qed.
Lemma leading_total t : exists i, leading_int t i.
Proof.
  destruct (white_split t) as (sp & rest & -> & W & R). destruct rest as [|c rest]; [exists 0%Z; apply lead_none; [exact W|intros c r E; discriminate|discriminate]|].
  destruct (N.eq_dec c 43) as [->|N1]; [destruct (digits_split rest) as (u & r & -> & D & K); eexists; now apply lead_plus|]. destruct (N.eq_dec c 45) as [->|N2]; [destruct (digits_split rest) as (u & r & -> & D & K); eexists; now apply lead_minus|].
  destruct (digits_split (c :: rest)) as (u & r & E & D & K). destruct u as [|d u].
  - exists 0%Z. apply lead_none; [exact W|rewrite E; exact K|]. intros c' r' [= <- <-]. split; [now apply (R c rest)|auto].
  - rewrite E. eexists. apply lead_plain; auto. discriminate.
Qed.
Lemma leading_stop a c r i : foreign c -> leading_int a i -> leading_int (a ++ c :: r) i.
Proof.
  intros C L. assert (ND : ~ digit c) by (unfold foreign, digit in *; lia). assert (ST : forall rest, stops rest -> stops (rest ++ c :: r)) by (intros [|d rest] K k l; cbn [app]; intros [= <- _]; [exact ND|now apply (K d rest)]).
  destruct L as [sp u rest W D NE K|sp u rest W D K|sp u rest W D K|sp rest W K N]; rewrite <- ?app_assoc; cbn [app]; rewrite <- ?app_assoc.
  - apply lead_plain; auto.
  - apply lead_plus; auto.
  - apply lead_minus; auto.
  - apply lead_none; auto. intros k l E. destruct rest as [|d rest]; injection E as <- _; [unfold foreign, white in *; lia|now apply (N d rest)].
Qed.
Lemma strtoimax_stop a c r : foreign c -> strtoimax (a ++ c :: r) = strtoimax a.
Proof. intros C. destruct (leading_total a) as (i & L). rewrite (strtoimax_clamped _ _ (leading_stop a c r i C L)). now rewrite (strtoimax_clamped _ _ L). Qed.
Lemma text_long t p : str_get_c_string (text_str t) = Ret p -> Forall scalar t -> forall i, leading_int t i -> strtoimax (cstr (snd p)) = as_long i.
Proof.
  intros E SC i L. destruct (get_c_string_scalar (text_str t)) as (s' & E' & _); [now left|exact SC|]. rewrite E in E'. injection E' as ->. cbn [snd text_str ucs].
  rewrite (c_string_reads strtoimax strtoimax_stop). now apply strtoimax_clamped.
Qed.
