(** The reader and the loop that reads and evaluates a text preserve the
    invariant of SafeBase.v, with every evaluator that does. *)
From Coq Require Import NArith ZArith Bool Lia Arith List String.
From Coq Require Import ZifyBool ZifyNat ZifyN.
From Verif Require Import Base Base64 OString Input Lexer Semver HMap Heap SpecHeap GcProofs VmProofs ValueOps Env Copy Builtins Specials SafeBase SafeRead SafeLib SafeBuiltins SafeSpecials.
Import ListNotations.
Local Open Scope N_scope.

(** ** Tokens *)
Lemma nd_sum base : forall ds i v, nd (sum_digits base ds i v).
Proof.
  induction ds as [|c ds IH]; intros i v; cbn [sum_digits]; [discriminate|]. apply nd_bind; [|auto]. unfold digit_term. destruct (_ <? _); discriminate.
Qed.
Lemma nd_finish base neg dot frac ds prev : nd (finish_number base neg dot frac ds prev).
Proof.
  unfold finish_number. destruct (_ =? _); [discriminate|]. apply nd_bind; [apply nd_sum|]. intros v _. destruct dot; [discriminate|]. destruct (in_int32 _); discriminate.
Qed.
Lemma nd_number : forall l ws base neg dot frac chars ds prev, nd (number_loop l ws base neg dot frac chars ds prev).
Proof.
  induction l as [|c l IH]; intros; cbn [number_loop].
  - destruct ws; [discriminate|]. apply nd_bind; [apply nd_finish|discriminate].
  - destruct (isspace c); [apply IH|]. destruct (c =? 46); [destruct dot; [discriminate|]; destruct (Nat.eqb _ _); [discriminate|apply IH]|].
    destruct (isxdigit c); [destruct (Nat.leb _ _); [discriminate|]; destruct (digit_ok _ _); [apply IH|discriminate]|].
    destruct (c =? 125); [|discriminate]. apply nd_bind; [apply nd_finish|discriminate].
Qed.
Lemma nd_lex_number l : nd (lex_number l).
Proof.
  unfold lex_number. destruct (expect_octet _ l) as [[? l1]|]; [|discriminate]. destruct (expect_octet _ l1) as [[? l2]|]; [|discriminate].
  destruct (expect_octet _ l2) as [[? l3]|]; [|discriminate]. apply nd_number.
Qed.
Lemma nd_semver_digits : forall l ds, nd (semver_digits l ds).
Proof. induction l as [|c l IH]; intros ds; cbn [semver_digits]; [discriminate|]. destruct (isdigit c); [|discriminate]. destruct (Nat.leb _ _); [discriminate|apply IH]. Qed.
Lemma nd_semver_number l : nd (semver_number l).
Proof. unfold semver_number. apply nd_bind; [apply nd_semver_digits|]. intros [[|d ds] r] _; cbn [fst snd]; [discriminate|]. apply nd_bind; [apply nd_sum|discriminate]. Qed.
Lemma nd_lex_semver l : nd (lex_semver l).
Proof.
  unfold lex_semver. apply nd_bind; [apply nd_semver_number|]. intros [[n|] l1] _; [|discriminate]. destruct (expect_octet _ l1) as [[? l2]|]; [|discriminate].
  apply nd_bind; [apply nd_semver_number|]. intros [[n2|] l3] _; [|discriminate]. destruct (expect_octet _ l3) as [[? l4]|]; [|discriminate].
  apply nd_bind; [apply nd_semver_number|]. intros [[n3|] l5] _; discriminate.
Qed.
Lemma nd_char_token s : nd (char_token s).
Proof.
  unfold char_token. destruct s as [|a [|b s]]; [discriminate|apply nd_bind; [apply nd_via_cstr|discriminate]|]. destruct (named_char _); [discriminate|].
  apply nd_bind; [apply nd_c_string|]. intros x _. destruct (Nat.eqb _ _); [|discriminate]. destruct (Nat.ltb _ _); [discriminate|]. apply nd_bind; [apply nd_via_cstr|discriminate].
Qed.
Lemma nd_string : forall l esc acc, nd (string_loop l esc acc).
Proof.
  induction l as [|c l IH]; intros esc acc; cbn [string_loop]; [destruct esc; discriminate|]. destruct esc as [e|].
  - destruct (c =? 124); [|apply IH]. apply nd_bind; [apply nd_char_token|]. intros tk _. destruct tk; try discriminate. match goal with |- nd (match ?x with _ => _ end) => destruct x; [discriminate|apply IH] end.
  - destruct (c =? 93).
    + destruct l as [|d l]; [apply nd_bind; [apply nd_via_cstr|discriminate]|]. destruct (is_delim d); [apply nd_bind; [apply nd_via_cstr|discriminate]|discriminate].
    + destruct (c =? 124); apply IH.
Qed.
Lemma nd_lex l : nd (lex l).
Proof.
  unfold lex. assert (T : forall l, nd (lex_token l)).
  { intros [|c t]; cbn [lex_token]; [discriminate|]. destruct (c =? 40); [discriminate|]. destruct (c =? 41); [discriminate|]. destruct (c =? 39); [discriminate|]. destruct (c =? 96); [discriminate|].
    destruct (c =? 123); [apply nd_lex_number|].
    destruct (isdigit c); [apply nd_lex_semver|]. destruct (c =? 91); [apply nd_string|]. destruct (c =? 124) eqn:E.
      + unfold lex_char. rewrite E. destruct (until_bar t []) as [[? ?]|]; [|discriminate]. apply nd_bind; [apply nd_char_token|discriminate].
      + unfold lex_symbol. destruct (symbol_chars (c :: t)) as [[|x s] r]; [discriminate|]. repeat (destruct (eqb_list _ _); [discriminate|]). apply nd_bind; [apply nd_via_cstr|discriminate]. }
  generalize (List.length l). intros fuel. revert l. induction fuel as [|f IH]; intros l; cbn [lex_fuel]; destruct (skip_ws l) as [|c t]; try discriminate.
  - destruct (c =? 59); [discriminate|]. destruct (_ && _)%bool; [destruct (comment_end _); discriminate|apply T].
  - destruct (c =? 59); [apply IH|]. destruct (_ && _)%bool; [destruct (comment_end _); [apply IH|discriminate]|apply T].
Qed.

Section Safe.
Context (D : bool).
Notation wp := (wp D).
Notation Inv := (Inv D).
Notation At := (At D).
Notation good := (good D).
Ltac has := solve [unfold has; cbn [In app]; auto 15].
Ltac eqg H := apply (a_good _ _ _ _ _ _ _ H); reflexivity.
Ltac inc H := apply (a_good _ _ _ _ _ _ _ H); auto.

(** ** The reader: what it returns is new, and it changes nothing that was
    reachable before *)
Definition read_post (P : list ref) (s : vm) (q : option ref * list N) (s' : vm) : Prop :=
  At true P s [] (fun r => fst q = Some r) s' /\ forall r, fst q = Some r -> nextId s <= r.
Lemma new_const_new P s d t : Inv P s -> (forall x, ~ dref d x) -> tame d ->
  wp (new_const d t) (fun r s' => At true P s [] (eq r) s' /\ nextId s <= r) s.
Proof.
  intros A ND T. unfold new_const. pose proof (at_start D true P s A) as H.
  apply wp_bind, (r_alloc D true P s d [] _ _ _ H); [intros x R; now apply ND in R|auto|]. clear H. intros x s1 H _ MX.
  apply wp_bind, (r_push D true P s x [] _ _ _ H); [has|]. clear H. intros s2 H.
  apply wp_bind, (r_alloc D true P s (DStr t) [x] _ _ _ H); [easy|easy|]. clear H. intros y s3 H _ MY.
  apply wp_bind, (r_push D true P s y [x] _ _ _ H); [has|]. clear H. intros s4 H.
  apply wp_bind, (r_pop D true P s y [x] _ _ _ H). clear H. intros s5 H.
  assert (GY : good P s5 y) by (apply (a_good _ _ _ _ _ _ _ H); right; reflexivity).
  apply wp_bind, (r_set_docs D true P s x _ _ [x] _ _ _ H); [has|exact MX| | |auto|].
  { intros z [= <-]. exact GY. } { discriminate. }
  clear H GY. intros s6 H _ _. apply wp_bind, (r_pop D true P s x [] _ _ _ H). clear H. intros s7 H.
  apply wp_ret. split; [|now apply MX]. eapply at_eq; [exact H|]. left. split; [reflexivity|apply MX].
Qed.
Lemma wp_lex l (Q : option token * list N -> vm -> Prop) s : (forall p, lex l = Ret p -> Q p s) -> wp (lift (lex l)) Q s.
Proof. intros K. apply wp_lift; [intros _; apply nd_lex|exact K]. Qed.

Lemma read_error_ok P s0 pre G l s : At true P s0 pre G s -> wp (read_error l) (fun q s' => At true P s0 pre (fun r => fst q = Some r) s' /\ forall r, fst q = Some r -> nextId s0 <= r) s.
Proof.
  intros H. unfold read_error, new_error. apply wp_bind. apply (r_alloc_gen D true P s0 (fun s => DErr (msgs s (nextAddr s)) 0) pre G _ s H); [easy|intros; exact I|].
  intros r s1 _ H1 _ M. apply wp_ret. cbn [fst]. split; [|intros x [= <-]; now apply M]. eapply at_weaken; [exact H1|]. intros x [= <-]. eqg H1.
Qed.
Lemma read_atom_ok P s d l : Inv P s -> (forall x, ~ dref d x) -> tame d -> wp (r <- alloc d ;; ret (Some r, l)) (read_post P s) s.
Proof.
  intros A ND T. apply wp_bind, (r_alloc D true P s d [] _ _ _ (at_start D true P s A)); [intros x R; now apply ND in R|auto|].
  intros r s1 H1 _ M. apply wp_ret. split; cbn [fst]; [|intros x [= <-]; now apply M]. eapply at_weaken; [exact H1|]. intros x [= <-]. eqg H1.
Qed.
Lemma read_const_ok P s (m : M ref) l : wp m (fun r s' => At true P s [] (eq r) s' /\ nextId s <= r) s -> wp (r <- m ;; ret (Some r, l)) (read_post P s) s.
Proof.
  intros W. apply wp_bind. eapply wp_mono; [exact W|]. intros r s1 (H1 & N1). apply wp_ret. split; cbn [fst]; [|intros x [= <-]; exact N1].
  eapply at_weaken; [exact H1|]. intros x [= <-]. eqg H1.
Qed.
(** A read in the middle of another. *)
Lemma r_read P s0 pre G (m : reading) (Q : option ref * list N -> vm -> Prop) s : At true P s0 pre G s -> wp m (read_post P s) s ->
  (forall q s', At true P s0 pre (fun r => fst q = Some r) s' -> (forall r, fst q = Some r -> mine true P s0 r) -> Q q s') -> wp m Q s.
Proof.
  intros H W K. eapply wp_mono; [exact W|]. intros q s' (H' & N). pose proof (at_call D _ _ _ _ _ _ _ _ _ H H' (fun e => e)) as H2. apply K; [exact H2|].
  intros r E. split; [now apply (a_good _ _ _ _ _ _ _ H2)|]. intros _. specialize (N r E). pose proof (a_next _ _ _ _ _ _ _ H). lia.
Qed.
Lemma read_ok : forall fuel,
  (forall t l P s, Inv P s -> wp (read_token fuel t l) (read_post P s) s)
  /\ (forall v l P s0 G s, At true P s0 [v] G s -> mine true P s0 v -> wp (read_list fuel v l) (read_post P s0) s).
Proof.
  induction fuel as [|f (IHt & IHl)]; [split; intros; apply wp_nofuel|]. split.
  - intros t l P s A. cbn [read_token]. pose proof (at_start D true P s A) as H.
    assert (NONE : forall k, wp (ret (None, k)) (read_post P s) s) by (intros k; apply wp_ret; split; [eapply at_weaken; [exact H|discriminate]|discriminate]).
    assert (TEXT : forall mk k, (forall u x, ~ dref (mk u) x) -> (forall u, tame (mk u)) -> wp (read_text mk k l) (read_post P s) s).
    { intros mk k ND T. unfold read_text. apply wp_bind, wp_lift; [intros _; apply nd_via_cstr|]. intros u _. now apply read_atom_ok. }
    destruct t as [tk|]; [|apply NONE]. destruct tk; try (apply NONE); try (apply read_atom_ok; [exact A|easy|exact I]); try (apply read_const_ok, new_const_new; [exact A|easy|exact I]);
      try (apply TEXT; [easy|intros; exact I]).
    + apply wp_bind, (r_alloc D true P s (DVec []) [] _ _ _ H); [easy|easy|]. clear H. intros v s1 H _ M.
      apply wp_bind, (r_push D true P s v [] _ _ _ H); [has|]. clear H. intros s2 H. eapply IHl; [exact H|exact M].
    + eapply wp_mono; [eapply read_error_ok; exact H|]. auto.
    + apply wp_bind, (r_alloc D true P s (DVec []) [] _ _ _ H); [easy|easy|]. clear H. intros v s1 H _ M.
      apply wp_bind, (r_push D true P s v [] _ _ _ H); [has|]. clear H. intros s2 H.
      apply wp_bind, (r_alloc D true P s (DSym (asc "quote")) [v] _ _ _ H); [easy|easy|]. clear H. intros y s3 H _ _.
      apply wp_bind. eapply (r_vec_push D true P s v y [v]); [exact H|has|exact M|eqg H|]. clear H. intros s4 H _ _.
      apply wp_bind, wp_lex. intros p _. apply wp_bind. eapply r_read; [exact H|apply IHt; apply H|]. clear H. intros [o k] s5 H MO. cbn [fst snd] in *. destruct o as [x|].
      * apply wp_bind, wp_is_error; [inc H|]. intros c L. destruct (is_error_data (cdata c)).
        -- apply wp_bind, (r_pop D true P s v [] _ _ _ H). intros s6 H6. apply wp_ret. split; cbn [fst]; [eapply at_weaken; [exact H6|intros z [= <-]; inc H6]|intros z [= <-]; now apply MO].
        -- apply wp_bind. eapply (r_vec_push D true P s v x [v]); [exact H|has|exact M|inc H|]. clear H. intros s6 H _ _. apply wp_bind, (r_pop D true P s v [] _ _ _ H). intros s7 H7. apply wp_ret.
           split; cbn [fst]; [eapply at_weaken; [exact H7|intros z [= <-]]|intros z [= <-]; now apply M]. apply (a_good _ _ _ _ _ _ _ H7). left. split; [reflexivity|apply M].
      * apply wp_bind, (r_pop D true P s v [] _ _ _ H). intros s6 H6. apply wp_ret. split; cbn [fst]; [eapply at_weaken; [exact H6|discriminate]|discriminate].
    + apply wp_bind, wp_lex. intros p _. apply wp_bind. eapply r_read; [exact H|apply IHt; exact A|]. clear H NONE. intros [o k] s1 H MO. cbn [fst snd] in *. destruct o as [x|]; [|apply wp_ret; split; [exact H|discriminate]].
      specialize (MO x eq_refl). apply wp_bind, (r_push D true P s x [] _ _ _ H); [has|]. clear H. intros s2 H.
      apply wp_bind, wp_get; [eapply at_live; [exact H|has]|]. intros c L.
      assert (SYM : forall d, cdata c = d -> match d with DErr _ _ => False | DVec _ => False | _ => True end ->
        wp (y <- alloc (DSym (asc "template")) ;; push y ;;; v <- alloc (DVec []) ;; push v ;;; vec_push v y ;;; vec_push v x ;;; pop v ;;; pops [y; x] ;;; ret (Some v, k)) (read_post P s) s2).
      { intros _ _ _. apply wp_bind, (r_alloc D true P s (DSym (asc "template")) [x] _ _ _ H); [easy|easy|]. clear H L. intros y s3 H _ My.
        apply wp_bind, (r_push D true P s y [x] _ _ _ H); [has|]. clear H. intros s4 H.
        apply wp_bind, (r_alloc D true P s (DVec []) [y; x] _ _ _ H); [easy|easy|]. clear H. intros v s5 H _ M.
        apply wp_bind, (r_push D true P s v [y; x] _ _ _ H); [has|]. clear H. intros s6 H.
        apply wp_bind. eapply (r_vec_push D true P s v y); [exact H|has|exact M|eapply at_good; [exact H|has|right; apply My]|]. clear H. intros s7 H _ _.
        apply wp_bind. eapply (r_vec_push D true P s v x); [exact H|has|exact M|eapply at_good; [exact H|has|right; apply MO]|]. clear H. intros s8 H _ _.
        apply wp_bind, (r_pop D true P s v [y; x] _ _ _ H). clear H. intros s9 H. apply wp_bind. eapply (r_pops0 D true P s [y; x]); [exact H|]. clear H. intros sa H. apply wp_ret.
        split; cbn [fst]; [eapply at_weaken; [exact H|intros z [= <-]]|intros z [= <-]; now apply M]. apply (a_good _ _ _ _ _ _ _ H). right. left. split; [reflexivity|apply M]. }
      destruct (cdata c) eqn:E; try (eapply SYM; [reflexivity|exact I]); clear SYM.
      * apply wp_bind, (r_pop D true P s x [] _ _ _ H). intros s3 H3. apply wp_ret. split; cbn [fst]; [eapply at_weaken; [exact H3|intros z [= <-]; inc H3]|intros z [= <-]; now apply MO].
      * apply wp_bind, (r_alloc D true P s (DSym (asc "template")) [x] _ _ _ H); [easy|easy|]. clear H. intros y s3 H _ My.
        apply wp_bind, (r_push D true P s y [x] _ _ _ H); [has|]. clear H. intros s4 H.
        apply wp_bind, wp_vec_of; [eapply at_live; [exact H|has]|]. intros c4 l4 L4 E4.
        apply wp_bind. eapply (r_put D true P s x (DVec (y :: l4))); [exact H|has|exact MO| |easy| |].
        { intros z [<-|J]; [eqg H|]. eapply at_dref; [exact H|exact L4|now rewrite E4]. }
        { intros _ c5 L5 F5. rewrite L4 in L5. injection L5 as <-. now rewrite E4 in F5. }
        clear H. intros s5 H _ _. apply wp_bind. eapply (r_pops0 D true P s [y; x]); [exact H|]. clear H. intros s6 H. apply wp_ret.
        split; cbn [fst]; [eapply at_weaken; [exact H|intros z [= <-]]|intros z [= <-]; now apply MO]. apply (a_good _ _ _ _ _ _ _ H). left. split; [cbn; auto|apply MO].
    + eapply wp_mono; [eapply read_error_ok; exact H|]. auto.
  - intros v l P s0 G s H M. cbn [read_list]. apply wp_bind, wp_lex. intros [o k] _. cbn [fst snd].
    assert (ERR : forall G k s, At true P s0 [v] G s -> wp (pop v ;;; read_error k) (read_post P s0) s).
    { intros G' k' s' H'. apply wp_bind, (r_pop D true P s0 v [] _ _ _ H'). intros s1 H1. eapply wp_mono; [eapply read_error_ok; exact H1|]. auto. }
    assert (GO : forall t, wp (q <- read_token f (Some t) k ;; match fst q with None => pop v ;;; read_error (snd q)
          | Some x => e <- is_error x ;; if (e : bool) then pop v ;;; ret (Some x, snd q) else vec_push v x ;;; read_list f v (snd q) end) (read_post P s0) s).
    { intros t. apply wp_bind. eapply r_read; [exact H|apply IHt; apply H|]. clear H. intros [o' k'] s1 H MO. cbn [fst snd] in *. destruct o' as [x|]; [|eapply ERR; exact H].
      apply wp_bind, wp_is_error; [inc H|]. intros c L. destruct (is_error_data (cdata c)).
      - apply wp_bind, (r_pop D true P s0 v [] _ _ _ H). intros s6 H6. apply wp_ret. split; cbn [fst]; [eapply at_weaken; [exact H6|intros z [= <-]; inc H6]|intros z [= <-]; now apply MO].
      - apply wp_bind. eapply (r_vec_push D true P s0 v x [v]); [exact H|has|exact M|inc H|]. clear H. intros s6 H _ _. eapply IHl; [exact H|exact M]. }
    destruct o as [tk|]; [|eapply ERR; exact H]. destruct tk; try apply GO; [|eapply ERR; exact H].
    apply wp_bind, (r_pop D true P s0 v [] _ _ _ H). intros s6 H6. apply wp_ret. split; cbn [fst]; [eapply at_weaken; [exact H6|intros z [= <-]]|intros z [= <-]; now apply M].
    apply (a_good _ _ _ _ _ _ _ H6). left. split; [reflexivity|apply M].
Qed.
Lemma read_value_ok P s l : Inv P s -> wp (read_value l) (read_post P s) s.
Proof. intros A. unfold read_value. apply wp_bind, wp_lex. intros p _. now apply read_ok. Qed.

(** ** Reading and evaluating a text *)
Section Texts.
Context (ev : evaluator) (EV : ev_ok D ev).
Lemma eval_read_ok P s o : Inv P s -> (forall r, o = Some r -> good P s r) ->
  wp (eval_read_by ev o) (fun r s' => At false P s [] (fun x => r = Some x) s') s.
Proof.
  intros A GO. pose proof (at_start D false P s A) as H. unfold eval_read_by. destruct o as [v|].
  - apply wp_bind, wp_read. apply EV; [exact A|auto|now apply good_genv|]. intros ED. left. now apply (i_genv _ _ _ A).
  - apply wp_bind, wp_read. destruct (quit s).
    + apply wp_bind, (r_alloc D false P s DNil [] _ _ _ H); [easy|easy|]. intros r s1 H1 _ _. apply wp_ret. eapply at_weaken; [exact H1|]. intros x [= <-]. eqg H1.
    + apply wp_bind, wp_read. apply wp_bind, wp_get; [now apply (good_genv D P s)|]. intros c L. destruct (cdata c); try apply wp_abort. apply wp_ret. eapply at_weaken; [exact H|discriminate].
Qed.
Definition of_last (last : option ref) : list ref := match last with Some g => [g] | None => [] end.
Lemma leave_ok P s0 last o G s : At false P s0 (of_last last) G s -> (forall x, o = Some x \/ last = Some x -> ~ In x P /\ (G x \/ last = Some x)) ->
  wp (leave last o) (fun r s' => At false P s0 [] (fun x => r = Some x) s') s.
Proof.
  intros H K. unfold leave. destruct last as [g|].
  - apply wp_bind, (r_pop D false P s0 g [] _ _ _ H). intros s1 H1. apply wp_ret. destruct (K g (or_intror eq_refl)) as (NG & _).
    eapply at_weaken; [exact H1|]. destruct o as [r|]; intros x [= <-]; [|apply (a_good _ _ _ _ _ _ _ H1); auto].
    destruct (K r (or_introl eq_refl)) as (N & [J|[= <-]]); apply (a_good _ _ _ _ _ _ _ H1); auto.
  - apply wp_ret. eapply at_weaken; [exact H|]. intros x ->. destruct (K x (or_introl eq_refl)) as (N & [J|J]); [inc H|discriminate].
Qed.
Lemma read_eval_loop_ok P s0 : forall k i last result G s, At false P s0 (of_last last) G s ->
  (forall x, result = Some x \/ last = Some x -> ~ In x P /\ (G x \/ last = Some x)) ->
  wp (read_eval_loop_by k ev i last result) (fun r s' => At false P s0 [] (fun x => r = Some x) s') s.
Proof.
  induction k as [|k IH]; intros i last result G s H K; cbn [read_eval_loop_by]; (destruct (input_good i); [|eapply leave_ok; eauto]); [apply wp_nofuel|].
  apply wp_bind. eapply wp_mono; [apply read_value_ok; apply H|]. intros [o l] s1 (H1 & _). cbn [fst snd] in *.
  pose proof (at_call D _ _ _ _ _ _ _ _ _ H (at_loud D _ _ _ _ _ _ H1) (fun e => e)) as H2. clear H1. cbv zeta.
  apply wp_bind. eapply (r_use D false false P s0 _ _ _ (fun o r => o = Some r)); [exact H2|apply eval_read_ok; [apply H2|intros r E; inc H2]|auto|].
  clear H H2. intros r s2 H. destruct r as [x|].
  - assert (NX : ~ In x P) by (now apply (a_good _ _ _ _ _ _ _ H)). apply wp_bind. apply (wp_mono D _ (fun _ s' => At false P s0 [] (fun y => y = x) s')).
    + destruct last as [g|]; [|apply wp_ret; eapply at_weaken; [exact H|intros y ->; inc H]].
      apply (r_pop D false P s0 g [] _ _ _ H). intros s3 H3. eapply at_weaken; [exact H3|]. intros y ->. inc H3.
    + clear H. intros u s3 H. apply wp_bind, (r_push D false P s0 x [] _ _ _ H); [has|]. clear H. intros s4 H.
      apply wp_bind, wp_is_error; [eapply at_live; [exact H|has]|]. intros c L. destruct (is_error_data (cdata c)).
      * unfold set_line. apply wp_bind. apply wp_bind, wp_get; [eapply at_live; [exact H|has]|]. intros c' L'. destruct (cdata c') eqn:E; try apply wp_abort.
        eapply (r_put D false P s0 x); [exact H|has|split; [exact NX|discriminate]|easy|easy| |].
        -- intros _ c2 L2 F2. rewrite L' in L2. injection L2 as <-. now rewrite E in F2.
        -- intros s5 H5 _ _. eapply (leave_ok P s0 (Some x)); [exact H5|]. intros y [[= <-]|[= <-]]; auto.
      * eapply (IH _ (Some x)); [exact H|]. intros y [[= <-]|[= <-]]; auto.
  - eapply leave_ok; [exact H|]. intros x [J|J]; [discriminate|]. destruct (K x (or_intror J)) as (? & _). auto.
Qed.
Theorem read_eval_by_ok i P s : Inv P s -> wp (read_eval_by ev i) (fun r s' => At false P s [] (fun x => r = Some x) s') s.
Proof.
  intros A. pose proof (at_start D false P s A) as H. unfold read_eval_by. destruct (input_good i).
  - eapply (read_eval_loop_ok P s _ i None None); [exact H|]. intros x [J|J]; discriminate.
  - apply wp_bind. apply (r_new_error D false P s _ _ _ _ H). intros r s1 H1. apply wp_ret. eapply at_weaken; [exact H1|]. intros x [= <-]. eqg H1.
Qed.
End Texts.
End Safe.
