(** C96: the outcome of evaluation does not depend on the bound; C97: nor on when
    garbage is collected. *)
From Coq Require Import NArith ZArith Bool Lia String List.
From Verif Require Import Base Input HMap Heap SpecHeap ValueOps Env ToText Builtins Specials Eval Read Boot Run Relate SchedProofs SpecSched SafeBase SafeRun PropsSafe.
Import ListNotations.
Local Open Scope N_scope.
Local Open Scope list_scope.

(** ** C96 *)

(** For every machine and text: whatever outcome evaluating the text has (a value
    with the machine it leaves, an abort, undefined behaviour, ...), it has no
    other, and every larger bound gives the same. *)
Theorem C96_text_outcome : forall s t o, has_outcome s t o ->
  (forall o', has_outcome s t o' -> o' = o) /\ exists n, forall m, (n <= m)%nat -> read_eval m (input_new t) s = o.
Proof.
  assert (K : forall s t n m o, o <> NoFuel -> read_eval n (input_new t) s = o -> (n <= m)%nat -> read_eval m (input_new t) s = o).
  { intros s t n m o N E LE. destruct (read_eval_more n m (input_new t) LE s) as [F|F]; congruence. }
  intros s t o (N & n & E). split; [|exists n; intros; eapply K; eauto]. intros o' (N' & n' & E').
  destruct (Nat.le_ge_cases n n') as [LE|LE]; [rewrite <- E'; eapply K; eauto|rewrite <- E; symmetry; eapply K; eauto].
Qed.
Print Assumptions C96_text_outcome.
Theorem C96_value_outcome : forall s v env o, evaluates s v env o ->
  (forall o', evaluates s v env o' -> o' = o) /\ exists n, forall m, (n <= m)%nat -> eval m v env s = o.
Proof.
  assert (K : forall s v env n m o, o <> NoFuel -> eval n v env s = o -> (n <= m)%nat -> eval m v env s = o).
  { intros s v env n m o N E LE. destruct (eval_more n m v env LE s) as [F|F]; congruence. }
  intros s v env o (N & n & E). split; [|exists n; intros; eapply K; eauto]. intros o' (N' & n' & E').
  destruct (Nat.le_ge_cases n n') as [LE|LE]; [rewrite <- E'; eapply K; eauto|rewrite <- E; symmetry; eapply K; eauto].
Qed.
Print Assumptions C96_value_outcome.
(** A recursive function called on a machine with the whole library has an
    outcome; with too small a bound it is not found. *)
Definition down : list N := asc "(define f as (fn (n) (if (< n {D+1}) n (f (- n {D+1})))) [f] '(n [n]) howto-ok) (f {D+4})".
Lemma found n t m d : match read_eval n (input_new t) m with Ret (Some r, s) => option_map cdata (lookup (all s) r) = Some d | _ => False end ->
  exists r s, has_outcome m t (Ret (Some r, s)) /\ option_map cdata (lookup (all s) r) = Some d.
Proof.
  destruct (read_eval n (input_new t) m) as [[[r|] s]| | | | |] eqn:E; intros H; try contradiction. exists r, s. split; [|exact H]. split; [discriminate|]. now exists n.
Qed.
Example C96_has : exists r s, has_outcome machine down (Ret (Some r, s)) /\ option_map cdata (lookup (all s) r) = Some (DInt 0).
Proof. apply (found 40 down machine). vm_compute. reflexivity. Qed.
Example C96_small : read_eval 5 (input_new down) machine = NoFuel.
Proof. vm_compute. reflexivity. Qed.

(** ** C97 *)
Lemma agree_like s s' t : like s t -> like s' t -> agree s s'.
Proof.
  intros K K'. constructor; try (destruct K, K'; congruence). intros r c c' L L'. apply (proj2 (k_sub _ _ K)) in L. apply (proj2 (k_sub _ _ K')) in L'. congruence.
Qed.
Lemma run_follows n m : (n <= m)%nat -> forall l s s', like s s' -> follows (run_texts n l s) (run_texts m l s').
Proof.
  intros LE. induction l as [|t l IH]; intros s s' K; cbn [run_texts]; [exists s'; auto|]. pose proof (read_eval_sim n m (input_new t) LE s s' K) as F.
  destruct (read_eval n (input_new t) s) as [[r s1]| | | | |]; cbn [follows obind fst snd] in F |- *; try exact I; try (now rewrite F). destruct F as (s1' & -> & K1). cbn [obind fst snd]. specialize (IH s1 s1' K1).
  destruct (run_texts n l s1) as [[rs s2]| | | | |]; cbn [follows obind fst snd] in IH |- *; try exact I; try (now rewrite IH). destruct IH as (s2' & -> & K2). cbn [obind fst snd]. eauto.
Qed.
Lemma start_like limit addresses messages : like (new_machine limit addresses messages) (new_machine None addresses messages).
Proof.
  destruct limit; constructor; cbn; auto using sub_refl; try (split; [constructor|intros ? ? []]); discriminate.
Qed.
Lemma session_follows lib limit addresses messages out n m l : (n <= m)%nat -> follows (run_session lib limit addresses messages out n l) (run_session lib None addresses messages out m l).
Proof.
  intros LE. unfold run_session. pose proof (boot_sim lib _ _ (start_like limit addresses messages)) as B.
  destruct (boot lib (new_machine limit addresses messages)) as [[u s]| | | | |]; cbn [follows obind fst snd] in B |- *; try exact I; try (now rewrite B). destruct B as (s' & -> & K). cbn [obind snd]. apply run_follows; [exact LE|now apply like_outside].
Qed.

(** For every library, schedule of the collector, choice of addresses and of the
    texts of error messages, and every sequence of texts: if a session ends, a
    session that never collects garbage ends too, gives the same values and leaves
    a machine that agrees; the undefined behaviours are also those of that session.
    (A session may use a freed value, C66, or abort while it collects.) *)
Theorem C97_as_without_collection : forall lib limit addresses messages out fuel l,
  match run_session lib limit addresses messages out fuel l with
  | Ret (values, s) => exists s', run_session lib None addresses messages out fuel l = Ret (values, s') /\ agree s s' /\
                                  (forall r c, lookup (all s) r = Some c -> lookup (all s') r = Some c)
  | Undef => run_session lib None addresses messages out fuel l = Undef
  | Unbalanced => run_session lib None addresses messages out fuel l = Unbalanced
  | Abort | Dangling | NoFuel => True
  end.
Proof.
  intros lib limit addresses messages out fuel l. pose proof (session_follows lib limit addresses messages out fuel fuel l (le_n _)) as F.
  assert (Z : forall rs s, run_session lib None addresses messages out fuel l = Ret (rs, s) -> like s s).
  { intros rs s E. pose proof (session_follows lib None addresses messages out fuel fuel l (le_n _)) as G. rewrite E in G. destruct G as (t & [= <-] & K). exact K. }
  destruct (run_session lib limit addresses messages out fuel l) as [[rs s]| | | | |]; cbn [follows] in F; try exact I; try exact F. destruct F as (s' & E & K). exists s'. split; [exact E|]. split; [|apply K]. exact (agree_like s s' s' K (Z _ _ E)).
Qed.
Print Assumptions C97_as_without_collection.

(** Two sessions with the same texts that collect garbage at different times and
    end give the same values and leave machines that agree; whatever value can be
    printed on both prints the same, and comparing two values gives the same. *)
Theorem C97_collection_unobservable : forall lib limit limit' addresses messages out fuel fuel' l values s values' s',
  run_session lib limit addresses messages out fuel l = Ret (values, s) ->
  run_session lib limit' addresses messages out fuel' l = Ret (values', s') ->
  values = values' /\ agree s s' /\
  (forall rd p n n' r u u', to_text rd p n (all s) r = Ret u -> to_text rd p n' (all s') r = Ret u' -> u = u') /\
  (forall n n' a b z z', vcompare n (all s) a b = Ret z -> vcompare n' (all s') a b = Ret z' -> z = z').
Proof.
  intros lib limit limit' addresses messages out fuel fuel' l vs s vs' s' E E'.
  pose proof (session_follows lib limit addresses messages out fuel (max fuel fuel') l ltac:(lia)) as F. rewrite E in F. destruct F as (t & F & K).
  pose proof (session_follows lib limit' addresses messages out fuel' (max fuel fuel') l ltac:(lia)) as F'. rewrite E' in F'. destruct F' as (t' & F' & K').
  rewrite F in F'. injection F' as <- <-. split; [reflexivity|]. split; [exact (agree_like s s' t K K')|]. split.
  - intros rd p n n' r u u' A A'. pose proof (proj1 (text_hrel rd p n (max n n') r ltac:(lia)) _ _ (k_sub _ _ K)) as B. pose proof (proj1 (text_hrel rd p n' (max n n') r ltac:(lia)) _ _ (k_sub _ _ K')) as B'.
    destruct B as [B|[B|B]]; try congruence. destruct B' as [B'|[B'|B']]; congruence.
  - intros n n' a b z z' A A'. pose proof (proj1 (compare_hrel n (max n n') a b ltac:(lia)) _ _ (k_sub _ _ K)) as B. pose proof (proj1 (compare_hrel n' (max n n') a b ltac:(lia)) _ _ (k_sub _ _ K')) as B'.
    destruct B as [B|[B|B]]; try congruence. destruct B' as [B'|[B'|B']]; congruence.
Qed.
Print Assumptions C97_collection_unobservable.

(** With a library without return, =, copy, cp@ and template (C66) everything that can be
    reached from the global environment or from the value of the last text is
    there, with the same contents, whenever garbage has been collected. *)
Lemma boot_inv limit addresses messages lib : functions_only lib -> safe_library lib ->
  match boot lib (new_machine (Some limit) addresses messages) with Ret (_, s) => Inv false [] s /\ stack s = [genv s] | _ => True end.
Proof.
  intros FO SL. pose proof (boot_ok false lib limit addresses messages) as B.
  assert (HL : forall n d, In (n, d) lib -> plain d /\ (false = false -> tame d)).
  { intros n d J. destruct (FO n d J) as [(p & ->)|(p & ->)]; (split; [exact I|]); intros E; destruct SL as (SB & SS).
    - destruct p; try exact I. elim (SS n J).
    - destruct (SB n p J) as (A1 & A2 & A3 & A4). now destruct p. }
  specialize (B HL). unfold wp in B. cbn [new_machine]. destruct (boot lib (empty_vm limit addresses messages)) as [[u s]| | | | |]; auto.
Qed.
Lemma texts_inv fuel l : forall s vs s', Inv false [] s -> stack s = [genv s] -> run_texts fuel l s = Ret (vs, s') ->
  Inv false [] s' /\ stack s' = [genv s'] /\ List.length vs = List.length l /\ forall r, nth_error vs (List.length l - 1) = Some (Some r) -> live s' r.
Proof.
  induction l as [|t l IH]; intros s vs s' A ST E; cbn [run_texts] in E.
  - injection E as <- <-. split; [exact A|]. split; [exact ST|]. split; [reflexivity|]. intros r. cbn. discriminate.
  - pose proof (read_eval_ok false fuel (input_new t) [] s A) as W. unfold wp in W. destruct (read_eval fuel (input_new t) s) as [[r s1]| | | | |]; cbn [obind snd fst] in E; try discriminate.
    destruct (run_texts fuel l s1) as [[vs1 s2]| | | | |] eqn:E1; cbn [obind snd fst] in E; try discriminate. injection E as <- <-.
    assert (ST1 : stack s1 = [genv s1]) by (rewrite (a_stack _ _ _ _ _ _ _ W), ST; cbn [app]; f_equal; symmetry; exact (a_genv _ _ _ _ _ _ _ W)).
    destruct (IH s1 vs1 s2 (a_inv _ _ _ _ _ _ _ W) ST1 E1) as (B1 & B2 & B3 & B4). split; [exact B1|]. split; [exact B2|]. split; [cbn; congruence|].
    intros x. destruct l as [|t' l].
    + cbn in E1 |- *. injection E1 as <- <-. intros [= ->]. now apply (a_good _ _ _ _ _ _ _ W x eq_refl).
    + cbn [List.length]. replace (S (S (List.length l)) - 1)%nat with (S (List.length (t' :: l) - 1)) by (cbn; lia). cbn [nth_error]. auto.
Qed.
Definition last_value (values : list (option ref)) : list ref :=
  match last values None with Some r => [r] | None => [] end.
Theorem C97_reachable : forall lib limit limit' addresses messages out fuel fuel' l values s values' s',
  functions_only lib -> safe_library lib ->
  run_session lib (Some limit) addresses messages out fuel l = Ret (values, s) ->
  run_session lib (Some limit') addresses messages out fuel' l = Ret (values', s') ->
  forall r, reachable (all s) (genv s :: last_value values) r ->
    reachable (all s') (genv s :: last_value values) r /\ exists c, lookup (all s) r = Some c /\ lookup (all s') r = Some c.
Proof.
  intros lib limit limit' addresses messages out fuel fuel' l vs s vs' s' FO SL E E'.
  destruct (C97_collection_unobservable lib (Some limit) (Some limit') addresses messages out fuel fuel' l vs s vs' s' E E') as (<- & G & _).
  assert (K : forall lim n t, run_session lib (Some lim) addresses messages out n l = Ret (vs, t) -> genv t = genv s -> Inv false [] t /\ forall r, In r (genv s :: last_value vs) -> live t r).
  { intros lim n t F EG. unfold run_session in F. pose proof (boot_inv lim addresses messages lib FO SL) as B.
    destruct (boot lib (new_machine (Some lim) addresses messages)) as [[u s0]| | | | |]; cbn [obind snd] in F; try discriminate. destruct B as (A & ST).
    destruct (texts_inv n l (with_outside s0 out) vs t (inv_outside _ _ _ _ A) ST F) as (A1 & A2 & A3 & A4). split; [exact A1|]. intros r [<-|J].
    - apply (i_stack _ _ _ A1); [|reflexivity]. rewrite A2, EG. now left.
    - apply A4. unfold last_value in J. destruct (last vs None) as [q|] eqn:EL; [destruct J as [<-|[]]|destruct J]. clear - EL A3.
      rewrite <- A3. destruct vs as [|v vs] using rev_ind; [discriminate|]. rewrite last_last in EL. subst v. rewrite app_length, nth_error_app2; cbn; [|lia].
      replace (List.length vs + 1 - 1 - List.length vs)%nat with 0%nat by lia. reflexivity. }
  destruct (K _ _ _ E eq_refl) as (A & LA). destruct (K _ _ _ E' (eq_sym (g_genv _ _ G))) as (A' & LA').
  intros r R. induction R as [r J|r c x R (R' & c1 & L1 & L1') L RF].
  - split; [now apply re_root|]. destruct (proj1 (live_some s r) (LA r J)) as (c & L). destruct (proj1 (live_some s' r) (LA' r J)) as (c' & L'). exists c. split; [exact L|]. rewrite (g_values _ _ G r c c' L L'). exact L'.
  - rewrite L in L1. injection L1 as <-. split; [exact (re_step _ _ _ _ _ R' L1' RF)|].
    destruct (proj1 (live_some s x) (i_closed _ _ _ A eq_refl _ _ _ L RF)) as (d & Ld). destruct (proj1 (live_some s' x) (i_closed _ _ _ A' eq_refl _ _ _ L1' RF)) as (d' & Ld').
    exists d. split; [exact Ld|]. rewrite (g_values _ _ G x d d' Ld Ld'). exact Ld'.
Qed.
Print Assumptions C97_reachable.
(** A session that collects at every third allocation and one that never does:
    the first has freed values. *)
Definition few : list (string * data) :=
  ([("define", DSpecial SpDefine); ("fn", DSpecial SpFn); ("quote", DSpecial SpQuote); ("vector", DBuiltin BiVector); ("+=", DBuiltin BiPlusEq); ("to-string", DBuiltin BiToString)])%string.
Definition few_texts : list (list N) :=
  [asc "(define v as (vector {D+1} [a]) [v])"; asc "(define f as (fn (x) (+= v x)) [f] '(x [x]) howto-ok)"; asc "(f [b]) (f (vector {D+2}))"; asc "(to-string v)"].
Definition few_session (limit : option N) := run_session few limit (fun n => n) (fun _ => []) nothing_outside 20 few_texts.
Definition shown (o : outcome (list (option ref) * vm)) : option (text * nat) :=
  match o with
  | Ret (vs, s) => match last_value vs with
                   | [r] => match lookup (all s) r with Some c => match cdata c with DStr t => Some (t, List.length (all s)) | _ => None end | None => None end
                   | _ => None
                   end
  | _ => None
  end.
Example C97_few : functions_only few /\ safe_library few.
Proof.
  split.
  - intros n d J. repeat (destruct J as [[= <- <-]|J]; [eauto|]). destruct J.
  - split; [intros n p J|intros n J]; repeat (destruct J as [J|J]; [try discriminate; injection J as <- <-; repeat split; discriminate|]); destruct J.
Qed.
Example C97_session : match shown (few_session (Some 3)), shown (few_session None) with
  | Some (t, n), Some (t', n') => text_eqb t (asc "({D+1} [a] [b] ({D+2}))") && text_eqb t t' && Nat.ltb n n' = true
  | _, _ => False
  end.
Proof. vm_compute. reflexivity. Qed.
