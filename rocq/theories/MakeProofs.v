(** fn and macro make what SpecMake.v says. *)
From Coq Require Import NArith ZArith Bool Lia Arith List String.
From Coq Require Import ZifyBool ZifyNat ZifyN.
From Verif Require Import Base OString HMap Heap SpecHeap GcProofs VmProofs ValueOps Env Copy Builtins Specials Eval SafeBase SafeRead SafeLib SafeBuiltins SafeSpecials SafeEval SpecText SpecTrace SpecSpecial SpecForm SpecCall SpecDefine SpecEval SpecBuiltin SpecMake TraceProofs SpecialProofs SpecialEval CallProofs CopyProofs DefineProofs BuiltinProofs.
Import ListNotations.
Local Open Scope N_scope.

Section Fn.
Context (P : list ref) (a env : ref) (s0 : vm) (c0 : cell) (l : list ref).
Context (IN : In a P) (L0 : lookup (all s0) a = Some c0) (E0 : cdata c0 = DVec l) (NE : ~ In env P) (IE : In env (stack s0)) (A0 : Inv P s0).
Notation A := (At true P s0).
Lemma l_reach x : In x l -> reach s0 x.
Proof. intros J. eapply reach_child; [|exact L0|now rewrite E0]. apply re_root. now apply (i_priv _ _ _ A0). Qed.
Lemma l_good x pre G s : A pre G s -> In x l -> good P s x.
Proof. intros H J. eapply good_dref; [apply H|rewrite (a_same _ _ _ _ _ _ _ H); [exact L0|now left]|now rewrite E0]. Qed.
Lemma q_nargs pre G (Q : nat -> vm -> Prop) s : A pre G s -> Q (List.length l) s -> wp (nargs a) Q s.
Proof. intros H K. apply wp_nargs; [discriminate|]. intros c l' L E. rewrite (a_same _ _ _ _ _ _ _ H), L0 in L by now left. injection L as <-. rewrite E0 in E. injection E as <-. exact K. Qed.
Lemma q_arg i pre G (Q : ref -> vm -> Prop) s : A pre G s -> (forall x, nth_error l i = Some x -> Q x s) -> wp (arg a i) Q s.
Proof. intros H K. apply wp_arg; [discriminate|]. intros c l' x L E. rewrite (a_same _ _ _ _ _ _ _ H), L0 in L by now left. injection L as <-. rewrite E0 in E. injection E as <-. apply K. Qed.
Lemma q_get x pre G (Q : data -> vm -> Prop) s : A pre G s -> reach s0 x -> (forall d, data_at s0 x = Some d -> Q d s) -> wp (get x) Q s.
Proof. intros H R K. apply wp_get; [discriminate|]. intros c L. apply K. rewrite <- (q_data _ _ _ _ _ _ H R). unfold data_at. now rewrite L. Qed.
Lemma q_pops : forall ps pre G (Q : unit -> vm -> Prop) s, A (ps ++ pre) G s -> (forall s', A pre G s' -> all s' = all s -> Q tt s') -> wp (pops ps) Q s.
Proof.
  unfold pops. induction ps as [|p ps IH]; intros pre G Q s H K; cbn [iterM]; [apply wp_ret; now apply K|].
  apply wp_bind. eapply at_pop; [exact H|]. intros s1 H1 E1. eapply (IH pre G); [eapply at_weaken; [exact H1|intros y J; apply (a_good _ _ _ _ _ _ _ H1); right; exact J]|].
  intros s2 H2 E2. apply K; [exact H2|congruence].
Qed.
Lemma count_dots_after : forall ns n k, (0 < n)%nat -> count_dots ns n k = (n + List.length (filter (fun t => text_eqb t (asc ".")) ns), k + List.length (filter (fun t => negb (text_eqb t (asc "."))) ns))%nat.
Proof.
  induction ns as [|t ns IH]; intros n k LT; cbn [count_dots filter List.length]; [f_equal; lia|]. destruct (text_eqb t (asc ".")); cbn [negb List.length].
  - rewrite IH by lia. f_equal; lia.
  - destruct n; [lia|]. rewrite IH by lia. f_equal; lia.
Qed.
Lemma no_dots ns : List.length (filter (fun t => text_eqb t (asc ".")) ns) = O -> ~ In (asc ".") ns.
Proof.
  intros E J. assert (K : In (asc ".") (filter (fun t => text_eqb t (asc ".")) ns)) by (apply filter_In; split; [exact J|now apply text_eqb_true]).
  destruct (filter _ ns); [contradiction|discriminate].
Qed.
Lemma no_dots_all ns : ~ In (asc ".") ns -> List.length (filter (fun t => text_eqb t (asc ".")) ns) = O /\ filter (fun t => negb (text_eqb t (asc "."))) ns = ns.
Proof.
  induction ns as [|t ns IH]; intros NI; [auto|]. cbn [filter]. destruct (text_eqb t (asc ".")) eqn:E.
  - apply text_eqb_true in E as ->. elim NI. now left.
  - cbn [negb]. destruct IH as (B1 & B2); [intros J; apply NI; now right|]. split; [exact B1|now rewrite B2].
Qed.
Lemma count_dots_proper ns : (let (nd, k) := count_dots ns 0 0 in Nat.leb nd 1 && Nat.leb k 1) = true <-> proper_names ns.
Proof.
  induction ns as [|t ns IH]; cbn [count_dots].
  - split; [intros _; left; easy|reflexivity].
  - destruct (text_eqb t (asc ".")) eqn:E.
    + apply text_eqb_true in E as ->. rewrite count_dots_after by lia. cbn [Nat.add]. split.
      * intros T. apply andb_true_iff in T as (T1 & T2). apply Nat.leb_le in T1, T2. assert (Z0 : List.length (filter (fun t => text_eqb t (asc ".")) ns) = O) by lia. apply no_dots in Z0.
        right. exists [], ns. split; [reflexivity|]. split; [easy|]. split; [exact Z0|]. rewrite (proj2 (no_dots_all _ Z0)) in T2. exact T2.
      * intros [NI|(l1 & l2 & EQ & N1 & N2 & LE)]; [elim NI; now left|]. destruct l1 as [|t1 l1].
        -- injection EQ as ->. destruct (no_dots_all _ N2) as (B1 & B2). rewrite B1, B2. apply andb_true_iff. split; apply Nat.leb_le; lia.
        -- injection EQ as <- _. elim N1. now left.
    + assert (NT : t <> asc ".") by (intros ->; assert (text_eqb (asc ".") (asc ".") = true) by (now apply text_eqb_true); congruence). rewrite IH. split.
      * intros [NI|(l1 & l2 & -> & N1 & N2 & LE)]; [left; intros [J|J]; auto|]. right. exists (t :: l1), l2. split; [reflexivity|]. split; [intros [J|J]; auto|auto].
      * intros [NI|(l1 & l2 & EQ & N1 & N2 & LE)]; [left; intros J; apply NI; now right|]. destruct l1 as [|t1 l1]; [injection EQ as ->; congruence|]. injection EQ as <- ->. right. exists l1, l2. split; [reflexivity|]. split; [intros J; apply N1; now right|auto].
Qed.
Lemma formal_texts_are : forall fs (Q : option (list text) -> vm -> Prop) s, (forall x, In x fs -> data_at s x = data_at s0 x) ->
  (forall o, match o with Some ns => Forall2 (fun y t => data_at s0 y = Some (DSym t)) fs ns | None => forall ns, ~ Forall2 (fun y t => data_at s0 y = Some (DSym t)) fs ns end -> Q o s) -> wp (formal_texts fs) Q s.
Proof.
  induction fs as [|f fs IH]; intros Q s DS K; cbn [formal_texts]; [apply wp_ret, K; constructor|].
  apply wp_bind. unfold sym_of. apply wp_bind, wp_get; [discriminate|]. intros c L. assert (DF : data_at s0 f = Some (cdata c)) by (rewrite <- DS by (now left); unfold data_at; now rewrite L).
  assert (U : (forall t, cdata c <> DSym t) -> wp (ret None) Q s).
  { intros N. apply wp_ret, K. intros ns F. inversion F as [|? t ? ? F1 F2]; subst. rewrite DF in F1. injection F1 as F1. now apply (N t). }
  destruct (cdata c) eqn:EC; apply wp_ret; try (apply U; congruence). clear U.
  apply wp_bind. apply IH; [intros x J; apply DS; now right|]. intros o T. apply wp_ret, K. destruct o as [ns|]; cbn [option_map].
  - constructor; assumption.
  - intros ns F. inversion F as [|? ? ? ns' F1 F2]; subst. now apply (T ns').
Qed.
Lemma valid_is x fs pre G (Q : bool -> vm -> Prop) s : A pre G s -> reach s0 x -> data_at s0 x = Some (DVec fs) -> (forall b, (b = true <-> proper_formals s0 x) -> Q b s) -> wp (valid_formals x) Q s.
Proof.
  intros H R D K. unfold valid_formals. apply wp_bind, wp_vec_of; [discriminate|]. intros c fs' L E.
  assert (EF : fs' = fs). { rewrite <- (q_data _ _ _ _ _ _ H R) in D. unfold data_at in D. rewrite L in D. cbn in D. rewrite E in D. now injection D. } subst fs'.
  apply wp_bind. apply formal_texts_are.
  { intros y J. eapply q_data; [exact H|]. rewrite (a_same _ _ _ _ _ _ _ H) in L by auto. eapply reach_child; [exact R|exact L|now rewrite E]. }
  intros o T. destruct o as [ns|].
  - pose proof (count_dots_proper ns) as CD. destruct (count_dots ns 0 0) as [nd k]. apply wp_ret, K. rewrite CD. split.
    + intros B. exists fs, ns. auto.
    + intros (fs' & ns' & D' & F & B). rewrite D in D'. injection D' as <-. assert (ns' = ns); [|now subst].
      clear - F T. revert ns T. induction F as [|y t fs ns' F1 F IH]; intros ns T; inversion T as [|? t' ? ? T1 T2]; subst; [reflexivity|]. f_equal; [congruence|auto].
  - apply wp_ret, K. split; [discriminate|]. intros (fs' & ns' & D' & F & B). rewrite D in D'. injection D' as <-. now elim (T ns').
Qed.
(** The body, until an error. *)
Lemma forms_build body : mine true P s0 body -> no_error s0 l -> forall k i done s, (i + k = List.length l)%nat -> A [body; env; a] (fun _ => False) s -> data_at s body = Some (DVec done) ->
  wp (body_forms k a body i) (fun o s' => o = None /\ A [body; env; a] (fun _ => False) s' /\ data_at s' body = Some (DVec (done ++ skipn i l))) s.
Proof.
  intros MB NER. induction k as [|k IH]; intros i done s EL H DB; cbn [body_forms].
  - apply wp_ret. split; [reflexivity|]. split; [exact H|]. rewrite skipn_all2 by lia. now rewrite app_nil_r.
  - apply wp_bind. eapply q_arg; [exact H|]. intros x NX. pose proof (nth_error_In _ _ NX) as IX. apply wp_bind. unfold is_error. apply wp_bind. eapply q_get; [exact H|now apply l_reach|]. intros d DX. apply wp_ret.
    destruct (is_error_data d) eqn:ED; [apply is_error_iff in ED; now elim (NER x d IX DX)|].
    apply wp_bind. unfold SafeBase.wp at 1. rewrite (vec_push_is body s done x DB).
    eapply (r_put true true P s0 body _ [body; env; a]); [exact H|has|exact MB| |discriminate|discriminate|].
    { intros y J. cbn in J. apply in_app_or in J as [J|[<-|[]]]; [|eapply l_good; [exact H|exact IX]]. unfold data_at in DB. destruct (lookup (all s) body) as [cb|] eqn:LB; [|discriminate]. cbn in DB. injection DB as DB.
      eapply at_dref; [exact H|exact LB|]. rewrite DB. exact J. }
    intros s1 H1 (cb & LB & EB) _. eapply wp_mono; [apply (IH (S i) (done ++ [x]) s1)|].
    + lia.
    + exact H1.
    + unfold data_at. rewrite LB. cbn. now rewrite EB.
    + intros o s2 (-> & H2 & D2). split; [reflexivity|]. split; [exact H2|]. rewrite D2. rewrite <- app_assoc. cbn [app].
      replace (skipn i l) with (x :: skipn (S i) l); [reflexivity|]. clear - NX. revert i NX. induction l as [|z zs IHl]; intros [|i] NX; cbn in *; try discriminate; [now injection NX as ->|now apply IHl].
Qed.
Lemma fn_makes mk : no_error s0 l -> (forall f x, dref (mk f) x -> x = fformals f \/ x = fbody f \/ x = fenv f) ->
  wp (s_fn mk a env) (fun r s' => A [] (eq r) s' /\ maker_run mk env s0 l r s') s0.
Proof.
  intros NER RM. pose proof (at_start true true P s0 A0) as H. unfold s_fn.
  apply wp_bind. eapply q_push_all; [exact H|right; right; left; now apply (i_priv _ _ _ A0)|]. clear H. intros s H _.
  apply wp_bind. eapply q_push_all; [exact H|right; right; left; exact IE|]. clear H. intros s1 H _. clear s. rename s1 into s. apply wp_bind. eapply q_nargs; [exact H|].
  destruct (Nat.ltb_spec (List.length l) 2) as [LT|GE].
  { apply wp_bind. eapply (q_pops [env; a] []); [exact H|]. intros s1 H1 _. eapply q_error; [exact H1|]. intros r s2 H2 C. split; [exact H2|]. now apply make_few. }
  apply wp_bind. eapply q_arg; [exact H|]. intros x NX. pose proof (nth_error_In _ _ NX) as IX. pose proof (l_reach x IX) as RX.
  assert (EL : exists forms, l = x :: forms /\ forms <> []) by (destruct l as [|y [|z zs]]; cbn in *; try lia; injection NX as ->; eexists; split; [reflexivity|discriminate]).
  destruct EL as (forms & EL & NF).
  apply wp_bind. eapply q_get; [exact H|exact RX|]. intros d DX.
  assert (U : (forall fs, d <> DVec fs) -> wp (pops [env; a] ;;; new_error) (fun r s' => A [] (eq r) s' /\ maker_run mk env s0 l r s') s).
  { intros N. apply wp_bind. eapply (q_pops [env; a] []); [exact H|]. intros s1 H1 _. eapply q_error; [exact H1|]. intros r s2 H2 C. split; [exact H2|]. eapply make_bad; [exact EL| |exact C].
    intros (fs & ns & D' & _). rewrite DX in D'. injection D' as ->. now apply (N fs). }
  destruct d; try (apply U; discriminate). clear U.
  apply wp_bind. eapply (q_alloc P s0); [exact H|easy|]. clear H. intros body s1 H1 _ (MN & MD) _ NB. assert (MB : mine true P s0 body) by (split; [exact NB|auto]).
  apply wp_bind. eapply q_push_all; [exact H1|has|]. clear H1. intros s2 H2 E2. 
  apply wp_bind. eapply wp_mono; [apply (forms_build body MB NER (List.length l - 1) 1 [] s2)|].
  { lia. } { eapply at_weaken; [exact H2|easy]. } { now rewrite (data_same _ _ _ E2). }
  intros o s3 (-> & H & DB). clear H2 E2 MD s1 s2 s. rename s3 into s. cbn [app] in DB. assert (SK : skipn 1 l = forms) by (now rewrite EL). rewrite SK in DB.
  apply wp_bind. eapply valid_is; [exact H|exact RX|exact DX|]. intros b EB. destruct b; cbn [negb].
  2:{ apply wp_bind. eapply q_error; [exact H|]. intros r s1 H1 C. apply wp_bind. eapply (q_pops [body; env; a] []); [exact H1|]. intros s2 H2 E2. apply wp_ret. split; [exact H2|].
      eapply make_bad; [exact EL|intros B; apply EB in B; discriminate|]. destruct C as (d & (C1 & C2) & C3). exists d. split; [split; [exact C1|now rewrite (data_same _ _ _ E2)]|exact C3]. }
  pose proof (proj1 EB eq_refl) as PF. clear EB.
  (* the function *)
  apply wp_bind, (r_alloc true true P s0 _ [body; env; a] _ _ _ H); [|discriminate|].
  { intros y R. apply RM in R as [->|[->| ->]]; cbn [fformals fbody fenv].
    - split; [eapply l_good; [exact H|exact IX]|]. right. right. left. auto.
    - split; [exact NB|]. left. now left.
    - split; [exact NE|]. left. right. now left. }
  intros r s1 H1 AL MR. pose proof (al_cell _ _ _ _ _ _ AL) as (ad & LR). pose proof (al_old _ _ _ _ _ _ AL) as LTR.
  pose proof (reach_lt true P s) as RLT.
  assert (RB : reach s body) by (apply re_root; rewrite (a_stack _ _ _ _ _ _ _ H); now left).
  assert (NRB : r <> body) by (intros ->; apply RLT in RB; [|apply H]; lia).
  assert (DB1 : data_at s1 body = Some (DVec forms)). { rewrite <- DB. unfold data_at. now rewrite (q_same _ _ _ _ (al_quiet _ _ _ _ _ _ AL) body RB). }
  apply wp_bind. eapply q_push_all; [exact H1|has|]. intros s2 H2 E2.
  apply wp_bind, (r_alloc true true P s0 (DStr []) [r; body; env; a] _ _ _ H2); [easy|discriminate|]. intros doc s3 H3 AL3 MD. pose proof (al_cell _ _ _ _ _ _ AL3) as (ad3 & LD). pose proof (al_old _ _ _ _ _ _ AL3) as LTD.
  assert (RB2 : reach s2 body) by (apply re_root; rewrite (a_stack _ _ _ _ _ _ _ H2); right; now left).
  assert (RR2 : reach s2 r) by (apply re_root; rewrite (a_stack _ _ _ _ _ _ _ H2); now left).
  assert (NDR : doc <> r) by (intros ->; apply (reach_lt true P) in RR2; [|apply H2]; lia).
  assert (NDB : doc <> body) by (intros ->; apply (reach_lt true P) in RB2; [|apply H2]; lia).
  assert (LR3 : lookup (all s3) r = Some (mkCell (mk (mkFunc [] [] false x body env)) None None false ad)) by (rewrite (q_same _ _ _ _ (al_quiet _ _ _ _ _ _ AL3) r RR2), E2; exact LR).
  assert (DB3 : data_at s3 body = Some (DVec forms)). { rewrite <- DB1. unfold data_at. now rewrite (q_same _ _ _ _ (al_quiet _ _ _ _ _ _ AL3) body RB2), E2. }
  assert (W : wp (set_docs r (Some doc) None) (fun _ s' => A [r; body; env; a] (eq doc) s' /\ s' = with_all s3 (update (all s3) r (mkCell (mk (mkFunc [] [] false x body env)) (Some doc) None false ad))) s3).
  { assert (W1 : wp (set_docs r (Some doc) None) (fun _ s' => A [r; body; env; a] (eq doc) s') s3).
    { apply (r_set_docs true true P s0 r _ _ [r; body; env; a] _ _ _ H3); [has|exact MR| | | |auto].
      - intros z [= <-]. now apply (a_good _ _ _ _ _ _ _ H3).
      - discriminate.
      - discriminate. }
    unfold SafeBase.wp, set_docs, bind, get_cell in *. rewrite LR3 in *. cbn [obind fst snd] in *. unfold put_cell in *. rewrite LR3 in *. split; [exact W1|reflexivity]. }
  apply wp_bind. eapply wp_mono; [exact W|]. clear W. intros u s4 (H4 & E4).
  assert (LR4 : lookup (all s4) r = Some (mkCell (mk (mkFunc [] [] false x body env)) (Some doc) None false ad)) by (subst s4; cbn; now rewrite lookup_update, N.eqb_refl, LR3).
  assert (O4 : forall y, y <> r -> lookup (all s4) y = lookup (all s3) y) by (intros y NY; subst s4; cbn; rewrite lookup_update; destruct (N.eqb_spec r y); congruence).
  clear E4. apply wp_bind. eapply at_pop; [exact H4|]. intros s5 H5 E5. apply wp_bind. eapply (q_pops [body; env; a] []); [exact H5|]. intros s6 H6 E6. apply wp_ret.
  assert (NX0 : nextId s0 <= nextId s) by (apply H).
  split; [eapply at_weaken; [exact H6|]; intros y <-; apply (a_good _ _ _ _ _ _ _ H6); left; split; [reflexivity|apply MR]|].
  eapply make_new; [exact EL|exact NF|exact PF| | | | |].
  - split; [now apply MR|]. unfold data_at. now rewrite E6, E5, LR4.
  - split; [exact MN|]. unfold data_at. rewrite E6, E5, O4 by auto. exact DB3.
  - unfold doc_at. rewrite E6, E5, LR4. reflexivity.
  - split; [now apply MD|]. unfold data_at. rewrite E6, E5, O4 by auto. now rewrite LD.
  - constructor; [intros [J|[J|[]]]; congruence|]. constructor; [intros [J|[]]; congruence|]. constructor; [easy|constructor].
Qed.
End Fn.

(** ** From the special to the form *)
Section Call.
Context (ev : evaluator) (fuel : nat).
Context (P : list ref) (s0 : vm) (A0 : Inv P s0).
Definition special_makes (p : special) (env : ref) (K : vm -> list ref -> ref -> vm -> Prop) : Prop :=
  forall P a s0 c0 l, In a P -> lookup (all s0) a = Some c0 -> cdata c0 = DVec l -> ~ In env P -> In env (stack s0) -> Inv P s0 -> no_error s0 l ->
  wp (special_call fuel ev p a env) (fun r s' => At true P s0 [] (eq r) s' /\ K s0 l r s') s0.
(** Seen from an earlier machine, and after an error was annotated. *)
Definition looks_back (K : vm -> list ref -> ref -> vm -> Prop) : Prop :=
  forall s s1 l r s', (forall x, In x l -> reach s x) -> nextId s <= nextId s1 -> (forall x, reach s x -> lookup (all s1) x = lookup (all s) x) -> K s1 l r s' -> K s l r s'.
Definition looks_on (K : vm -> list ref -> ref -> vm -> Prop) : Prop :=
  forall s l r s' s'', (forall x c, lookup (all s') x = Some c -> exists c', lookup (all s'') x = Some c' /\ alike c c') -> K s l r s' -> K s l r s''.
Context (v env : ref) (IV : In v (stack s0)) (IE : In env (stack s0)) (NE : ~ In env P).
Lemma call_maker addr p K : special_makes p env K -> looks_back K -> looks_on K ->
  wp (call_special fuel ev v addr p env) (fun r s' => exists l, data_at s0 v = Some (DVec l) /\ keeps (stack s0) s0 s' /\
    ((no_error s0 (tl l) /\ K s0 (tl l) r s') \/
     (exists l1 l2 d d', tl l = l1 ++ r :: l2 /\ no_error s0 l1 /\ data_at s0 r = Some d /\ is_err d /\ data_at s' r = Some d' /\ is_err d'))) s0.
Proof.
  intros SM LB LO. unfold call_special. apply (ot_bind ev P s0 A0). intros a s O. apply wp_bind.
  assert (W : wp (form_at v addr) (fun l s' => s' = s /\ data_at s0 v = Some (DVec l) /\ forall x, In x l -> good (a :: P) s x /\ reach s0 x) s).
  { unfold form_at. apply wp_bind, wp_get_at; [discriminate|]. intros c L _. rewrite (ot_same _ _ _ _ _ _ _ _ O eq_refl) in L by (now apply re_root). destruct (cdata c) eqn:E; try apply wp_undef. apply wp_ret.
    split; [reflexivity|]. split; [unfold data_at; rewrite L; cbn; now rewrite E|]. intros x J. split; [|eapply (reach_child s0 v); [now apply re_root|exact L|now rewrite E]].
    rewrite <- (ot_same _ _ _ _ _ _ _ _ O eq_refl) in L by (now apply re_root). eapply (good_dref true); [apply (ot_own _ _ _ _ _ _ _ _ O)|exact L|now rewrite E]. }
  eapply wp_mono; [exact W|]. clear W. intros l s' (-> & DV & GL).
  apply wp_bind. assert (IT : forall x, In x (tl l) -> In x l) by (intros x J; destruct l; [exact J|now right]).
  eapply wp_mono; [eapply (raw_args_spec ev P s0 A0 a (tl l) [] (fun x => In x l)); [eapply ot_weaken; [exact O|intros x J; now apply GL]|intros x J; split; [auto|now apply GL, IT]]|].
  clear O. intros o s1 H. apply wp_bind. destruct o as [x|].
  - destruct H as (l1 & l2 & d & O & EL & NE1 & D1 & E1 & D2). apply wp_ret. eapply ot_pop; [exact O|reflexivity|]. intros s2 H2 E2. exists l.
    split; [exact DV|]. split; [pose proof (tr_tr _ _ _ _ _ _ _ H2) as TT; now inversion TT|]. right. exists l1, l2, d, d. rewrite (data_same _ _ _ E2). auto 7.
  - destruct H as (O & NE1). cbn [app] in O. destruct (ot_vec _ _ _ _ _ _ _ _ O) as (c & L & E). pose proof (ot_own _ _ _ _ _ _ _ _ O) as OW. destruct (own_old _ _ _ _ _ _ env OW IE NE) as (GE & KE).
    assert (IE1 : In env (stack s1)) by (rewrite (ot_stack _ _ _ _ _ _ _ _ O); now right).
    assert (NER : no_error s1 (tl l)). { intros x d J D. apply (NE1 x d J). rewrite <- D. symmetry. eapply ot_at; [exact O|reflexivity|]. now apply GL, IT. }
    apply wp_bind. eapply wp_mono; [exact (SM (a :: P) a s1 c (tl l) (or_introl eq_refl) L E (proj1 (proj2 GE)) IE1 (o_inv _ _ _ _ _ _ OW) NER)|].
    intros r s2 (A2 & K2). apply wp_bind.
    assert (A1 : keeps (stack s1) s1 s2) by (eapply keeps_at; exact A2).
    assert (K0 : keeps (stack s0) s0 s2).
    { eapply keeps_trans; [pose proof (ot_tr _ _ _ _ _ _ _ _ O) as TT; inversion TT; eassumption|]. eapply keeps_incl; [|exact A1]. rewrite (ot_stack _ _ _ _ _ _ _ _ O). intros y; now right. }
    assert (K02 : K s0 (tl l) r s2).
    { eapply LB; [| |apply (ot_same _ _ _ _ _ _ _ _ O eq_refl)|exact K2]. - intros x J. now apply GL, IT. - exact (a_next _ _ _ _ _ _ _ (o_at _ _ _ _ _ _ OW)). }
    assert (W : wp (annotate r) (fun _ s3 => keeps (stack s0) s0 s3 /\ stack s3 = stack s2 /\ K s0 (tl l) r s3) s2).
    { unfold annotate. apply wp_bind, wp_get_cell; [discriminate|]. intros cr Lr. destruct (cdata cr) eqn:ED; try (apply wp_ret; solve [auto]).
      unfold SafeBase.wp, put_cell. cbn [all with_nextAddr]. rewrite Lr.
      assert (KK : forall x c, lookup (all s2) x = Some c -> exists c', lookup (update (all s2) r {| cdata := DErr (msgs s2 (nextAddr s2)) line; cdoc := cdoc cr; cdocvec := cdocvec cr; cmark := cmark cr; caddr := caddr cr |}) x = Some c' /\ alike c c').
      { intros x cx Lx. rewrite lookup_update. destruct (N.eqb_spec r x) as [<-|NX]; [|exists cx; split; [exact Lx|apply alike_refl]]. rewrite Lr. cbn. rewrite Lr in Lx. injection Lx as <-. eexists. split; [reflexivity|]. right. cbn. rewrite ED. cbn. auto. }
      split; [|split; [reflexivity|]].
      - eapply keeps_trans; [exact K0|]. split; [|auto 9]. intros x cx _ Lx. exact (KK x cx Lx).
      - eapply LO; [exact KK|exact K02]. }
    eapply wp_mono; [exact W|]. clear W. intros u s3 (K3 & ST3 & KK3). apply wp_ret. apply wp_bind.
    unfold SafeBase.wp, pop. destruct (stack s3) as [|y st]; [exact I|]. destruct (y =? r); [|]; destruct (y =? a); try exact I; unfold ret.
    all: exists l; split; [exact DV|]; split; [eapply keeps_trans; [exact K3|apply keeps_same; reflexivity]|]; left; split; [exact NE1|]; eapply LO; [|exact KK3]; intros x cx Lx; exists cx; split; [exact Lx|apply alike_refl].
Qed.
End Call.
Lemma maker_form_of p (K : ref -> vm -> list ref -> ref -> vm -> Prop) : (forall ev fuel env, special_makes ev fuel p env (K env)) -> (forall env, looks_back (K env)) -> (forall env, looks_on (K env)) -> maker_form p K.
Proof.
  intros SM LB LO fuel env v s x f s2 o s' [SA LV LE QT (xs & DV) CF DF EV].
  destruct (eval_form_inv fuel v env s o s' x xs QT DV EV) as (fo & s2' & addr & EF & _ & KS & _ & _).
  rewrite CF in EF. injection EF as <- <-. destruct (KS f p eq_refl DF) as (r & s4 & st & EC & -> & ->). clear KS.
  pose proof (inside_inv v env s SA LV LE) as A1. pose proof (eval_safe true fuel) as EVO.
  assert (GX : good [] (inside v env s) x).
  { unfold data_at in DV. destruct (lookup (all s) v) as [c|] eqn:L; [|discriminate]. injection DV as EC'. eapply (good_dref true []); [exact A1|cbn; exact L|rewrite EC'; now left]. }
  assert (GE : good [] (inside v env s) env) by (split; [exact LE|easy]).
  assert (T2 : Tr (Eval.eval fuel) [] (inside v env s) [] (eq f) [SpecTrace.Eval x env (inside v env s) (Some f) s2] s2).
  { pose proof (tr_eval (Eval.eval fuel) EVO [] (inside v env s) x env [] _ [] (fun o s' => Tr (Eval.eval fuel) [] (inside v env s) [] (fun r => o = Some r) [SpecTrace.Eval x env (inside v env s) o s'] s') _ (tr_start (Eval.eval fuel) [] _ A1) GX GE (fun o s' T => T)) as W.
    eapply tr_eq; [exact (wp_ret_inv _ _ _ _ _ W CF)|reflexivity]. }
  set (s3 := with_stack s2 (f :: stack s2)) in *.
  assert (T3 : Tr (Eval.eval fuel) [] (inside v env s) [f] (eq f) [SpecTrace.Eval x env (inside v env s) (Some f) s2] s3).
  { pose proof (t_push (Eval.eval fuel) [] (inside v env s) f [] _ _ (fun _ s' => Tr (Eval.eval fuel) [] (inside v env s) [f] (eq f) [SpecTrace.Eval x env (inside v env s) (Some f) s2] s') _ T2 eq_refl (fun s' T _ => T)) as W. exact W. }
  pose proof (tr_at _ _ _ _ _ _ _ T3) as A3. assert (STK : stack s3 = f :: env :: v :: stack s) by (rewrite (a_stack _ _ _ _ _ _ _ A3); reflexivity).
  pose proof (call_maker (Eval.eval fuel) fuel [] s3 (a_inv _ _ _ _ _ _ _ A3) v env ltac:(rewrite STK; cbn; auto) ltac:(rewrite STK; cbn; auto) ltac:(easy) addr p (K env) (SM _ _ _) (LB env) (LO env)) as W.
  destruct (wp_ret_inv _ _ _ _ _ W EC) as (l0 & D3 & KE & KR). clear W.
  exists r, l0. split; [reflexivity|]. split; [exact D3|]. split.
  - eapply keeps_trans; [|eapply keeps_trans; [eapply keeps_incl; [|exact KE]|]].
    + apply keeps_same; reflexivity.
    + rewrite STK. intros y J. now right.
    + apply keeps_same; reflexivity.
  - destruct KR as [(N1 & KR)|(l1 & l2 & d & d' & K1 & K2 & K3 & K4 & K5 & K6)].
    + left. split; [exact N1|]. eapply (LO env); [|eapply (LB env); [| | |exact KR]].
      * cbn. intros y c Ly. exists c. split; [exact Ly|apply alike_refl].
      * intros y J. apply (reach_child s2 v) with (c := match lookup (all s2) v with Some c => c | None => mkCell DNil None None false 0 end).
        -- apply re_root. pose proof (a_stack _ _ _ _ _ _ _ (tr_at _ _ _ _ _ _ _ T2)) as ES. rewrite ES. cbn. auto.
        -- unfold data_at in D3. cbn in D3. destruct (lookup (all s2) v); [reflexivity|discriminate].
        -- unfold data_at in D3. cbn in D3. destruct (lookup (all s2) v) as [cv|]; [|discriminate]. cbn in D3. injection D3 as ->. cbn. destruct l0; [destruct J|now right].
      * cbn. lia.
      * reflexivity.
    + right. exists l1, l2, d, d'. auto 7.
Qed.
(** ** fn and macro *)
Lemma makes_on s s' s'' r d : (forall x c, lookup (all s') x = Some c -> exists c', lookup (all s'') x = Some c' /\ alike c c') -> makes s s' r d -> ~ is_err d -> makes s s'' r d.
Proof.
  intros KK (N & D) NE. split; [exact N|]. unfold data_at in *. destruct (lookup (all s') r) as [c|] eqn:L; [|discriminate]. cbn in D. injection D as D. destruct (KK _ _ L) as (c' & L' & AL). rewrite L'. cbn.
  destruct AL as [->|(F & _)]; [now rewrite D|]. rewrite D in F. contradiction.
Qed.
Lemma complains_on s s' s'' r : (forall x c, lookup (all s') x = Some c -> exists c', lookup (all s'') x = Some c' /\ alike c c') -> complains s s' r -> complains s s'' r.
Proof.
  intros KK (d & (N & D) & IE). unfold data_at in D. destruct (lookup (all s') r) as [c|] eqn:L; [|discriminate]. cbn in D. injection D as D. destruct (KK _ _ L) as (c' & L' & AL).
  exists (cdata c'). split; [split; [exact N|unfold data_at; now rewrite L']|]. destruct AL as [->|(_ & F & _)]; [now rewrite D|exact F].
Qed.
Lemma makes_back s s1 s' r d : nextId s <= nextId s1 -> makes s1 s' r d -> makes s s' r d.
Proof. intros LE (N & D). split; [lia|exact D]. Qed.
Lemma forall2_change {X Y} (R R' : X -> Y -> Prop) l l' : (forall x y, In x l -> R x y -> R' x y) -> Forall2 R l l' -> Forall2 R' l l'.
Proof. intros K F. induction F as [|x y l l' F1 F IH]; constructor; [apply K; [now left|exact F1]|apply IH; intros a b J; apply K; now right]. Qed.
Lemma proper_back s s1 x : reach s x -> (forall y, reach s y -> lookup (all s1) y = lookup (all s) y) -> proper_formals s1 x <-> proper_formals s x.
Proof.
  intros R KK. assert (DD : forall y, reach s y -> data_at s1 y = data_at s y) by (intros y RY; unfold data_at; now rewrite KK).
  assert (CH : forall fs y, data_at s x = Some (DVec fs) -> In y fs -> reach s y).
  { intros fs y D J. unfold data_at in D. destruct (lookup (all s) x) as [c|] eqn:L; [|discriminate]. cbn in D. injection D as D. eapply reach_child; [exact R|exact L|now rewrite D]. }
  assert (FF : forall fs ns, data_at s x = Some (DVec fs) -> Forall2 (fun y t => data_at s1 y = Some (DSym t)) fs ns <-> Forall2 (fun y t => data_at s y = Some (DSym t)) fs ns).
  { intros fs ns D. assert (CH' : forall y, In y fs -> data_at s1 y = data_at s y) by (intros y J; apply DD; eapply CH; eauto). clear - CH'.
    split; apply forall2_change; intros y t J; now rewrite CH'. }
  split; intros (fs & ns & D & F & PN); exists fs, ns; [rewrite DD in D by exact R|]; (split; [try rewrite DD by exact R; exact D|split; [now apply FF|exact PN]]).
Qed.
Lemma maker_forms p mk : (forall fuel ev a env, special_call fuel ev p a env = s_fn mk a env) -> (forall f x, dref (mk f) x -> x = fformals f \/ x = fbody f \/ x = fenv f) -> (forall f, ~ is_err (mk f)) ->
  maker_form p (maker_run mk).
Proof.
  intros EQ RM NM. apply maker_form_of.
  - intros ev fuel env P a s0 c0 l IN L0 E0 NE IE A0 NER. rewrite EQ. now apply fn_makes with (c0 := c0).
  - intros env s s1 l r s' RL LE KK H. destruct H as [LT C|x forms EL NP C|x forms body doc EL NF PF M1 M2 D1 M3 ND].
    + apply make_few; [exact LT|]. destruct C as (d & M & I). exists d. split; [now apply (makes_back s s1)|exact I].
    + eapply make_bad; [exact EL|rewrite <- (proper_back s s1); [exact NP|apply RL; rewrite EL; now left|exact KK]|]. destruct C as (d & M & I). exists d. split; [now apply (makes_back s s1)|exact I].
    + eapply make_new; [exact EL|exact NF|rewrite <- (proper_back s s1); [exact PF|apply RL; rewrite EL; now left|exact KK]| | |exact D1| |exact ND]; now apply (makes_back s s1).
  - intros env s l r s' s'' KK H. destruct H as [LT C|x forms EL NP C|x forms body doc EL NF PF M1 M2 D1 M3 ND].
    + apply make_few; [exact LT|]. now apply (complains_on s s').
    + eapply make_bad; [exact EL|exact NP|]. now apply (complains_on s s').
    + eapply make_new; [exact EL|exact NF|exact PF|apply (makes_on s s'); [exact KK|exact M1|apply NM]|apply (makes_on s s'); [exact KK|exact M2|easy]| |apply (makes_on s s'); [exact KK|exact M3|easy]|exact ND].
      destruct M1 as (_ & M1). unfold doc_at, data_at in *. destruct (lookup (all s') r) as [c|] eqn:L; [|discriminate]. destruct (KK _ _ L) as (c' & L' & AL). rewrite L'. destruct AL as [->|(F & _)]; [exact D1|].
      cbn in M1. injection M1 as M1. rewrite M1 in F. now apply NM in F.
Qed.
Lemma fn_form : maker_form SpFn (maker_run DFun).
Proof. apply maker_forms; [reflexivity| |easy]. intros f x R. exact R. Qed.
Lemma macro_form : maker_form SpMacro (maker_run DMac).
Proof. apply maker_forms; [reflexivity| |easy]. intros f x R. exact R. Qed.
