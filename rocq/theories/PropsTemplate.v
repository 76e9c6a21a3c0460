(** C105: template.  See SpecTemplate.v. *)
From Coq Require Import NArith ZArith Bool Lia Arith String List.
From Verif Require Import Base HMap Heap SpecHeap ValueOps Env Eval Read Boot Run SpecTrace SpecSpecial SpecForm SpecDefine SpecTemplate SpecialForms TemplateProofs PropsValue.
Import ListNotations.
Local Open Scope N_scope.
Local Open Scope string_scope.
Local Open Scope list_scope.

(** Every template form does what [template_run] says: forms are evaluated only
    where a comma stands before them, in this order, and nothing else happens. *)
Theorem C105_template : special_form SpTemplate (fun _ env s => template_run env s).
Proof. exact template_forms. Qed.
Print Assumptions C105_template.
Example C105_template_witness :
  (exists r rs, form_calls 50 SpTemplate (Some (DVec (r :: rs))) /\ List.length rs = 4%nat) /\ form_calls 50 SpTemplate (Some (DInt 7)) /\ form_calls 50 SpTemplate (Some (DInt 5)).
Proof.
  split; [|split].
  - eexists _, _. split.
    + apply (text_case _ "(define y as '({D+1} {D+2}) [y])" "(template a (b ,y) ,@ y c)"). vm_compute. reflexivity.
    + reflexivity.
  - apply (text_case _ "(define y as {D+7} [y])" "(template ,y)"). vm_compute. reflexivity.
  - apply (text_case _ "(define y as {D+7} [y])" "(template {D+5})"). vm_compute. reflexivity.
Qed.
(** It is not so that every template has a value: a template in which a vector
    stands that is empty makes the program use a NULL pointer. *)
Theorem C105_empty_refuted : run_text machine "(template a ())" = Undef.
Proof. vm_compute. reflexivity. Qed.
Print Assumptions C105_empty_refuted.

(** A template without vectors among its forms, read in the machine [s]: [evs],
    the evaluations in their order; [out], the elements of the result in theirs.  A
    form is taken as it is; a form after a comma, and a name with a comma, is
    replaced by its value; a form after ,@ by the elements of its value. *)
Definition comma (d : data) : Prop := exists t, d = DSym (44 :: t).
Inductive flat (env : ref) (s : vm) : list ref -> list event -> list ref -> Prop :=
| flat_end : flat env s [] [] []
| flat_copy x l d evs out : data_at s x = Some d -> ~ comma d -> flat env s l evs out -> flat env s (x :: l) evs (x :: out)
| flat_value c y l w sa sb evs out : data_at s c = Some (DSym (asc ",")) -> flat env s l evs out ->
    flat env s (c :: y :: l) (SpecTrace.Eval y env sa (Some w) sb :: evs) (w :: out)
| flat_elements c y l w ws sa sb evs out : data_at s c = Some (DSym (asc ",@")) -> data_at sb w = Some (DVec ws) -> flat env s l evs out ->
    flat env s (c :: y :: l) (SpecTrace.Eval y env sa (Some w) sb :: evs) (ws ++ out)
| flat_element c y l w sa sb evs out : data_at s c = Some (DSym (asc ",@")) -> (forall ws, data_at sb w <> Some (DVec ws)) -> flat env s l evs out ->
    flat env s (c :: y :: l) (SpecTrace.Eval y env sa (Some w) sb :: evs) (w :: out)
| flat_name x l t t' k w sa sb evs out : data_at s x = Some (DSym (44 :: t)) -> t <> [] -> t <> asc "@" -> through_c (44 :: t) t' -> data_at sa k = Some (DSym (tl t')) ->
    flat env s l evs out -> flat env s (x :: l) (SpecTrace.Eval k env sa (Some w) sb :: evs) (w :: out)
| flat_missing c r s' d : data_at s c = Some (DSym (asc ",")) \/ data_at s c = Some (DSym (asc ",@")) -> data_at s' r = Some d -> is_err d -> flat env s [c] [] [r].
Definition is_eval (e : event) : bool := match e with SpecTrace.Eval _ _ _ _ _ => true | _ => false end.
Definition evals (evs : list event) : list event := filter is_eval evs.

Lemma adds_quiet p s1 xs evs : adds p s1 xs evs -> evals evs = [].
Proof. intros H. induction H; cbn; auto. Qed.
Lemma adds_keeps r cur s1 xs evs : adds (Some (r, cur)) s1 xs evs -> forall x, x <> r -> lookup (all (at_end s1 evs)) x = lookup (all s1) x.
Proof.
  intros H. remember (Some (r, cur)) as p eqn:EP. revert r cur EP. induction H as [x s1|r0 cur0 s1|r0 cur0 s1 x xs s s' evs E1 D1 D2 O H IH]; intros r cur EP y N; [discriminate|reflexivity|]. injection EP as -> ->.
  change (Put r (DVec (cur ++ [x])) s s' :: evs) with ([Put r (DVec (cur ++ [x])) s s'] ++ evs). rewrite at_end_app. cbn [at_end rev app after].
  change (at_end s1 [Put r (DVec (cur ++ [x])) s s']) with s'. rewrite (IH _ _ eq_refl) by exact N. rewrite O by exact N. now rewrite E1.
Qed.
Lemma skipn_nth (l : list ref) i x : nth_error l i = Some x -> skipn i l = x :: skipn (S i) l.
Proof. revert i. induction l as [|y l IH]; intros [|i] E; try discriminate; [now injection E as <-|]. cbn [skipn]. now rewrite (IH i E). Qed.
Lemma evals_app a b : evals (a ++ b) = evals a ++ evals b.
Proof. apply filter_app. Qed.
Section Flat.
Context (env : ref) (s : vm) (l : list ref) (NV : forall x v, In x l -> data_at s x <> Some (DVec v)).
Lemma piece_flat res s1 i j evs s2 xs : piece env res (given l) s1 i j evs s2 xs -> (forall x, In x l -> data_at s1 x = data_at s x) ->
  (all s2 = all (at_end s1 evs) \/ S i = List.length l) /\ forall evs' out, flat env s (skipn j l) evs' out -> flat env s (skipn i l) (evals evs ++ evs') (xs ++ out).
Proof.
  assert (EL : forall i x, element (given l) s1 i x -> nth_error l i = Some x /\ In x l) by (intros i' x (l' & [= <-] & N); split; [exact N|eapply nth_error_In; eauto]).
  intros P K. inversion P as [? ? ? ? x t r d ? E D CT (l' & EL' & LN) NR DR ER|? ? ? ? x y w sa sb ? E D NL E2 EA|? ? ? ? x y w ws sa sb ? E D NL E2 DW EA NN|? ? ? ? x y w sa sb ? E D NL E2 NW EA|? ? ? ? x t t' k w sa sb ? E D N1 N2 TC NK DK EA|? ? ? ? x lx b s' ? out ? E D NB NR SU DB F DO EA|? ? ? ? x d ? E D N1 N2 EA]; subst;
    destruct (EL _ _ E) as (NX & IX); rewrite (K x IX) in D; rewrite (skipn_nth _ _ _ NX).
  - injection EL' as <-. split; [auto|]. intros evs' out F. rewrite skipn_all2 in F |- * by lia. inversion F; subst. eapply flat_missing; [|exact DR|exact ER]. destruct CT as [->| ->]; auto.
  - destruct (EL _ _ E2) as (NY & IY). rewrite (skipn_nth _ _ _ NY). split; [left; exact EA|]. intros evs' out F. now apply flat_value.
  - destruct (EL _ _ E2) as (NY & IY). rewrite (skipn_nth _ _ _ NY). split; [left; exact EA|]. intros evs' out F. now apply flat_elements.
  - destruct (EL _ _ E2) as (NY & IY). rewrite (skipn_nth _ _ _ NY). split; [left; exact EA|]. intros evs' out F. now apply flat_element.
  - split; [left; exact EA|]. intros evs' out F. now apply (flat_name env s x _ t t').
  - now elim (NV x lx IX).
  - split; [left; exact EA|]. intros evs' out F. apply (flat_copy env s x _ d); [exact D| |exact F]. intros (t & ->). now apply (N1 t).
Qed.
Lemma fill_flat r : ~ In r l -> forall src s1 i n cur evs out, fill env src r s1 i n cur evs out -> src = given l -> n = List.length l -> (forall x, In x l -> data_at s1 x = data_at s x) ->
  (forall e x, In e evs -> is_eval e = true -> In x l -> data_at (after e) x = data_at s x) -> exists out', out = cur ++ out' /\ flat env s (skipn i l) (evals evs) out'.
Proof.
  intros NR src s1 i n cur evs out F. induction F as [src r s1 i j n cur evs s2 xs evs' P AD LE|src r s1 i j n cur evs s2 xs evs' rest out P AD LT F IH]; intros -> -> K EK.
  - exists xs. split; [reflexivity|]. destruct (piece_flat _ _ _ _ _ _ _ P K) as (_ & W). rewrite evals_app, (adds_quiet _ _ _ _ AD). rewrite <- (app_nil_r xs). apply W. rewrite skipn_all2 by exact LE. constructor.
  - destruct (piece_flat _ _ _ _ _ _ _ P K) as (EA & W). pose proof (piece_later _ _ _ _ _ _ _ _ _ P) as LJ. destruct EA as [EA|EA]; [|lia].
    destruct IH as (out' & -> & FL); [exact NR|reflexivity|reflexivity| | |].
    + intros x J. unfold data_at. rewrite at_end_app.
      assert (N : x <> r) by (intros ->; now apply NR). assert (E2 : lookup (all (at_end (at_end s1 evs) evs')) x = lookup (all (at_end s1 evs)) x).
      { pose proof (adds_keeps _ _ _ _ _ AD x N) as AK. rewrite EA in AK. destruct evs' as [|e t]; [reflexivity|]. now rewrite (at_end_any _ s2) by discriminate. }
      rewrite E2. change (data_at (at_end s1 evs) x = data_at s x).
      unfold at_end. destruct (rev evs) as [|e t] eqn:ER; [now apply K|].
      assert (IE : In e evs) by (apply in_rev; rewrite ER; now left). apply EK; [apply in_or_app; auto| |exact J].
      inversion P; subst; cbn in IE; try (now destruct IE); try (destruct IE as [<-|[]]; reflexivity).
      exfalso. destruct H as (l' & [= <-] & NX). eapply (NV x0); [eapply nth_error_In; exact NX|rewrite <- K; [exact H0|eapply nth_error_In; exact NX]].
    + intros e x J. apply EK. apply in_or_app. right. apply in_or_app. now right.
    + exists (xs ++ out'). split; [now rewrite app_assoc|]. rewrite !evals_app, (adds_quiet _ _ _ _ AD). cbn [app]. now apply W.
Qed.
End Flat.
(** The property, for the forms of a template that are not vectors and are not
    changed by what is evaluated.  The result is new. *)
Corollary C105_flat : forall env s l evs r od, template_run env s l evs r od -> (2 <= List.length l)%nat -> (forall x, In x l -> x < nextId s) ->
  (forall x v, In x l -> data_at s x <> Some (DVec v)) -> (forall e x, In e evs -> is_eval e = true -> In x l -> data_at (after e) x = data_at s x) ->
  exists out, od = Some (DVec out) /\ flat env s l (evals evs) out /\ nextId s <= r.
Proof.
  intros env s l evs r od (s' & K & T) LN LT NV EK. inversion T as [x j evs0 s1 r0 P|l0 r0 evs0 out G1 G2 G3 F]; subst; [cbn in LN; lia|].
  assert (NR : ~ In r l) by (intros J; apply LT in J; lia).
  destruct (fill_flat env s l NV r NR _ _ _ _ _ _ _ F eq_refl eq_refl) as (out' & -> & FL); [| |exists out'; auto].
  - intros x J. unfold data_at. rewrite K by (now apply re_root). reflexivity.
  - exact EK.
Qed.
Print Assumptions C105_flat.
(** (template ,y x) with the values 4 and 5 at y and x: the hypotheses are met. *)
Example C105_flat_witness : exists env s l evs r od, template_run env s l evs r od /\ (2 <= List.length l)%nat /\ (forall x, In x l -> x < nextId s) /\
  (forall x v, In x l -> data_at s x <> Some (DVec v)) /\ (forall e x, In e evs -> is_eval e = true -> In x l -> data_at (after e) x = data_at s x) /\
  exists w, od = Some (DVec [w; 3]) /\ List.length (evals evs) = 1%nat /\ w <> 3.
Proof.
  set (c := fun d => mkCell d None None false 0).
  set (b := empty_vm 100 (fun n => n) (fun _ => [])).
  set (h0 := [(1, c (DSym (asc ","))); (2, c (DInt 4)); (3, c (DInt 5))]).
  set (hr := fun v => with_all b ((9, c (DVec v)) :: h0)).
  set (s := mkVm h0 9 (nextAddr b) [] 0 (numAlloc b) (gcLimit b) (preventGc b) None false (exitCode b) (readably b) (output b) (addrs b) (msgs b) (outside b)).
  exists 0, s, [1; 2; 3], ([SpecTrace.Eval 2 0 (hr []) (Some 2) (hr [])] ++ [Put 9 (DVec [2]) (hr []) (hr [2])] ++ [] ++ [Put 9 (DVec [2; 3]) (hr [2]) (hr [2; 3])]), 9, (Some (DVec [2; 3])).
  split; [|split; [cbn; lia|split; [|split; [|split]]]].
  - exists (hr []). split.
    + intros x R. assert (K : x = 1 \/ x = 2 \/ x = 3).
      { induction R as [x J|x cx y R IHR L F]; [cbn in J; intuition congruence|]. exfalso. destruct IHR as [->|[->| ->]]; cbn in L; injection L as <-; inversion F; cbn in *; try congruence; try discriminate; try tauto; destruct H; congruence. }
      destruct K as [->|[->| ->]]; reflexivity.
    + apply template_more; [cbn; lia|cbn; lia|reflexivity|].
      eapply (fill_next 0 _ 9 (hr []) 0%nat 2%nat 3%nat [] _ (hr []) [2] [Put 9 (DVec [2]) (hr []) (hr [2])]); [| |lia|].
      * eapply (piece_value 0 _ _ _ 0%nat 1 2 2); [exists [1;2;3]; auto|reflexivity| |exists [1;2;3]; auto|reflexivity]. intros (l' & [= <-] & N). discriminate N.
      * econstructor; [reflexivity|reflexivity|reflexivity| |constructor]. intros y N. unfold hr. cbn [all with_all lookup]. destruct (N.eqb_spec 9 y); [congruence|reflexivity].
      * eapply (fill_last 0 _ 9 _ 2%nat 3%nat 3%nat [2] [] (hr [2]) [3] _); [| |lia].
        -- eapply (piece_other 0 _ _ _ 2%nat 3 (DInt 5)); [exists [1;2;3]; auto|reflexivity|discriminate|discriminate|reflexivity].
        -- econstructor; [reflexivity|reflexivity|reflexivity| |constructor]. intros y N. unfold hr. cbn [all with_all lookup]. destruct (N.eqb_spec 9 y); [congruence|reflexivity].
  - intros x [<-|[<-|[<-|[]]]]; cbn; lia.
  - intros x v [<-|[<-|[<-|[]]]]; discriminate.
  - intros e x [<-|[<-|[<-|[]]]] IE J; try discriminate IE. destruct J as [<-|[<-|[<-|[]]]]; reflexivity.
  - exists 2. repeat split. discriminate.
Qed.
(** A template without commas and vectors holds the forms themselves, and nothing is evaluated. *)
Corollary C105_copies : forall env s l evs out, flat env s l evs out -> (forall x d, In x l -> data_at s x = Some d -> ~ comma d) -> evs = [] /\ out = l.
Proof.
  assert (CC : comma (DSym (asc ",")) /\ comma (DSym (asc ",@"))) by (split; eexists; reflexivity).
  intros env s l evs out H. induction H as [|x l d evs out D N H IH|c y l w sa sb evs out D H IH|c y l w ws sa sb evs out D DW H IH|c y l w sa sb evs out D NW H IH|x l t t' k w sa sb evs out D N1 N2 TC DK H IH|c r s' d D DR ER]; intros NC; [easy| | | | | |].
  - destruct IH as (-> & ->); [|easy]. intros z dz J. apply NC. now right.
  - now elim (NC c _ (or_introl eq_refl) D).
  - now elim (NC c _ (or_introl eq_refl) D).
  - now elim (NC c _ (or_introl eq_refl) D).
  - elim (NC x _ (or_introl eq_refl) D). now exists t.
  - destruct D as [D|D]; now elim (NC c _ (or_introl eq_refl) D).
Qed.
Print Assumptions C105_copies.
(** One form. *)
Corollary C105_one : forall env s x evs r od d, template_run env s [x] evs r od -> data_at s x = Some d -> ~ comma d -> (forall v, d <> DVec v) -> evs = [] /\ r = x /\ od = Some d.
Proof.
  intros env s x evs r od d (s' & K & T) D NC NV. assert (D' : data_at s' x = Some d) by (unfold data_at; rewrite K by (apply re_root; now left); exact D).
  inversion T as [y j evs0 s1 r0 P|l0 r0 evs0 out G1 G2 G3 F]; subst; [|cbn in G1; lia].
  inversion P; subst; match goal with E : element (given [x]) s' 0 ?z |- _ => destruct E as (l' & [= <-] & NX); injection NX as <- end;
    try match goal with E : data_at s' x = Some _, E2 : _ |- _ => rewrite D' in E; injection E as -> end.
  all: try (elim NC; eexists; reflexivity); try (now elim (NV _ eq_refl)).
  all: try (match goal with C : _ \/ _ |- _ => destruct C as [->| ->]; elim NC; eexists; reflexivity end).
  split; [reflexivity|]. split; [reflexivity|]. unfold data_at. match goal with E : all s1 = all s' |- _ => rewrite E end. exact D'.
Qed.
Print Assumptions C105_one.
