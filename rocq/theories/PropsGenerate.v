(** C103, C104: generate.  See SpecGenerate.v. *)
From Coq Require Import NArith ZArith Bool Lia Arith String List.
From Verif Require Import Base HMap Heap SpecHeap ValueOps Env Eval Read Boot Run SpecTrace SpecSpecial SpecForm SpecGenerate SpecialForms GenerateProofs PropsValue.
Import ListNotations.
Local Open Scope N_scope.
Local Open Scope string_scope.
Local Open Scope list_scope.

(** ** C103 *)

(** Every generate form does what [generate_run] says: the forms are evaluated in
    this order and nothing else happens. *)
Theorem C103_generate : special_form SpGenerate (fun _ env _ => generate_run env).
Proof. exact generate_forms. Qed.
Print Assumptions C103_generate.
Example C103_generate_witness : form_calls 50 SpGenerate (Some (DStr [97; 97; 97])) /\ (exists m, form_calls 50 SpGenerate (Some (DErr m 0))) /\ form_calls 50 SpGenerate (Some (DStr [])).
Proof.
  split; [|split].
  - apply (text_case _ "(define x as |a| [x])" "(generate 'string of {D+3} x)"). vm_compute. reflexivity.
  - eexists. apply (text_case _ "(define x as |a| [x])" "(generate 'list of {D+3} x)"). vm_compute. reflexivity.
  - apply (text_case _ "(define x as |a| [x])" "(generate 'string of {D+0} x)"). vm_compute. reflexivity.
Qed.

(** A value that is not an operator: exactly as many elements as the count says,
    each the very value. *)
Corollary C103_same_value : forall res x n evs d, same_rounds res x n (DVec []) evs d -> d = DVec (repeat x n).
Proof.
  assert (K : forall res x n d evs d', same_rounds res x n d evs d' -> forall l, d = DVec l -> d' = DVec (l ++ repeat x n)).
  { intros res x n d evs d' H. induction H as [d|n d e d1 evs d2 D A H IH]; intros l ->; [now rewrite app_nil_r|].
    destruct A as [cur s s' E|cur c t s s' E F]; cbn in D; rewrite E in D; [|discriminate]. injection D as ->. rewrite (IH _ eq_refl), <- app_assoc. reflexivity. }
  intros res x n evs d H. exact (K _ _ _ _ _ _ H [] eq_refl).
Qed.
Print Assumptions C103_same_value.
(** A string gets the first character of the character value each time. *)
Corollary C103_same_character : forall res x n evs d, same_rounds res x n (DStr []) evs d ->
  exists t, d = DStr t /\ List.length t = n /\ forall c s, In c t -> In s (map before evs) -> (forall e e', In e evs -> In e' evs -> data_at (before e) x = data_at (before e') x) ->
    exists t', data_at s x = Some (DChar (c :: t')).
Proof.
  assert (K : forall res x n d evs d', same_rounds res x n d evs d' -> forall l, d = DStr l -> exists t, d' = DStr (l ++ t) /\ List.length t = n /\
    forall c, In c t -> exists e t', In e evs /\ data_at (before e) x = Some (DChar (c :: t'))).
  { intros res x n d evs d' H. induction H as [d|n d e d1 evs d2 D A H IH]; intros l ->; [exists []; rewrite app_nil_r; easy|].
    destruct A as [cur s s' E|cur c t s s' E F]; cbn in D; rewrite E in D; [discriminate|]. injection D as ->. destruct (IH _ eq_refl) as (t2 & -> & L & W).
    exists (c :: t2). rewrite <- app_assoc. split; [reflexivity|]. split; [cbn; now rewrite L|]. intros c' [<-|J].
    - eexists _, t. split; [now left|]. exact F.
    - destruct (W c' J) as (e & t' & I & X). exists e, t'. split; [now right|exact X]. }
  intros res x n evs d H. destruct (K _ _ _ _ _ _ H [] eq_refl) as (t & -> & L & W). exists t. split; [reflexivity|]. split; [exact L|]. intros c s J JS SM.
  destruct (W c J) as (e & t' & I & X). apply in_map_iff in JS as (e' & <- & I'). exists t'. rewrite (SM e' e I' I). exact X.
Qed.
Print Assumptions C103_same_character.
(** An operator whose calls leave the result alone: one call for each index, and
    the result has the values of the calls in order. *)
Corollary C103_calls : forall env gen res n evs d, call_rounds env gen res n 0 (DVec []) evs d -> Forall (spares res) evs ->
  d = DVec (values evs) /\ List.length (values evs) = n.
Proof.
  assert (K : forall env gen res n i d evs d', call_rounds env gen res n i d evs d' -> Forall (spares res) evs -> (i <= n)%nat -> forall l, d = DVec l ->
    d' = DVec (l ++ values evs) /\ List.length (values evs) = (n - i)%nat).
  { intros env gen res n i d evs d' H. induction H as [d|i d form s x s' p d1 evs d2 LT D C B A H IH]; intros F LE l ->; [rewrite app_nil_r, Nat.sub_diag; easy|].
    inversion F as [|e1 r1 SP F1]; subst. inversion F1 as [|e2 r2 _ F2]; subst. cbn in SP. rewrite D in SP.
    destruct A as [cur s1 s2 E|cur c t s1 s2 E FX]; cbn in SP; rewrite E in SP; [|discriminate]. injection SP as ->.
    destruct (IH F2 ltac:(lia) _ eq_refl) as (-> & L). cbn [values]. rewrite <- app_assoc. split; [reflexivity|]. cbn [List.length]. lia. }
  intros env gen res n evs d H F. destruct (K _ _ _ _ _ _ _ _ H F ltac:(lia) [] eq_refl) as (-> & L). split; [reflexivity|lia].
Qed.
Print Assumptions C103_calls.
(** The calls are one for each of 0, 1, ..., n - 1 in this order. *)
Inductive numbered (gen res : ref) : nat -> list event -> Prop :=
| numbered_end i : numbered gen res i []
| numbered_next i form env s o s' evs : calls_with gen res i s form -> numbered gen res (S i) evs -> numbered gen res i (SpecTrace.Eval form env s o s' :: evs)
| numbered_put i r d s s' evs : numbered gen res i evs -> numbered gen res i (SpecTrace.Put r d s s' :: evs).
Corollary C103_indices : forall env gen res n d evs d', call_rounds env gen res n 0 d evs d' -> numbered gen res 0 evs /\ List.length (values evs) = n.
Proof.
  assert (K : forall env gen res n i d evs d', call_rounds env gen res n i d evs d' -> numbered gen res i evs /\ (i + List.length (values evs) = n)%nat).
  { intros env gen res n i d evs d' H. induction H as [d|i d form s x s' p d1 evs d2 LT D C B A H (N & L)]; [split; [constructor|cbn; lia]|].
    split; [constructor; [exact C|]|]; destruct A; cbn [values List.length]; try lia; constructor; exact N. }
  intros env gen res n d evs d' H. destruct (K _ _ _ _ _ _ _ _ H). split; [assumption|lia].
Qed.
Print Assumptions C103_indices.
Example C103_calls_witness : exists l, form_calls 50 SpGenerate (Some (DVec l)) /\ List.length l = 3%nat.
Proof.
  eexists. split; [apply (text_case _ "(define f as (fn (v i) (* i i)) [f] '(v [v] i [i]) howto-no)" "(generate 'vector of {D+3} f)"); vm_compute; reflexivity|reflexivity].
Qed.
(** As stated, for every operator, the number of elements is the count: refuted,
    as the operator is given the result itself and may change it. *)
Theorem C103_refuted : exists l, form_calls 50 SpGenerate (Some (DVec l)) /\ List.length l = 4%nat.
Proof.
  eexists. split; [apply (text_case _ "(define f as (fn (v i) (+= v i)) [f] '(v [v] i [i]) howto-no)" "(generate 'vector of {D+2} f)"); vm_compute; reflexivity|reflexivity].
Qed.
Print Assumptions C103_refuted.

(** ** C104 *)

(** With on: refuted.  Vectors of different lengths do not work (the program is
    ended by the check that a pointer is not NULL, which the model does not tell
    from the use of NULL: [need] in Env.v), and a string as the result aborts. *)
Theorem C104_refuted :
  run_text machine "(generate 'vector mapping + on '({D+1} {D+2}) '({D+3}))" = Undef /\
  run_text machine "(generate 'string mapping (fn (c) c) on '(|a| |b|))" = Abort.
Proof. split; vm_compute; reflexivity. Qed.
Print Assumptions C104_refuted.
(** What does not abort: the result has the values of the calls in order, the
    i-th call being the function with the i-th elements of the vectors ... *)
Corollary C104_values_partial : forall env f vs n evs out, map_rounds env f vs n 0 evs out -> out = values evs /\ List.length out = n.
Proof.
  assert (K : forall env f vs n i evs out, map_rounds env f vs n i evs out -> out = values evs /\ (i + List.length out = n)%nat).
  { intros env f vs n i evs out H. induction H as [|i xs form s x s' evs out LT D F H (IH & L)]; [split; [reflexivity|cbn; lia]|]. cbn [values List.length]. split; [now rewrite IH|lia]. }
  intros env f vs n evs out H. destruct (K _ _ _ _ _ _ _ H). split; [assumption|lia].
Qed.
Print Assumptions C104_values_partial.
Inductive zipped (env f : ref) (vs : list ref) : nat -> list event -> Prop :=
| zipped_end i : zipped env f vs i []
| zipped_next i xs form s x s' evs : data_at s form = Some (DVec (f :: xs)) -> Forall2 (has_element s i) vs xs -> zipped env f vs (S i) evs ->
    zipped env f vs i (SpecTrace.Eval form env s (Some x) s' :: evs).
Corollary C104_calls_partial : forall env f vs n evs out, map_rounds env f vs n 0 evs out -> zipped env f vs 0 evs.
Proof.
  assert (K : forall env f vs n i evs out, map_rounds env f vs n i evs out -> zipped env f vs i evs).
  { intros env f vs n i evs out H. induction H; [constructor|econstructor; eauto]. }
  eauto.
Qed.
Print Assumptions C104_calls_partial.
(** ... and the number of calls is the greatest of the lengths of the values of
    the forms after on, which are evaluated once each, in order. *)
Corollary C104_length_partial : forall env s xs evs vs m, vectors_run env s xs 0 evs (Some (vs, m)) ->
  exists ls, Forall2 (fun e (p : ref * (ref * list ref)) => gives e (fst p) env (fst (snd p)) (DVec (snd (snd p)))) evs (combine xs (combine vs ls)) /\
    List.length vs = List.length xs /\ List.length ls = List.length xs /\ m = fold_right Nat.max O (map (@List.length ref) ls).
Proof.
  assert (K : forall env s xs m0 evs o, vectors_run env s xs m0 evs o -> forall vs m, o = Some (vs, m) ->
    exists ls, Forall2 (fun e (p : ref * (ref * list ref)) => gives e (fst p) env (fst (snd p)) (DVec (snd (snd p)))) evs (combine xs (combine vs ls)) /\
    List.length vs = List.length xs /\ List.length ls = List.length xs /\ m = Nat.max m0 (fold_right Nat.max O (map (@List.length ref) ls))).
  { intros env s xs m0 evs o H. induction H as [s m0|s x xs m0 NB|s x xs m0 l e v lv evs vs m' D G H IH|s x xs m0 l e v lv evs D G H IH]; intros ws m [= <- <-].
    - exists []. repeat split; [constructor|cbn; lia].
    - destruct (IH vs m' eq_refl) as (ls & F & L1 & L2 & M). exists (lv :: ls). cbn [combine map fold_right List.length]. repeat split; try lia. constructor; [exact G|exact F]. }
  intros env s xs evs vs m H. destruct (K _ _ _ _ _ _ H vs m eq_refl) as (ls & F & L1 & L2 & M). exists ls. auto.
Qed.
Print Assumptions C104_length_partial.
Example C104_witness : exists l, form_calls 50 SpGenerate (Some (DVec l)) /\ List.length l = 2%nat.
Proof.
  eexists. split; [apply (text_case _ "" "(generate 'vector mapping + on '({D+1} {D+2}) '({D+3} {D+4}))"); vm_compute; reflexivity|reflexivity].
Qed.
