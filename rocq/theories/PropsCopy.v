(** C38: copies of values. *)
From Coq Require Import NArith ZArith Bool Lia Arith List String Permutation.
From Coq Require Import ZifyBool ZifyNat ZifyN.
From Verif Require Import Base OString HMap Heap SpecHeap GcProofs VmProofs ValueOps SpecValue ValueProofs Env Copy Builtins Specials Eval Boot Run SafeBase SafeRead SafeLib SafeBuiltins SpecTrace SpecForm TraceProofs SpecialProofs SpecialEval SpecCopy CopyProofs Checks.
Import ListNotations.
Local Open Scope N_scope.
Local Open Scope list_scope.

(** ** The copy the virtual machine makes of a value
    (octaspire_dern_vm_create_new_value_copy), of any value it can see: any
    graph of vectors, lists, queues, hash maps and atoms, with sharing, whenever
    collections of garbage may happen.  The keys of the hash maps are atoms, no
    two of one map equal (a map loses this only when a key is changed in place). *)
Theorem C38_deep_copy_partial : forall fuel v s w s',
  sane s -> reachable (all s) (stack s) v -> plain_maps (all s) v ->
  copy fuel v s = Ret (w, s') ->
  (* the copy holds what the value held, part by part, *)
  copied (all s) (all s') v w /\
  (* every value the machine could see is what it was, *)
  (forall x, reachable (all s) (stack s) x -> lookup (all s') x = lookup (all s) x) /\
  stack s' = stack s /\
  (* and every part of the copy is new. *)
  (forall x, reachable (all s') [w] x -> lookup (all s) x = None /\ ~ reachable (all s') (stack s') x).
Proof.
  intros fuel v s w s' SA RV PM E. apply sane_inv in SA.
  destruct (wp_ret_inv _ _ _ _ _ (copy_spec fuel [] s v SA RV PM) E) as (H & NX & C & F & _).
  assert (KE : forall x, reach s x -> lookup (all s') x = lookup (all s) x) by (intros x R; apply (a_same _ _ _ _ _ _ _ H); auto).
  pose proof (a_stack _ _ _ _ _ _ _ H) as ST. cbn [app] in ST.
  split; [exact C|]. split; [exact KE|]. split; [exact ST|]. intros x R. apply F in R.
  assert (NS : lookup (all s) x = None).
  { destruct (lookup (all s) x) as [c|] eqn:L; [|reflexivity]. apply (lookup_lt true [] s) in L; [lia|exact SA]. }
  split; [exact NS|]. intros RX. assert (RS : reach s x).
  { rewrite ST in RX. clear - RX KE. induction RX as [x I|r c x R IH L T]; [now apply re_root|]. eapply re_step; [exact IH| |exact T]. rewrite <- KE; auto. }
  assert (LT : x < nextId s).
  { destruct RS as [x I|r c x R0 L T]; [now apply (i_stack _ _ _ SA)|]. apply (i_refs _ _ _ SA r c x L). now left. }
  lia.
Qed.
Print Assumptions C38_deep_copy_partial.

(** Whatever happens to the rest of the heap later, the copy stays what it is as
    long as nothing is written to its own parts; and whatever happens to the parts
    of the copy, the value stays what it is. *)
Theorem C38_independent_partial : forall fuel v s w s' h,
  sane s -> reachable (all s) (stack s) v -> plain_maps (all s) v -> copy fuel v s = Ret (w, s') ->
  ((forall x, reachable (all s') [w] x -> lookup h x = lookup (all s') x) ->
     copied (all s) h v w /\ forall x, reachable h [w] x <-> reachable (all s') [w] x) /\
  ((forall x, ~ reachable (all s') [w] x -> lookup h x = lookup (all s') x) ->
     forall x, (reachable h [v] x <-> reachable (all s) [v] x) /\ (reachable (all s) [v] x -> lookup h x = lookup (all s) x)).
Proof.
  intros fuel v s w s' h SA RV PM E. destruct (C38_deep_copy_partial fuel v s w s' SA RV PM E) as (C & KE & ST & NW). split.
  - intros K. destruct (copied_kept (all s) (all s') (all s) h) as (T & _). split; [apply T; [exact C|easy|exact K]|].
    intros x. split; [now apply kept_reach|now apply kept_reach'].
  - intros K. assert (KV : kept (all s) h v).
    { intros x R. assert (RS : reachable (all s) (stack s) x) by (eapply reach_roots; eauto). rewrite K; [now apply KE|].
      intros RW. destruct (NW x RW) as (_ & N). apply N. rewrite ST. clear - RS KE.
      induction RS as [x I|r c x R IH L T]; [now apply re_root|]. eapply re_step; [exact IH| |exact T]. rewrite KE; auto. }
    intros x. split; [split; [now apply kept_reach|now apply kept_reach']|apply KV].
Qed.
Print Assumptions C38_independent_partial.

(** The copy is equal to the value by the comparison of the language, for the
    values C36 is about. *)
Lemma copied_denotes h h' : forall r w, copied h h' r w -> forall t, denotes h r t -> denotes h' w t.
Proof.
  assert (Z : forall l l', copied_all h h' l l' -> True -> forall ts, (forall r w, In r l -> copied h h' r w -> forall t, denotes h r t -> denotes h' w t) -> Forall2 (denotes h) l ts -> Forall2 (denotes h') l' ts).
  { intros l l' C _. induction C; intros ts IH F; inversion F; subst; constructor; [eapply IH; eauto; now left|]. apply IHC; [|assumption]. intros; eapply IH; eauto. now right. }
  assert (Y : forall n t, (height t < n)%nat -> forall r w, copied h h' r w -> denotes h r t -> denotes h' w t).
  { induction n as [|n IH]; intros t Ht r w C D; [lia|].
    assert (HL : forall ts l l', (list_max (map height ts) < n)%nat -> copied_all h h' l l' -> Forall2 (denotes h) l ts -> Forall2 (denotes h') l' ts).
    { induction ts as [|t1 ts IHt]; intros l l' Hn CA F; inversion F; subst; inversion CA; subst; constructor.
      - eapply IH; eauto. cbn in Hn. lia.
      - eapply IHt; eauto. cbn in Hn. unfold list_max in *. lia. }
    inversion C as [r0 c w0 c' L L' CD CO]; subst.
    inversion D; subst; match goal with A : lookup h r = Some c, B : lookup h r = Some ?k |- _ => rewrite A in B; injection B as -> end;
      match goal with A : cdata _ = _ |- _ => rewrite A in CD end; inversion CD; subst; try contradiction;
      try (econstructor; [exact L'|]; now symmetry).
    - eapply den_vec; [exact L'|symmetry; eassumption|]. eapply HL; eauto. cbn in Ht. lia.
    - eapply den_queue; [exact L'|symmetry; eassumption|]. eapply HL; eauto. cbn in Ht. lia.
    - eapply den_list; [exact L'|symmetry; eassumption|]. eapply HL; eauto. cbn in Ht. lia. }
  intros r w C t D. eapply Y; eauto.
Qed.
Theorem C38_copy_is_equal_partial : forall fuel v s w s' lo t n,
  sane s -> reachable (all s) (stack s) v -> plain_maps (all s) v -> copy fuel v s = Ret (w, s') ->
  denotes (all s) v t -> ordinary lo t -> (height t < n)%nat ->
  denotes (all s') v t /\ denotes (all s') w t /\ vequal n (all s') v w = Ret true /\ v <> w.
Proof.
  intros fuel v s w s' lo t n SA RV PM E D O HN. destruct (C38_deep_copy_partial fuel v s w s' SA RV PM E) as (C & KE & ST & NW).
  assert (DW : denotes (all s') w t) by (eapply copied_denotes; eauto).
  assert (DV : denotes (all s') v t).
  { revert D. assert (K : kept (all s) (all s') v) by (intros x R; apply KE; eapply reach_roots; eauto). clear - K. revert t v K.
    assert (Y : forall n t, (height t < n)%nat -> forall v, kept (all s) (all s') v -> denotes (all s) v t -> denotes (all s') v t).
    { induction n as [|n IH]; intros t Ht v K D; [lia|].
      assert (HL : forall ts l, (list_max (map height ts) < n)%nat -> (forall y, In y l -> kept (all s) (all s') y) -> Forall2 (denotes (all s)) l ts -> Forall2 (denotes (all s')) l ts).
      { induction ts as [|t1 ts IHt]; intros l Hn KL F; inversion F; subst; constructor.
        - apply IH; [cbn in Hn; lia|apply KL; now left|assumption].
        - apply IHt; [cbn in Hn; unfold list_max in *; lia|intros; apply KL; now right|assumption]. }
      inversion D; subst; match goal with A : lookup _ v = Some _ |- _ => pose proof A as A'; rewrite <- (K v (reach_here _ _)) in A' end;
        try (econstructor; [exact A'|assumption]).
      all: econstructor; [exact A'|eassumption|]. all: apply HL; [cbn in Ht; lia| |assumption]. all: intros y I; eapply kept_child; [exact K|eassumption|]; apply refers_iff; right.
      all: match goal with A : cdata _ = _ |- _ => rewrite A end; exact I. }
    intros t v K. eapply Y; eauto. }
  split; [exact DV|]. split; [exact DW|]. split.
  - unfold vequal. destruct (vcompare_sign (all s') lo t t v w n DV DW O O HN) as (z & EZ & S). rewrite EZ. cbn [obind].
    rewrite tree_order_refl in S. apply Z.compare_eq in S. now subst.
  - intros <-. destruct (NW v (reach_here _ _)) as (N & _). inversion D; congruence.
Qed.
Print Assumptions C38_copy_is_equal_partial.

(** ** The builtin copy, given one value: vectors are copied with all their
    parts, strings and integers are copied, and for every other value the result is
    an error (so the claim fails for those: refuted below). *)
Theorem C38_copy_builtin_partial : forall fuel ev a env v s w s' d,
  sane s -> In a (stack s) -> data_at s a = Some (DVec [v]) -> data_at s v = Some d -> plain_maps (all s) v ->
  builtin_call fuel ev BiCopy a env s = Ret (w, s') ->
  match d with
  | DVec l => exists l', data_at s' w = Some (DVec l') /\ copied_all (all s) (all s') l l'
  | DStr _ | DInt _ => data_at s' w = Some d
  | _ => exists msg line, data_at s' w = Some (DErr msg line)
  end /\
  (forall x, reachable (all s) (stack s) x -> lookup (all s') x = lookup (all s) x) /\
  (forall x, reachable (all s') [w] x -> lookup (all s) x = None).
Proof.
  intros fuel ev a env v s w s' d SA IA DA DV PM E. apply sane_inv in SA. 
  unfold data_at in DA, DV. destruct (lookup (all s) a) as [ca|] eqn:LA; [|discriminate]. injection DA as EA.
  destruct (lookup (all s) v) as [cv|] eqn:LV; [|discriminate]. injection DV as EV.
  assert (RA : reach s a) by now apply re_root.
  assert (RV : reach s v) by (eapply re_step; [exact RA|exact LA|]; apply refers_iff; right; rewrite EA; now left).
  pose proof (at_start true true [] s SA) as H.
  assert (W : wp (b_copy fuel ev a env) (fun w s' => At true [] s [] (eq w) s' /\ nextId s <= w /\ 
      match d with
      | DVec l => exists l', data_at s' w = Some (DVec l') /\ copied_all (all s) (all s') l l'
      | DStr _ | DInt _ => data_at s' w = Some d
      | _ => exists msg line, data_at s' w = Some (DErr msg line)
      end /\ forall y, reachable (all s') [w] y -> nextId s <= y) s).
  { unfold b_copy. apply wp_bind. eapply wp_is. { unfold vec_of, get, bind, get_cell. rewrite LA. cbn. rewrite EA. reflexivity. } cbn [fst snd].
    apply wp_bind. eapply wp_is. { unfold get, bind, get_cell. rewrite LV. cbn. reflexivity. } cbn [fst snd]. rewrite EV.
    assert (AL : forall d0 w s', (forall y, ~ dref d0 y) -> At true [] s [] (eq w) s' -> allocated true [] s d0 w s' ->
      At true [] s [] (eq w) s' /\ nextId s <= w /\ data_at s' w = Some d0 /\ forall y, reachable (all s') [w] y -> nextId s <= y).
    { intros d0 w0 s0 ND H0 [_ O _ (ad & L) _]. split; [exact H0|]. split; [exact O|]. split; [unfold data_at; now rewrite L|].
      intros y R. destruct (reach_inv _ _ _ _ L R) as [->|(z & F & _)]; [exact O|]. apply refers_iff in F as [F|F]; cbn in F; [discriminate|now apply ND in F]. }
    assert (ER : wp new_error (fun w s' => At true [] s [] (eq w) s' /\ nextId s <= w /\ (exists msg line, data_at s' w = Some (DErr msg line)) /\ forall y, reachable (all s') [w] y -> nextId s <= y) s).
    { unfold new_error. apply (r_alloc_gen true true [] s (fun s => DErr (msgs s (nextAddr s)) 0) [] _ _ _ H); [easy|discriminate|].
      intros r s1 s2 H1 A1 _. destruct (AL (DErr (msgs s2 (nextAddr s2)) 0) r s1) as (A & B & C & D); [easy|exact H1|exact A1|]. eauto 7. }
    destruct d as [| |z| |t| | | |l| | | | | | | | |]; try exact ER.
    - apply (r_alloc true true [] s (DInt z) [] _ _ _ H); [easy|discriminate|]. intros r s1 H1 A1 _. now apply AL.
    - apply (r_alloc true true [] s (DStr t) [] _ _ _ H); [easy|discriminate|]. intros r s1 H1 A1 _. now apply AL.
    - apply wp_bind, (r_alloc true true [] s (DVec []) [] _ _ _ H); [easy|discriminate|]. clear H. intros x s1 H A1 MX.
      assert (OX : nextId s <= x) by (now apply MX). assert (B : building x (DVec []) None s1) by (apply alloc_building; [intros ? []|apply (al_cell _ _ _ _ _ _ A1)]).
      apply wp_bind, (at_push [] s x [] _ _ _ H); [has|]. clear H. intros s2 H E2 _ _.
      apply wp_bind. eapply wp_is. { unfold vec_of, get, bind, get_cell. rewrite (a_same _ _ _ _ _ _ _ H) by auto. rewrite LV. cbn. rewrite EV. reflexivity. } cbn [fst snd].
      apply wp_bind. apply (wp_mono true _ (fun _ s' => seq_so_far [] s DVec x None l s')).
      { apply (copy_seq fuel (copy_spec fuel) [] s vec_push DVec x None is_seq_push OX ltac:(easy) l []).
        - intros y I. assert (F : refers cv y) by (apply refers_iff; right; rewrite EV; exact I). split; [eapply re_step; eauto|eapply plain_maps_child; eauto].
        - split; [eapply at_weaken; [exact H|easy]|]. exists [], None. split; [unfold building; rewrite E2; exact B|split; constructor]. }
      clear s2 H E2 B A1 s1. intros _ s3 (H & l' & doc & (cx & L3 & E3 & O3 & F3) & C & _).
      apply wp_bind, (at_pop [] s x [] _ _ _ H). clear H. intros s4 H A4. apply wp_ret.
      split; [eapply at_eq; [exact H|]; left; split; [reflexivity|easy]|]. split; [exact OX|]. unfold data_at. rewrite A4. split.
      + exists l'. rewrite L3. cbn. rewrite E3. auto.
      + intros y R. destruct (reach_inv _ _ _ _ L3 R) as [->|(z & F & RZ)]; [exact OX|]. apply (F3 z y) in F; [lia|exact RZ]. }
  destruct (wp_ret_inv _ _ _ _ _ W E) as (H1 & O & R & F). split; [exact R|]. split.
  - intros x RX. apply (a_same _ _ _ _ _ _ _ H1). auto.
  - intros x RX. apply F in RX. destruct (lookup (all s) x) as [c|] eqn:L; [|reflexivity]. apply (lookup_lt true [] s) in L; [lia|exact SA].
Qed.
Print Assumptions C38_copy_builtin_partial.
(** A machine with a vector that holds a vector (with one element twice) and a
    hash map from a string to that vector; garbage is collected at every
    allocation. *)
Definition ex_cell (d : data) : cell := mkCell d None None false 0.
Definition ex_map : hmap ref ref := Eval vm_compute in
  match obind (cell_hash (ex_cell (DStr (asc "a")))) (fun hk => map_put (fun _ _ => false) map_new hk 2 3) with Ret m => m | _ => map_new end.
Definition ex_vm : vm :=
  mkVm [(0, ex_cell (DEnv [] None)); (1, ex_cell (DInt 7)); (2, mkCell (DStr (asc "a")) (Some 1) None false 0); (3, ex_cell (DVec [1; 2; 1]));
        (4, ex_cell (DMap ex_map)); (5, ex_cell (DVec [3; 4])); (6, ex_cell (DVec [5]))]
       7 7 [6; 0] 0 7 1 false None false 0 true [] (fun n => n) (fun _ => []) nothing_outside.
Example ex_sane : sane ex_vm. Proof. apply checked_sane. vm_compute. reflexivity. Qed.
Example ex_plain : plain_maps (all ex_vm) 5.
Proof.
  intros x c m _ L E. apply (lookup_in _ _ _ (proj1 (sane_tidy _ ex_sane))) in L. unfold ex_vm, all in L.
  repeat (destruct L as [L|L]; [injection L as <- <-; try discriminate E|]); [|destruct L].
  injection E as <-. split.
  - intros e I. assert (e = mkElem (ehash e) 2 [3]) as -> by (vm_compute in I; destruct I as [<-|[]]; reflexivity). now exists (mkCell (DStr (asc "a")) (Some 1) None false 0).
  - assert (exists e, List.concat (buckets ex_map) = [e]) as (e & ->) by (vm_compute; eauto). repeat constructor.
Qed.
Example ex_reachable : reachable (all ex_vm) (stack ex_vm) 5.
Proof. eapply (re_step _ _ 6 (ex_cell (DVec [5]))); [apply re_root; now left|reflexivity|]. eapply r_vec; [reflexivity|now left]. Qed.
Example ex_copy : exists s', copy 6 5 ex_vm = Ret (7, s') /\ map fst (all s') <> map fst (all ex_vm).
Proof. eexists. split; [vm_compute; reflexivity|]. vm_compute. discriminate. Qed.
Example ex_copy_builtin : exists s', builtin_call 6 (fun _ _ => abort) BiCopy 6 0 ex_vm = Ret (7, s') /\ data_at ex_vm 6 = Some (DVec [5]) /\ data_at ex_vm 5 = Some (DVec [3; 4]) /\ In 6 (stack ex_vm).
Proof. eexists. split; [vm_compute; reflexivity|]. repeat split. now left. Qed.
Example ex_denotes : denotes (all ex_vm) 3 (TVec [TInt 7; TStr (asc "a"); TInt 7]) /\ ordinary 0 (TVec [TInt 7; TStr (asc "a"); TInt 7]).
Proof.
  split.
  - eapply den_vec; [reflexivity|reflexivity|].
    constructor; [eapply den_int; reflexivity|]. constructor; [eapply den_str; reflexivity|]. constructor; [eapply den_int; reflexivity|constructor].
  - split; [cbn; unfold INT32_MAX; lia|]. repeat split; try (unfold INT32_MAX; lia).
    + apply Forall_forall. intros x [<-|[]]. unfold SpecText.scalar. cbn. lia.
    + intros [J|[]]. discriminate J.
Qed.

(** ** Where the claim fails *)

(** Hash maps, queues, lists, reals, characters, booleans and functions are not
    copied by the builtin. *)
Theorem C38_copy_is_an_error_refuted :
  forallb (fun t => match value_of_text t with Ret (Some (DErr _ _)) => true | _ => false end)
    ["(copy (hash-map |a| {D+1}))"; "(copy (queue {D+1}))"; "(copy (list {D+1}))"; "(copy |a|)"; "(copy true)"; "(copy copy)"]%string = true.
Proof. vm_compute. reflexivity. Qed.
Print Assumptions C38_copy_is_an_error_refuted.
(** A vector with a function in it cannot be copied: the process crashes (a NULL
    pointer is dereferenced). *)
Theorem C38_copy_of_function_refuted : value_of_text "(copy (vector (fn () nil)))" = Undef.
Proof. vm_compute. reflexivity. Qed.
Print Assumptions C38_copy_of_function_refuted.
