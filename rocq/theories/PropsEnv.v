(** C49-C51: environments, lexical scope and the binding of arguments. *)
From Coq Require Import NArith ZArith Bool Lia Arith String List.
From Coq Require Import ZifyBool ZifyNat ZifyN.
From Verif Require Import Base Input HMap Heap SpecHeap GcProofs VmProofs ValueOps Env Copy Builtins Specials Eval Read Boot Run SpecEnv EnvProofs.
Import ListNotations.
Local Open Scope N_scope.

(** ** C49 *)

(** Looking a name up finds what it denotes, and reports that it is not bound
    exactly when it is not; the machine is not changed. *)
Theorem C49_lookup : forall e t s o s', names_unique (all s) ->
  (env_get e t s = Ret (o, s') <->
   s' = s /\ match o with Some v => denotes (all s) e t v | None => unbound (all s) e t end).
Proof. exact env_get_iff. Qed.
Print Assumptions C49_lookup.

(** Binding the symbol [k], whose text is [t], to [v] in the environment [e]:
    [t] denotes [v] in [e] from then on; every other name denotes in every
    environment what it denoted before; and [t] denotes what it did in every
    environment that [e] does not enclose (the outer ones in particular); values
    other than [e] are not touched. *)
Theorem C49_binding : forall e k v s t b enc ck,
  names_unique (all s) -> lookup (all s) k = Some ck -> cdata ck = DSym t -> is_env (all s) e b enc ->
  exists s', env_set e k v s = Ret (tt, s') /\ names_unique (all s') /\
    denotes (all s') e t v /\
    (forall e' t' x, t' <> t -> (denotes (all s') e' t' x <-> denotes (all s) e' t' x)) /\
    (forall e' t' x, ~ encloses (all s) e' e -> (denotes (all s') e' t' x <-> denotes (all s) e' t' x)) /\
    (forall r, r <> e -> lookup (all s') r = lookup (all s) r).
Proof.
  intros e k v s t b enc ck NU LK EK EN.
  destruct (env_set_total e k v s) as (s' & ES); [eauto|eauto|]. exists s'. split; [exact ES|].
  pose proof (env_set_is_env e k v s s' tt ES) as IE.
  assert (FWD : forall x b0 enc0, is_env (all s) x b0 enc0 -> x = e -> is_env (all s') x (rebind t (k, v) b0) enc0).
  { intros x b0 enc0 H ->. apply IE. right. split; [reflexivity|]. exists t, b0, ck. auto. }
  assert (ENC : forall x b1 enc1 b2 enc2, is_env (all s) x b1 enc1 -> is_env (all s') x b2 enc2 -> enc1 = enc2).
  { intros x b1 enc1 b2 enc2 A B. apply IE in B as [(NE & B)|(-> & t0 & b0 & c0 & _ & _ & B & _)]; now destruct (is_env_fun _ _ _ _ _ _ A B). }
  repeat split.
  - intros x b1 enc1 H. apply IE in H as [(NE & H)|(-> & t0 & b0 & c0 & _ & _ & H & ->)]; [now apply NU in H|]. apply rebind_nodup. now apply NU in H.
  - apply (den_here _ _ (rebind t (k, v) b) enc); [now apply FWD|]. apply rebind_bound. auto.
  - apply denotes_other. intros y b1 enc1 A. apply IE in A as [(NE & A)|(-> & t0 & b0 & c0 & L0 & E0 & A & ->)]; [exists b1; tauto|].
    exists b0. split; [exact A|]. intros w. rewrite LK in L0. injection L0 as <-. rewrite EK in E0. injection E0 as <-. rewrite rebind_bound. tauto.
  - apply denotes_other. intros y b1 enc1 A. destruct (N.eq_dec y e) as [->|NE].
    + exists (rebind t (k, v) b1). split; [now apply FWD|]. intros w. rewrite rebind_bound. tauto.
    + exists b1. split; [|tauto]. apply IE. auto.
  - apply (denotes_ext _ _ e).
    + intros y b1 enc1 NE. rewrite IE. tauto.
    + intros X. apply H. revert X. apply encloses_ext; [|exact ENC]. intros y (b1 & enc1 & A). apply IE in A as [(_ & A)|(-> & t0 & b0 & c0 & _ & _ & A & _)]; eauto.
  - apply (denotes_ext _ _ e); [|exact H]. intros y b1 enc1 NE. rewrite IE. tauto.
  - apply (env_set_cells _ _ _ _ _ _ ES).
Qed.
Print Assumptions C49_binding.

(** A history of bindings in one environment: the newest one wins, names not
    bound in it denote what they did.  [newest]: the last value given to [t]. *)
Fixpoint newest (t : text) (l : list (text * ref)) : option ref :=
  match l with
  | [] => None
  | (t', v) :: r => match newest t r with Some w => Some w | None => if text_eqb t' t then Some v else None end
  end.
Theorem C49_history : forall e (l : list (text * (ref * ref))) s b enc,
  names_unique (all s) -> is_env (all s) e b enc ->
  (forall t k v, In (t, (k, v)) l -> exists c, lookup (all s) k = Some c /\ cdata c = DSym t) ->
  exists s', iterM (fun x => env_set e (fst (snd x)) (snd (snd x))) l s = Ret (tt, s') /\
    forall t, match newest t (map (fun x => (fst x, snd (snd x))) l) with
              | Some v => denotes (all s') e t v
              | None => forall x, denotes (all s') e t x <-> denotes (all s) e t x
              end.
Proof.
  intros e l. induction l as [|[t0 [k0 v0]] l IH]; intros s b enc NU EN SY.
  - exists s. split; [reflexivity|]. intros t. cbn. tauto.
  - destruct (SY t0 k0 v0 (or_introl eq_refl)) as (ck & LK & EK).
    destruct (C49_binding e k0 v0 s t0 b enc ck NU LK EK EN) as (s1 & ES & NU1 & D1 & D2 & _ & O).
    destruct (IH s1 (rebind t0 (k0, v0) b) enc) as (s' & E' & D').
    + exact NU1.
    + apply (env_set_is_env _ _ _ _ _ _ ES). right. split; [reflexivity|]. exists t0, b, ck. auto.
    + intros t k v I. destruct (SY t k v (or_intror I)) as (c & L & E). exists c. split; [|exact E].
      now apply (env_set_cells _ _ _ _ _ _ ES) with (t := t).
    + exists s'. split; [cbn; unfold bind; cbn; rewrite ES; exact E'|].
      intros t. specialize (D' t). cbn [newest map fst snd]. destruct (newest t _) as [w|]; [exact D'|].
      destruct (text_eqb_spec t0 t) as [->|NE]; [apply D'; exact D1|].
      intros x. rewrite D'. apply D2. auto.
Qed.
Print Assumptions C49_history.

(** The machine just made has a global environment with unique names in which
    e.g. "if" is bound and "nope" is not. *)
Example C49_witness : names_unique (all machine) /\ (exists b, is_env (all machine) 0 b None /\ List.length b = 105%nat) /\
  denotes (all machine) 0 (asc "if") 239 /\ unbound (all machine) 0 (asc "nope").
Proof.
  assert (E : exists b, is_env (all machine) 0 b None).
  { unfold is_env, machine. cbn [all lookup N.eqb]. eexists. eexists. split; [reflexivity|]. reflexivity. }
  assert (U : names_unique (all machine)).
  { intros e b enc (c & L & EC).
    assert (K : forallb (fun rc => match cdata (snd rc) with DEnv b _ => distinct text_eqb (map fst b) | _ => true end) (all machine) = true)
      by (vm_compute; reflexivity).
    rewrite forallb_forall in K.
    assert (ND : NoDup (map fst (all machine))).
    { apply (distinct_nodup N.eqb); [apply N.eqb_refl|vm_compute; reflexivity]. }
    apply (lookup_in _ _ _ ND) in L. specialize (K _ L). cbn [snd] in K. rewrite EC in K.
    apply (distinct_nodup text_eqb); [|exact K]. intros x. destruct (text_eqb_spec x x); congruence. }
  split; [exact U|].
  assert (G : forall t o, env_get 0 t machine = Ret (o, machine) -> match o with Some v => denotes (all machine) 0 t v | None => unbound (all machine) 0 t end).
  { intros t o H. now apply (env_get_iff 0 t machine o machine U) in H. }
  split; [|split].
  - destruct E as (b & E). exists b. split; [exact E|]. destruct E as (c & L & E). revert L E. vm_compute. intros [= <-] [= <-]. reflexivity.
  - apply (G (asc "if") (Some 239)). vm_compute. reflexivity.
  - apply (G (asc "nope") None). vm_compute. reflexivity.
Qed.

(** ** C51 *)

(** The situation of a call: the formals [fs] are symbols with the distinct
    texts [names], [xs] are the arguments, and [e] is an environment in which
    they are to be bound. *)
Record binding_formals (s : vm) (e formals args : ref) (names : list text) (xs : list ref) : Prop := {
  bf_formals : exists fs, vector_at (all s) formals fs /\ Forall2 (symbol_at (all s)) fs names;
  bf_distinct : NoDup names;
  bf_args : vector_at (all s) args xs;
  bf_env : exists b enc, is_env (all s) e b enc;
  bf_ids : ids_ok s;
  bf_root : In e (stack s)
}.
Lemma bound_each_denotes e s ts xs s' b enc : bound_each e s ts xs s' -> is_env (all s) e b enc -> NoDup ts ->
  (forall i t x, nth_error ts i = Some t -> nth_error xs i = Some x -> denotes (all s') e t x) /\
  (forall t x e', ~ In t ts -> (denotes (all s') e' t x <-> denotes (all s) e' t x)).
Proof.
  intros [_ _ OT EV] EN ND. destruct (EV b enc EN) as (b' & EN' & _ & KEEP & NEW). split.
  - intros i t x E1 E2. apply (den_here _ _ b' enc); [exact EN'|]. eapply NEW; eauto.
  - intros t x e' NI. split; apply denotes_other; intros y b1 enc1 A; (destruct (N.eq_dec y e) as [->|NE]; [|exists b1; split; [|tauto]; destruct A as (c & L & E); exists c; split; [|exact E]; rewrite <- L; auto; symmetry; auto]).
    + destruct (is_env_fun _ _ _ _ _ _ A EN') as (-> & ->). exists b. split; [exact EN|]. intros v. symmetry. auto.
    + destruct (is_env_fun _ _ _ _ _ _ A EN) as (-> & ->). exists b'. split; [exact EN'|]. auto.
Qed.

(** Plain formals and as many arguments: each formal is bound to its argument,
    in order; every other name keeps its meaning. *)
Theorem C51_plain : forall s e formals args names xs, binding_formals s e formals args names xs ->
  plain names -> List.length xs = List.length names ->
  exists s', env_extend e formals args s = Ret (None, s') /\
    (forall i t x, nth_error names i = Some t -> nth_error xs i = Some x -> denotes (all s') e t x) /\
    (forall e' t x, ~ In t names -> (denotes (all s') e' t x <-> denotes (all s) e' t x)).
Proof.
  intros s e formals args names xs [(fs & VF & SY) ND VA (b & enc & EN) I R] PL LEN.
  destruct (extend_plain e formals args fs names xs s b enc VF VA SY PL EN LEN) as (s' & E & BE). exists s'. split; [exact E|].
  destruct (bound_each_denotes _ _ _ _ _ _ _ BE EN ND) as (A & B). auto.
Qed.
Print Assumptions C51_plain.

(** Formals that end in a name and "...": the plain ones are bound as before and
    the name to a vector of the remaining arguments. *)
Theorem C51_rest : forall s e formals args names pre rest xs o s', binding_formals s e formals args names xs ->
  with_rest names pre rest -> (List.length pre <= List.length xs)%nat ->
  env_extend e formals args s = Ret (o, s') ->
  o = None /\
  (forall i t x, nth_error pre i = Some t -> nth_error xs i = Some x -> denotes (all s') e t x) /\
  (exists v, denotes (all s') e rest v /\ vector_at (all s') v (skipn (List.length pre) xs)) /\
  (forall t x, ~ In t names -> (denotes (all s') e t x <-> denotes (all s) e t x)).
Proof.
  intros s e formals args names pre rest xs o s' [(fs & VF & SY) ND VA (b & enc & EN) I R1] WR LEN H.
  destruct (extend_rest e formals args fs names pre rest xs s b enc o s' VF VA SY WR EN LEN I R1 H)
    as (-> & s1 & s2 & f & v & BE & (cf & LF & EF) & AE & ES).
  split; [reflexivity|]. destruct WR as (-> & PL).
  assert (NDP : NoDup pre). { clear -ND. induction pre as [|t pre IH]; [constructor|]. cbn in ND. inversion ND as [|? ? NI ND']; subst. constructor; [|auto]. intros J. apply NI. apply in_or_app. auto. }
  destruct (bound_each_denotes _ _ _ _ _ _ _ BE EN NDP) as (A & B).
  assert (FE : f <> e). { intros ->. destruct EN as (c & L & E). rewrite L in LF. injection LF as <-. congruence. }
  assert (FV : f <> v). { intros ->. pose proof (ae_fresh _ _ _ _ AE) as FR.
    assert (L1 : lookup (all s1) v = Some cf) by (rewrite (be_other _ _ _ _ _ BE); auto).
    destruct (be_ids _ _ _ _ _ BE I) as ((N1 & _) & LT). apply (lookup_in _ _ _ N1) in L1. apply LT in L1. lia. }
  assert (RE : reachable (all s1) (stack s1) e). { apply re_root. now rewrite (be_stack _ _ _ _ _ BE). }
  assert (NV : forall b enc, DVec (skipn (List.length pre) xs) <> DEnv b enc) by discriminate.
  assert (SF : forall c t, lookup (all s2) f = Some c -> cdata c = DSym t -> t = rest).
  { intros c t L E. apply (ae_old _ _ _ _ AE) in L; [|exact FV]. rewrite (be_other _ _ _ _ _ BE) in L by exact FE. rewrite LF in L. injection L as <-. congruence. }
  pose proof (env_set_is_env _ _ _ _ _ _ ES) as IE.
  assert (OTH : forall t x, t <> rest -> (denotes (all s') e t x <-> denotes (all s1) e t x)).
  { intros t x NE. rewrite <- (alloc_denotes _ _ _ _ e t x AE NV RE). split; apply denotes_other; intros y b1 enc1 C.
    - apply IE in C as [(_ & C)|(-> & t0 & b0 & c0 & L0 & E0 & C & ->)]; [exists b1; tauto|]. exists b0. split; [exact C|]. intros w.
      rewrite (SF _ _ L0 E0), rebind_bound. tauto.
    - destruct (N.eq_dec y e) as [->|NY]; [|exists b1; split; [apply IE; auto|tauto]].
      apply env_set_ret in ES as (ck & t0 & ce & b0 & enc0 & L1 & E1 & L2 & E2 & _).
      exists (rebind t0 (f, v) b1). split; [apply IE; right; split; [reflexivity|]; exists t0, b1, ck; auto|]. intros w. rewrite (SF _ _ L1 E1), rebind_bound. tauto. }
  split; [|split].
  - intros i t x E1 E2. apply OTH.
    + intros ->. clear -ND E1. revert i E1. induction pre as [|t pre IH]; intros [|i]; cbn; try discriminate; inversion ND as [|? ? NI ND']; subst.
      * intros [= ->]. apply NI. apply in_or_app. right. now left.
      * apply IH. exact ND'.
    + apply (A i t x E1). clear -E1 E2 LEN. rewrite <- E2. assert (LT : (i < List.length pre)%nat) by (apply nth_error_Some; congruence).
      revert LT. generalize (List.length pre). clear. revert xs. induction i as [|i IH]; intros [|x xs] [|n] LT; try reflexivity; try lia. cbn. apply IH. lia.
  - exists v. split.
    + apply env_set_ret in ES as (ck & t0 & ce & b0 & enc0 & L1 & E1 & L2 & E2 & ->). rewrite (SF _ _ L1 E1) in *.
      apply (den_here _ _ (rebind rest (f, v) b0) enc0).
      * eexists. cbn. rewrite lookup_update, N.eqb_refl, L2. cbn. split; reflexivity.
      * apply rebind_bound. auto.
    + destruct (ae_cell _ _ _ _ AE) as (a & L). exists (mkCell (DVec (skipn (List.length pre) xs)) None None false a). split; [|reflexivity].
      rewrite (proj1 (env_set_cells _ _ _ _ _ _ ES)); [exact L|]. intros ->.
      apply env_set_ret in ES as (ck & t0 & ce & b0 & enc0 & L1 & E1 & L2 & E2 & _). rewrite L in L2. injection L2 as <-. discriminate.
  - intros t x NI. rewrite OTH; [apply B|].
    + intros J. apply NI. apply in_or_app. auto.
    + intros ->. apply NI. apply in_or_app. right. now left.
Qed.
Print Assumptions C51_rest.

(** In every other case the result, if there is one, is an error. *)
Theorem C51_refused : forall s e formals args names xs o s', binding_formals s e formals args names xs ->
  ~ accepts names (List.length xs) -> env_extend e formals args s = Ret (o, s') -> exists r, o = Some r /\ error_at (all s') r.
Proof.
  intros s e formals args names xs o s' [(fs & VF & SY) ND VA (b & enc & EN) I R] NA H. exact (extend_refuses e formals args fs names xs s b enc o s' VF VA SY EN I NA H).
Qed.
Print Assumptions C51_refused.
(** ... and there is none for formals that are just (...): the call aborts (a
    failed assertion) instead of giving an error. *)
Theorem C51_lone_ellipsis_refuted : forall s e formals args xs, binding_formals s e formals args [ellipsis] xs ->
  env_extend e formals args s = Abort.
Proof.
  intros s e formals args xs [(fs & VF & SY) ND VA (b & enc & EN) I R]. unfold env_extend.
  rewrite (bind_ok _ _ _ _ _ (vec_of_at _ _ _ VF)), (bind_ok _ _ _ _ _ (vec_of_at _ _ _ VA)), (bind_ok _ _ _ _ _ (names_ret _ _ _ SY)). reflexivity.
Qed.
Print Assumptions C51_lone_ellipsis_refuted.

(** A machine on which "(a b rest ...)" (values 1-5) is to be bound to four
    arguments (the value 7 four times) in the environment 0. *)
Definition formals_machine (names : list text) (n : nat) : vm :=
  mkVm ([(0, mkCell (DEnv [] None) None None false 0); (1, mkCell (DVec (map (fun i => 3 + N.of_nat i) (seq 0 (List.length names)))) None None false 0);
         (2, mkCell (DVec (repeat 1 n)) None None false 0)]
        ++ map (fun p => (3 + N.of_nat (fst p), mkCell (DSym (snd p)) None None false 0)) (combine (seq 0 (List.length names)) names))
       100 0 [0; 1; 2] 0 0 1024 false None false 0 true [] (fun n => n) (fun _ => []) nothing_outside.
Example C51_witness : let names := [asc "a"; asc "b"; asc "rest"; ellipsis] in
  binding_formals (formals_machine names 4) 0 1 2 names (repeat 1 4) /\ with_rest names [asc "a"; asc "b"] (asc "rest")
  /\ (exists s', env_extend 0 1 2 (formals_machine names 4) = Ret (None, s')) /\ ~ accepts names 1 /\ accepts [asc "a"] 1.
Proof.
  cbv zeta. split; [|split; [|split; [|split]]].
  - constructor.
    + exists [3; 4; 5; 6]. split; [eexists; split; reflexivity|]. repeat constructor; eexists; split; reflexivity.
    + apply (distinct_nodup text_eqb); [|reflexivity]. intros x. destruct (text_eqb_spec x x); congruence.
    + eexists. split; reflexivity.
    + eexists. eexists. eexists. split; reflexivity.
    + split; [split; [apply (distinct_nodup N.eqb); [apply N.eqb_refl|reflexivity]|]|].
      * intros r c H. vm_compute in H. repeat (destruct H as [H|H]; [injection H as <- <-; reflexivity|]). destruct H.
      * intros r c H. vm_compute in H. repeat (destruct H as [H|H]; [injection H as <- <-; reflexivity|]). destruct H.
    + cbn. auto.
  - split; [reflexivity|]. intros H. vm_compute in H. repeat (destruct H as [H|H]; [discriminate|]). destruct H.
  - eexists. vm_compute. reflexivity.
  - intros [(PL & E)|(pre & rest & (E & PL) & LE)]; [discriminate|].
    assert (L : List.length [asc "a"; asc "b"; asc "rest"; ellipsis] = List.length (pre ++ [rest; ellipsis])) by now rewrite E.
    rewrite app_length in L. cbn in L. lia.
  - left. split; [|reflexivity]. intros H. vm_compute in H. destruct H as [H|[]]. discriminate.
Qed.

(** ** C50 *)

(** What a call does once the arguments [a] are there and [ext] is the
    environment of the call: run the body in [ext]; the value of a macro is
    evaluated in [ext] too. *)
Definition run_in (fuel : nat) (ev : evaluator) (f : ref) (addr : N) (was : bool) (a ext : ref) : M (option ref) :=
  r <- (r <- run_body fuel ev f addr ext 0 None ;;
        if was then r <- need r ;; push r ;;; o <- ev r ext ;; pop r ;;; ret o else ret r) ;;
  pops [ext; a] ;;; ret r.

(** A call of the function or macro [f] (with plain formals) with the arguments
    [xs]: whenever it returns, its body was run in an environment in which the
    formals denote the arguments and every other name what it denotes in the
    environment [fenv] the function was defined in.  The environment [env] of the
    caller plays no role once the arguments have been evaluated (in [s2]). *)
Theorem C50_lexical_scope : forall fuel ev v addr f env macro was s a s1 s2 c g names xs r s',
  alloc (DVec []) s = Ret (a, s1) ->
  (if macro : bool then l <- form_at v addr ;; push_all a (tl l) ;;; ret None else eval_args fuel ev v addr env a 1)
    (with_stack s1 (a :: stack s1)) = Ret (None, s2) ->
  lookup (all s2) f = Some c -> (cdata c = DFun g \/ cdata c = DMac g) ->
  (exists fs, vector_at (all s2) (fformals g) fs /\ Forall2 (symbol_at (all s2)) fs names) ->
  plain names -> NoDup names -> vector_at (all s2) a xs -> List.length xs = List.length names ->
  ids_ok s2 -> refs_old s2 -> In a (stack s2) -> In f (stack s2) ->
  call_function fuel ev v addr f env macro was s = Ret (r, s') ->
  exists ext s3, run_in fuel ev f (caddr c) was a ext s3 = Ret (r, s') /\
    (forall i t x, nth_error names i = Some t -> nth_error xs i = Some x -> denotes (all s3) ext t x) /\
    (forall t x, ~ In t names -> (denotes (all s3) ext t x <-> denotes (all s2) (fenv g) t x)).
Proof.
  intros fuel ev v addr f env macro was s a s1 s2 c g names xs r s' EA EV LF EF (fs & VF & SY) PL ND VA LEN I RO RA RF H.
  unfold call_function in H. rewrite (bind_ok _ _ _ _ _ EA) in H. unfold push at 1 in H. unfold bind at 1 in H. cbn [obind fst snd] in H.
  rewrite (bind_ok _ _ _ _ _ EV) in H. cbn [fst snd] in H.
  assert (GC1 : get_cell f s2 = Ret (c, s2)) by now apply get_cell_ret. rewrite (bind_ok _ _ _ _ _ GC1) in H.
  assert (FA : func_at f (caddr c) s2 = Ret (g, s2)).
  { unfold func_at, get_at, bind. rewrite GC1. cbn [obind fst snd]. rewrite N.eqb_refl. cbn. destruct EF as [-> | ->]; reflexivity. }
  rewrite (bind_ok _ _ _ _ _ FA) in H.
  apply bind_ret in H as (ext & s3 & AE & H). apply alloc_ret in AE; [|exact I].
  unfold push in H at 1. unfold bind in H at 1. cbn [obind fst snd] in H.
  set (s4 := with_stack s3 (ext :: stack s3)) in *.
  assert (RFm : reachable (all s2) (stack s2) (fformals g)). { apply (re_step _ _ f c); [now apply re_root|exact LF|]. now apply r_formals. }
  assert (RFe : reachable (all s2) (stack s2) (fenv g)). { apply (re_step _ _ f c); [now apply re_root|exact LF|]. now apply r_denv. }
  assert (KV : forall x l, reachable (all s2) (stack s2) x -> vector_at (all s2) x l -> vector_at (all s4) x l).
  { intros x l R (c0 & L & E). exists c0. split; [|exact E]. now apply (ae_kept _ _ _ _ AE). }
  assert (EX : is_env (all s4) ext [] (Some (fenv g))). { destruct (ae_cell _ _ _ _ AE) as (ad & L). eexists. split; [exact L|reflexivity]. }
  assert (BF : binding_formals s4 ext (fformals g) a names xs).
  { constructor; auto.
    - exists fs. split; [now apply KV|]. destruct VF as (cf & L1 & E1).
      assert (AL : forall x, In x fs -> reachable (all s2) (stack s2) x).
      { intros x IN. apply (re_step _ _ (fformals g) cf); auto. eapply r_vec; eauto. }
      clear -SY AL AE. induction SY as [|x t fs ns (c0 & L & E) SY IH]; constructor.
      + exists c0. split; [|exact E]. apply (ae_kept _ _ _ _ AE); [|exact L]. apply AL. now left.
      + apply IH. intros y Iy. apply AL. now right.
    - apply KV; [now apply re_root|exact VA].
    - exists [], (Some (fenv g)). exact EX.
    - apply (ae_ids _ _ _ _ AE).
    - left. reflexivity. }
  destruct (C51_plain s4 ext (fformals g) a names xs BF PL LEN) as (s5 & EXT & D1 & D2).
  rewrite (bind_ok _ _ _ _ _ EXT) in H. exists ext, s5. split; [exact H|]. split; [exact D1|].
  intros t x NI. rewrite D2 by exact NI.
  assert (LTe : fenv g < nextId s2). { apply (RO f c); [exact LF|]. now apply r_denv. }
  rewrite <- (alloc_denotes_old _ _ _ _ (fenv g) t x AE RO LTe RFe). change (all s4) with (all s3).
  split.
  - intros X. inversion X as [e b enc t0 v0 EN BD|e b e' t0 v0 EN NB X']; subst.
    + destruct (is_env_fun _ _ _ _ _ _ EX EN) as (<- & <-). destruct BD as (k & []).
    + destruct (is_env_fun _ _ _ _ _ _ EX EN) as (<- & [= <-]). exact X'.
  - intros X. apply (den_outer _ _ [] (fenv g)); [exact EX| |exact X]. intros y (k & []).
Qed.
Print Assumptions C50_lexical_scope.

(** x is 1 globally and 2 where f is called from, but f sees the global one. *)
Example C50_witness :
  value_of_text "(define x as {D+1} [x]) (define f as (fn () x) [f] '() howto-ok)
                 (define g as (fn (x) (f)) [g] '(x [x]) howto-ok) (g {D+2})" = Ret (Some (DInt 1)).
Proof. vm_compute. reflexivity. Qed.
