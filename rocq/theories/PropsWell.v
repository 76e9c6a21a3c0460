(** C125: the representation of values stays well formed in every history. *)
From Coq Require Import List NArith ZArith Bool Lia String Arith.
From Verif Require Import Base SpecText OString HMap SpecMap HMapProofs Heap SpecHeap VmProofs ValueOps Env SpecEnv EnvProofs Builtins Eval Input Read Boot Run Copy Repl Embed SpecEmbed SpecWell Relate WellProofs SpecSched.
From Verif Require PropsSafe PropsEmbed.
Import ListNotations.
Local Open Scope string_scope.
Local Open Scope list_scope.

(** ** Programs *)
Theorem C125_evaluation : forall fuel v e s x s', well_formed (all s) -> eval fuel v e s = Ret (x, s') -> well_formed (all s').
Proof. intros fuel v e s x s' W E. exact (eval_on _ _ _ _ _ _ E W). Qed.
(** Whatever is evaluated on a new machine with any functions: whenever a text has
    been evaluated, every value of the machine is well formed. *)
Theorem C125_session : forall lib limit addresses messages out fuel texts values s, PropsSafe.functions_only lib ->
  run_session lib limit addresses messages out fuel texts = Ret (values, s) -> well_formed (all s).
Proof.
  intros lib limit addresses messages out fuel texts values s FO E. unfold run_session in E. destruct (boot lib _) as [[u s0]| | | | |] eqn:B; try discriminate. cbn [obind snd] in E.
  assert (W : well_formed (all (with_outside s0 out))).
  { refine (boot_on lib _ _ _ _ B _).
    - intros n d I. destruct (FO n d I) as [(p & ->)|(p & ->)]; exact Logic.I.
    - destruct limit; intros r c []. }
  clear B. revert E W. generalize (with_outside s0 out). clear s0. intros s0 E W. revert values s0 E W. induction texts as [|t texts IH]; intros values s0 E W; cbn [run_texts] in E; [now injection E as _ <-|].
  destruct (read_eval fuel (input_new t) s0) as [[o s1]| | | | |] eqn:R; cbn [obind fst snd] in E; try discriminate.
  destruct (run_texts fuel texts s1) as [[l s2]| | | | |] eqn:T; cbn [obind fst snd] in E; try discriminate. injection E as _ <-.
  eapply IH; [exact T|]. exact (read_eval_on _ _ _ _ _ R W).
Qed.

(** ** Host programs, whether they follow the rule of SpecEmbed.v or not *)
Theorem C125_host : forall fuel files q s a s', well_formed (all s) -> perform fuel files q s = Ret (a, s') -> well_formed (all s').
Proof.
  intros fuel files q s a s' W E. assert (K : on (perform fuel files q) (perform fuel files q)); [|exact (K _ _ _ E W)]. clear.
  assert (D : forall m : M unit, on m m -> on (done m) (done m)) by (intros; apply on_bind; [assumption|intros; apply on_ret]).
  assert (V : forall m : M ref, on m m -> on (value m) (value m)) by (intros; apply on_bind; [assumption|intros; apply on_ret]).
  assert (VS : forall m : M (option ref), on m m -> on (values m) (values m)) by (intros; apply on_bind; [assumption|intros; apply on_ret]).
  assert (EB : forall b, on (evaluate_buffer fuel b) (evaluate_buffer fuel b)).
  { intros [|c b]; cbn [evaluate_buffer]; (apply on_bind; [|intros]); auto using on_new_error, on_ret, on_lift, read_eval_on. }
  assert (AL : forall d, data_formed d -> on (value (alloc d)) (value (alloc d))) by (intros; apply V; now apply on_alloc).
  destruct q; cbn [perform]; auto using on_copy, on_vec_push, on_env_set, on_push, on_pop, eval_on.
  - apply AL. destruct a; exact I.
  - apply AL. exact I.
  - apply V, on_bind; [apply on_alloc; exact I|]. intros v. apply on_bind; [apply on_push_all|intros; apply on_ret].
  - apply AL. exact I.
  - apply AL. destruct max; cbn; auto. lia.
  - apply AL. exact formed_new.
  - apply AL. constructor.
  - apply on_bind; [apply on_get|]. intros d. destruct d; try apply on_abort; apply D, on_seq_push_atom.
  - apply on_bind; [apply on_get|intros; apply on_ret].
  - apply on_bind; [apply on_read|intros; apply on_ret].
  - apply D. intros s u s' E W. unfold do_gc in E. destruct (Heap.gc _ _) as [h| | | | |] eqn:G; try discriminate. injection E as _ <-. exact (well_gc _ _ _ W G).
  - apply D, on_state. intros ? ? ? [= _ <-]. reflexivity.
  - apply D, on_state. intros ? ? ? [= _ <-]. reflexivity.
  - apply on_bind; [apply on_read|]. intros. apply VS, eval_on.
  - apply VS. destruct (files path); apply EB.
  - destruct name as [|c name]; [apply on_abort|]. destruct doc as [|d doc]; [apply on_abort|]. apply on_bind; [apply read_eval_on|]. intros [r|]; [|apply on_abort]. apply on_bind; [apply on_get|intros; apply on_ret].
  - apply V. unfold call_lambda. apply on_cell. intros c _. apply on_bind; [apply on_func_at|]. intros g. apply on_bind; [apply on_alloc; constructor|]. intros ext.
    apply on_bind; [apply on_push|]. intros _. apply on_bind; [apply on_env_extend|]. intros [e|].
    + apply on_bind; [apply on_pop|intros; apply on_ret].
    + apply on_bind; [apply on_run_body|]. intros o. apply on_bind; [apply on_pop|]. intros _. destruct o; [apply on_ret|apply on_abort].
  - apply on_bind; [apply on_read|]. intros. apply D, on_state. intros ? ? ? [= _ <-]. reflexivity.
  - apply on_bind; [apply on_read|]. intros. apply D, on_state. intros ? ? ? [= _ <-]. reflexivity.
  - apply D, on_set_readably.
  - apply on_bind; [apply on_read|intros; apply on_ret].
  - apply on_bind; [apply on_read|intros; apply on_ret].
  - apply on_bind; [apply on_read|intros; apply on_ret].
  - apply on_bind; [apply on_read|intros; apply on_ret].
Qed.

(** ** What follows *)
(** The hypothesis of C49 and C123 holds in every session and history. *)
Lemma well_names h : well_formed h -> names_unique h.
Proof. intros W e b enc (c & L & D). pose proof (well_lookup _ _ _ W L) as F. now rewrite D in F. Qed.
Theorem C49_in_sessions : forall lib limit addresses messages out fuel texts values s, PropsSafe.functions_only lib ->
  run_session lib limit addresses messages out fuel texts = Ret (values, s) -> names_unique (all s).
Proof. intros. apply well_names. eapply C125_session; eauto. Qed.
Theorem C123_in_histories : forall lib limit addresses messages u s0 p l s, PropsSafe.functions_only lib ->
  boot lib (empty_vm limit addresses messages) = Ret (u, s0) -> history s0 p l s -> names_unique (all s).
Proof.
  intros lib limit addresses messages u s0 p l s FO B H. apply well_names. induction H as [|p l s fuel files q a s' H IH _ E|p l s out H IH].
  - refine (boot_on lib _ _ _ _ B _); [|intros r c []]. intros n d I. destruct (FO n d I) as [(x & ->)|(x & ->)]; exact Logic.I.
  - eapply C125_host; [exact IH|exact E].
  - exact IH.
Qed.
(** Storing a pair in a well formed hash map never ends in an assertion of the map,
    however the keys compare, and keeps it well formed; so does removing. *)
Theorem C125_put : forall q m hk k v, map_formed m -> exists m', map_put q m hk k v = Ret m' /\ map_formed m'.
Proof. exact formed_put. Qed.
Theorem C125_remove : forall q m hk k, map_formed m -> map_formed (fst (map_remove q m hk k)).
Proof. exact formed_remove. Qed.
(** The pairs of a well formed hash map are numbered: each index below its length,
    counted from either end, is that of one pair, and no other index is. *)
Theorem C125_pairs : forall m, map_formed m -> exists front back, Permutation.Permutation front back /\
  List.length front = numElements m /\ (forall e, In e front <-> exists b, In b (buckets m) /\ In e b) /\
  forall i, map_get_at_index m (Z.of_nat i) = nth_error front i /\ map_get_at_index m (- Z.of_nat i - 1) = nth_error back i.
Proof.
  intros m F. exists (List.concat (buckets m)), (back_list (rev (buckets m))). split; [|split; [symmetry; apply F|split]].
  - symmetry. apply back_list_perm.
  - intros e. rewrite in_concat. split; intros (b & A & B); eauto.
  - intros i. split.
    + unfold map_get_at_index. destruct (Z.ltb_spec (Z.of_nat i) 0); [lia|]. rewrite Nat2Z.id, at_index_ok by lia. f_equal. lia.
    + unfold map_get_at_index. destruct (Z.ltb_spec (- Z.of_nat i - 1) 0); [|lia]. rewrite at_index_back_ok by lia. f_equal. lia.
Qed.

(** ** Non-vacuity *)
(** A machine that collects garbage at every allocation, on which a name is bound
    twice, and a queue and a hash map get more than they hold. *)
Definition lib : list (string * data) :=
  [("define", DSpecial SpDefine); ("quote", DSpecial SpQuote); ("hash-map", DBuiltin BiHashMap); ("queue-with-max-length", DBuiltin BiQueueMax); ("+=", DBuiltin BiPlusEq)].
Definition texts : list octets := map (fun s => utf8_text (asc s))
  ["(define y as {D+7} [y])"; "(define y as {D+8} [y])"; "(define q as (queue-with-max-length {D+1}) [q])"; "(+= q y y)"; "(hash-map {D+1} y {D+1} {D+2} y {D+3})"]%string.
Definition full (v : option ref) (s : vm) : bool :=
  match v with Some r => match lookup (all s) r with Some c => match cdata c with DMap m => Nat.eqb (numElements m) 2 | _ => false end | None => false end | None => false end.
Lemma lib_functions : PropsSafe.functions_only lib.
Proof. intros n d I. repeat (destruct I as [[= <- <-]|I]; [eauto|]). destruct I. Qed.
Example C125_witness : exists values s, run_session lib (Some 1%N) (fun n => n) (fun _ => []) nothing_outside 60 texts = Ret (values, s) /\
  (exists v, nth_error values 4 = Some v /\ full v s = true) /\ well_formed (all s).
Proof.
  destruct (run_session lib (Some 1%N) (fun n => n) (fun _ => []) nothing_outside 60 texts) as [[values s]| | | | |] eqn:E.
  2-6: vm_compute in E; discriminate E.
  exists values, s. split; [reflexivity|]. split; [|exact (C125_session _ _ _ _ _ _ _ _ _ lib_functions E)].
  assert (K : match run_session lib (Some 1%N) (fun n => n) (fun _ => []) nothing_outside 60 texts with Ret (values, s) => match nth_error values 4 with Some v => full v s | None => false end | _ => false end = true) by (vm_compute; reflexivity).
  rewrite E in K. destruct (nth_error values 4) as [v|]; [|discriminate K]. eauto.
Qed.
Print Assumptions C125_evaluation.
Print Assumptions C125_session.
Print Assumptions C125_host.
Print Assumptions C49_in_sessions.
Print Assumptions C123_in_histories.
Print Assumptions C125_put.
Print Assumptions C125_remove.
Print Assumptions C125_pairs.
