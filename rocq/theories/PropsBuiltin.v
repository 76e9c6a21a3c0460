(** C76-C81: what the builtins that change nothing give.  See SpecBuiltin.v. *)
From Coq Require Import NArith ZArith Bool Lia Arith String List Permutation.
From Verif Require Import Base HMap Heap SpecHeap ValueOps Env Builtins Eval Read Boot Run Checks SafeBase SpecText SpecTrace SpecSpecial SpecForm SpecCall SpecDefine SpecEval SpecBuiltin TraceProofs SpecialForms BuiltinProofs BuiltinCases.
Import ListNotations.
Local Open Scope N_scope.
Local Open Scope string_scope.
Local Open Scope list_scope.

(** The function behind a name of the library; there is one. *)
Definition named (name : string) (p : builtin) : Prop := In (name, DBuiltin p) library.
Theorem C76_names : NoDup (map fst library).
Proof. apply (distinct_nodup String.eqb); [apply String.eqb_refl|vm_compute; reflexivity]. Qed.
Print Assumptions C76_names.
Lemma named_found name p : find (fun e => String.eqb name (fst e)) library = Some (name, DBuiltin p) -> named name p.
Proof. intros E. apply find_some in E as (J & _). exact J. Qed.
Ltac library_name := apply named_found; reflexivity.

(** In a call (f x ...) whose operator gives the builtin [p]: an argument is an
    error and is the result, or the builtin gets the values of the arguments. *)
Theorem C76_call : forall p R fuel env v s x f s2 o s', does p R -> calls_form fuel env v s x f s2 o s' -> data_at s2 f = Some (DBuiltin p) ->
  exists r, o = Some r /\
   ((exists evs xs d, args_run env v s2 1 evs xs (Some (r, d)) /\ result_is s' r (Some d)) \/
    exists evs xs s1 s3 p', args_run env v s2 1 evs xs None /\ data_at s1 f = Some (DBuiltin p') /\ (p' = p -> R s1 env xs s3 r) /\ result_is s' r (data_at s3 r)).
Proof. exact called. Qed.
Print Assumptions C76_call.
Theorem C76_reader_does : forall p R, reader p R -> does p R.
Proof. intros p R H n m a env xs s r s' A E. now apply (H n m a env xs s r s'). Qed.
Print Assumptions C76_reader_does.

(** ** C76 *)
Theorem C76_not : exists p, named "not" p /\ reader p not_result.
Proof. exists BiNot. split; [library_name|exact not_reader]. Qed.
Print Assumptions C76_not.
(** Concrete cases: names of global variables as arguments. *)
Definition gives_data (d : data -> bool) : vm -> list ref -> vm -> ref -> bool :=
  fun _ _ s' r => match data_at s' r with Some x => d x | None => false end.
Definition is_bool_b (b : bool) (d : data) : bool := match d with DBool x => Bool.eqb x b | _ => false end.
Example C76_not_case : a_case BiNot (gives_data (is_bool_b false)).
Proof. apply (arg_case _ _ "(define t as true [t])" ["t"]). vm_compute. reflexivity. Qed.

Theorem C76_predicates : forall name K, In (name, K) predicates -> exists p, named name p /\ reader p (is_result K).
Proof.
  intros name K J. unfold predicates in J. cbn [In] in J.
  repeat (destruct J as [J|J]; [injection J as <- <-; eexists; split; [library_name|]; apply is_reader; intros d; try unfold is_number; destruct d; cbn; split; intros F; try discriminate; try contradiction; auto; destruct F; contradiction|]).
  contradiction.
Qed.
Print Assumptions C76_predicates.
Example C76_predicate_case : a_case (BiIs [3; 4]%Z) (gives_data (is_bool_b true)).
Proof. apply (arg_case _ _ "(define t as {D+2.5} [t])" ["t"]). vm_compute. reflexivity. Qed.

(** ** C77 *)
Theorem C77_len : exists p, named "len" p /\ reader p len_result.
Proof. exists BiLen. split; [library_name|exact len_reader]. Qed.
Print Assumptions C77_len.
Definition is_int_b (z : Z) (d : data) : bool := match d with DInt x => (x =? z)%Z | _ => false end.
Example C77_case : a_case BiLen (gives_data (is_int_b 3)).
Proof. apply (arg_case _ _ "(define t as '(a [b] |c|) [t])" ["t"]). vm_compute. reflexivity. Qed.
Definition ints_of (s : vm) (l : list ref) : list Z := flat_map (fun x => match data_at s x with Some (DInt z) => [z] | _ => [] end) l.
Example C77_case_many : a_case BiLen (fun _ _ s' r => match data_at s' r with Some (DVec l) => match ints_of s' l with [4; 1; 2]%Z => true | _ => false end | _ => false end).
Proof. apply (arg_case _ _ "(define t as [abcd] [t]) (define u as {D+7} [u]) (define f as (fn (x y) x) [f] '(x [x] y [y]) howto-ok)" ["t"; "u"; "f"]). vm_compute. reflexivity. Qed.

(** ** C78 *)
Theorem C78_vector : exists p, named "vector" p /\ reader p vector_result.
Proof. exists BiVector. split; [library_name|exact vector_reader]. Qed.
Print Assumptions C78_vector.
Theorem C78_list : exists p, named "list" p /\ reader p list_result.
Proof. exists BiList. split; [library_name|exact list_reader]. Qed.
Print Assumptions C78_list.
Theorem C78_queue : exists p, named "queue" p /\ reader p queue_result.
Proof. exists BiQueue. split; [library_name|exact queue_reader]. Qed.
Print Assumptions C78_queue.
Theorem C78_queue_max : exists p, named "queue-with-max-length" p /\ reader p queue_max_result.
Proof. exists BiQueueMax. split; [library_name|exact queue_max_reader]. Qed.
Print Assumptions C78_queue_max.
Theorem C78_hash_map : exists p, named "hash-map" p /\ reader p hash_map_result.
Proof. exists BiHashMap. split; [library_name|exact hash_map_reader]. Qed.
Print Assumptions C78_hash_map.
Example C78_queue_case : a_case BiQueueMax (fun _ _ s' r => match data_at s' r with Some (DQueue l (Some 2)) => match ints_of s' l with [4; 5]%Z => true | _ => false end | _ => false end).
Proof. apply (arg_case _ _ "(define n as {D+2} [n]) (define a as {D+3} [n]) (define b as {D+4} [n]) (define c as {D+5} [n])" ["n"; "a"; "b"; "c"]). vm_compute. reflexivity. Qed.
Example C78_vector_case : a_case BiVector (fun _ xs s' r => match xs, data_at s' r with [x; y], Some (DVec [x'; y']) => negb (x =? x')%N && (y =? y')%N | _, _ => false end).
Proof. apply (arg_case _ _ "(define n as {D+2} [n]) (define a as '({D+3}) [n])" ["n"; "a"]). vm_compute. reflexivity. Qed.
Example C78_hash_map_case : a_case BiHashMap (fun s xs s' r => match xs, data_at s' r with [k; v; k'; v'], Some (DMap m) =>
  Nat.eqb (numElements m) 2 && negb (match vcompare 5 (all s) k' k with Ret 0%Z => true | _ => false end) | _, _ => false end).
Proof. apply (arg_case _ _ "(define k as {D+2} [n]) (define v as '({D+3}) [n]) (define l as [x] [n])" ["k"; "v"; "l"; "k"]). vm_compute. reflexivity. Qed.
(** With equal keys both values are kept: (hash-map 1 'a 1 'b). *)
Theorem C78_equal_keys_refuted : a_case BiHashMap (fun _ xs s' r => match xs, data_at s' r with [k; v; _; w], Some (DMap m) =>
  match List.concat (buckets m) with [e] => match evals e with [x; y] => (x =? v)%N && (y =? w)%N | _ => false end | _ => false end | _, _ => false end).
Proof. apply (arg_case _ _ "(define k as {D+1} [n]) (define v as 'a [n]) (define w as 'b [n])" ["k"; "v"; "k"; "w"]). vm_compute. reflexivity. Qed.
Print Assumptions C78_equal_keys_refuted.

(** ** C79 *)
Theorem C79_doc : exists p, named "doc" p /\ reader p doc_result.
Proof. exists BiDoc. split; [library_name|exact doc_reader]. Qed.
Print Assumptions C79_doc.
Theorem C79_uid : exists p, named "uid" p /\ reader p uid_result.
Proof. exists BiUid. split; [library_name|exact uid_reader]. Qed.
Print Assumptions C79_uid.
(** Different values have different identities. *)
Theorem C79_uid_identity : forall n m a env x s r s' n' m' a' env' x' s1 r' s1' z z',
  arguments s a env [x] -> builtin_call n (Eval.eval m) BiUid a env s = Ret (r, s') -> data_at s' r = Some (DInt z) ->
  arguments s1 a' env' [x'] -> builtin_call n' (Eval.eval m') BiUid a' env' s1 = Ret (r', s1') -> data_at s1' r' = Some (DInt z') ->
  (z = z' <-> x = x').
Proof.
  intros n m a env x s r s' n' m' a' env' x' s1 r' s1' z z' A1 B1 D1 A2 B2 D2.
  destruct (uid_reader _ _ _ _ _ _ _ _ A1 B1) as (_ & _ & E1). destruct (uid_reader _ _ _ _ _ _ _ _ A2 B2) as (_ & _ & E2).
  rewrite E1 in D1. rewrite E2 in D2. injection D1 as <-. injection D2 as <-. lia.
Qed.
Print Assumptions C79_uid_identity.
Theorem C79_env_new : exists p, named "env-new" p /\ reader p env_new_result.
Proof. exists BiEnvNew. split; [library_name|exact env_new_reader]. Qed.
Print Assumptions C79_env_new.
Theorem C79_env_current : exists p, named "env-current" p /\ reader p env_current_result.
Proof. exists BiEnvCurrent. split; [library_name|exact env_current_reader]. Qed.
Print Assumptions C79_env_current.
Theorem C79_env_global : exists p, named "env-global" p /\ reader p env_global_result.
Proof. exists BiEnvGlobal. split; [library_name|exact env_global_reader]. Qed.
Print Assumptions C79_env_global.
Example C79_doc_case : a_case BiDoc (gives_data (fun d => match d with DStr [110%N; 49%N] => true | _ => false end)).
Proof. apply (arg_case _ _ "(define k as {D+2} [n1])" ["k"]). vm_compute. reflexivity. Qed.
Example C79_uid_case : a_case BiUid (fun _ xs s' r => match xs, data_at s' r with [x], Some (DInt z) => (z =? Z.of_N x)%Z | _, _ => false end).
Proof. apply (arg_case _ _ "(define k as {D+2} [n])" ["k"]). vm_compute. reflexivity. Qed.
Example C79_env_case : a_case BiEnvNew (gives_data (fun d => match d with DEnv [] None => true | _ => false end)).
Proof. apply (arg_case _ _ "(define k as {D+2} [n])" []). vm_compute. reflexivity. Qed.
Example C79_global_case : a_case BiEnvGlobal (fun s _ _ r => (r =? genv s)%N).
Proof. apply (arg_case _ _ "(define k as {D+2} [n])" []). vm_compute. reflexivity. Qed.
Example C79_current_case : a_case BiEnvCurrent (gives_data (fun d => match d with DEnv _ _ => true | _ => false end)).
Proof. apply (arg_case _ _ "(define k as {D+2} [n])" []). vm_compute. reflexivity. Qed.

(** ** C80 *)
Theorem C80_ln_at : exists p, named "ln@" p /\ reader p ln_at_result.
Proof. exists BiLnAt. split; [library_name|exact ln_at_reader]. Qed.
Print Assumptions C80_ln_at.
Example C80_case : a_case BiLnAt (fun s xs _ r => match xs with x :: _ => match data_at s x with Some (DVec [_; y; _]) => (r =? y)%N | _ => false end | [] => false end).
Proof. apply (arg_case _ _ "(define v as '({D+1} {D+2} {D+3}) [n]) (define i as {D-2} [n])" ["v"; "i"]). vm_compute. reflexivity. Qed.

(** ** C81 *)
Theorem C81_exit : exists p, named "exit" p /\ does p exit_result.
Proof. exists BiExit. split; [library_name|exact exit_does]. Qed.
Print Assumptions C81_exit.
Example C81_case : a_case BiExit (fun _ _ s' _ => quit s' && (exitCode s' =? 7)%Z).
Proof. apply (arg_case _ _ "(define v as {D+7} [n])" ["v"]). vm_compute. reflexivity. Qed.
