(** C107: what +, -, *, / and mod give for all arguments. *)
From Coq Require Import String List NArith ZArith Bool.
From Coq Require Import Floats.SpecFloat.
From Verif Require Import Base SpecSeq OString HMap Heap SpecHeap ValueOps Env Builtins Eval Boot Run Checks SafeBase SpecText SpecTrace SpecSpecial SpecCall SpecReal SpecBuiltin SpecWrite SpecPlus TraceProofs SpecialForms BuiltinProofs BuiltinCases PlusProofs PropsCall PropsBuiltin PropsSearch PropsWrite PropsOutput.
Local Open Scope string_scope.
Local Open Scope list_scope.
Import ListNotations.
Local Open Scope N_scope.

Theorem C107_plus : exists p, named "+" p /\ reader p plus_result.
Proof. exists BiPlus. split; [library_name|exact plus_reader]. Qed.
Print Assumptions C107_plus.
Theorem C107_times : exists p, named "*" p /\ reader p times_result.
Proof. exists BiTimes. split; [library_name|exact times_reader]. Qed.
Print Assumptions C107_times.
Theorem C107_slash : exists p, named "/" p /\ reader p slash_result.
Proof. exists BiDiv. split; [library_name|exact slash_reader]. Qed.
Print Assumptions C107_slash.
Theorem C107_mod : exists p, named "mod" p /\ reader p mod_result.
Proof. exists BiMod. split; [library_name|exact mod_reader]. Qed.
Print Assumptions C107_mod.
(** With a first argument that is no string, - changes nothing. *)
Theorem C107_minus : exists p, named "-" p /\ forall n m a env xs s r s', arguments s a env xs -> no_string s xs -> builtin_call n (Eval.eval m) p a env s = Ret (r, s') ->
  keeps (stack s) s s' /\ minus_result s xs s' r.
Proof. exists BiMinus. split; [library_name|exact minus_quiet]. Qed.
Print Assumptions C107_minus.
(** With a string first, it changes that string. *)
Theorem C107_minus_text : exists p, named "-" p /\ forall n m a env x t s r s' v, arguments s a env (x :: t) -> data_at s x = Some (DStr v) -> builtin_call n (Eval.eval m) p a env s = Ret (r, s') ->
  exists evs, trace (Eval.eval m) (stack s) s evs s' /\ minus_text_result s x t evs s' r.
Proof. exists BiMinus. split; [library_name|exact minus_texts]. Qed.
Print Assumptions C107_minus_text.

Definition is_real_b (z : Z) (d : data) : bool := match d with DReal f => SFeqb f (of_int z) | _ => false end.
Definition int_map_b (s : vm) (m : hmap ref ref) : list (Z * Z) :=
  flat_map (fun e => match data_at s (ekey e), map (data_at s) (evals e) with Some (DInt k), [Some (DInt v)] => [(k, v)] | _, _ => [] end) (List.concat (buckets m)).

Example C107_sum : a_case BiPlus (gives_data (is_int_b 12)).
Proof. apply (arg_case _ _ "(define a as {D+7} [n]) (define b as {D+5} [n])" ["a"; "b"]). vm_compute. reflexivity. Qed.
Example C107_sum_real : a_case BiPlus (gives_data (is_real_b 10)).
Proof. apply (arg_case _ _ "(define a as {D+7} [n]) (define b as {D+2.5} [n]) (define c as {D+0.5} [n])" ["a"; "b"; "c"]). vm_compute. reflexivity. Qed.
Example C107_sum_none : a_case BiPlus (gives_data (is_int_b 0)).
Proof. apply (arg_case _ _ "" []). vm_compute. reflexivity. Qed.
Example C107_sum_stops : a_case BiPlus (gives_data is_error_b).
Proof. apply (arg_case _ _ "(define a as {D+7} [n]) (define b as [x] [n])" ["a"; "b"]). vm_compute. reflexivity. Qed.
Example C107_text : a_case BiPlus (gives_data (fun d => match d with DStr [97; 98; 99; 98] => true | _ => false end)).
Proof. apply (arg_case _ _ "(define a as [a] [n]) (define b as |b| [n]) (define c as [cb] [n])" ["a"; "b"; "c"]). vm_compute. reflexivity. Qed.
Example C107_symbol : a_case BiPlus (gives_data (fun d => match d with DSym [97; 98] => true | _ => false end)).
Proof. apply (arg_case _ _ "(define a as 'a [n]) (define b as 'b [n])" ["a"; "b"]). vm_compute. reflexivity. Qed.
Example C107_vector : a_case BiPlus (fun _ _ s' r => match data_at s' r with Some (DVec l) => match ints_of s' l with [1; 2; 3]%Z => true | _ => false end | _ => false end).
Proof. apply (arg_case _ _ "(define a as '({D+1} {D+2}) [n]) (define b as {D+3} [n])" ["a"; "b"]). vm_compute. reflexivity. Qed.
Example C107_map : a_case BiPlus (fun _ _ s' r => match data_at s' r with Some (DMap m) => match int_map_b s' m with [(1, 2); (3, 4)]%Z | [(3, 4); (1, 2)]%Z => true | _ => false end | _ => false end).
Proof. apply (arg_case _ _ "(define a as (hash-map {D+1} {D+2}) [n]) (define b as {D+3} [n]) (define c as {D+4} [n])" ["a"; "b"; "c"]). vm_compute. reflexivity. Qed.
Example C107_version : a_case BiPlus (gives_data (fun d => match d with DSemver v => (Semver.major v =? 3)%N | _ => false end)).
Proof. apply (arg_case _ _ "(define a as 1.2.3 [n]) (define b as 2.0.0 [n])" ["a"; "b"]). vm_compute. reflexivity. Qed.
Example C107_product : a_case BiTimes (gives_data (is_int_b (-42))).
Proof. apply (arg_case _ _ "(define a as {D+7} [n]) (define b as {D-6} [n])" ["a"; "b"]). vm_compute. reflexivity. Qed.
Example C107_quotient : a_case BiDiv (gives_data (is_real_b 3)).
Proof. apply (arg_case _ _ "(define a as {D+12} [n]) (define b as {D+8} [n]) (define c as {D+0.5} [n])" ["a"; "b"; "c"]). vm_compute. reflexivity. Qed.
Example C107_quotient_zero : a_case BiDiv (gives_data is_error_b).
Proof. apply (arg_case _ _ "(define a as {D+12} [n]) (define b as {D+0} [n])" ["a"; "b"]). vm_compute. reflexivity. Qed.
Example C107_remainder : a_case BiMod (gives_data (is_int_b (-1))).
Proof. apply (arg_case _ _ "(define a as {D-7} [n]) (define b as {D+2} [n])" ["a"; "b"]). vm_compute. reflexivity. Qed.
Example C107_difference : a_case BiMinus (gives_data (is_int_b (-4))).
Proof. apply (arg_case _ _ "(define a as {D+7} [n]) (define b as {D+5} [n]) (define c as {D+6} [n])" ["a"; "b"; "c"]). vm_compute. reflexivity. Qed.
Example C107_negation : a_case BiMinus (gives_data (is_real_b (-2))).
Proof. apply (arg_case _ _ "(define a as {D+2.0} [n])" ["a"]). vm_compute. reflexivity. Qed.
Example C107_text_removed : a_case BiMinus (fun s xs s' r => match xs with x :: _ => (x =? r)%N && match data_at s' r with Some (DStr [98; 98]) => true | _ => false end | _ => false end).
Proof. apply (arg_case _ _ "(define a as [abab] [n]) (define b as |a| [n])" ["a"; "b"]). vm_compute. reflexivity. Qed.
