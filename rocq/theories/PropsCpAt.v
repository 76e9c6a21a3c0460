(** C108: what cp@ gives. *)
From Coq Require Import String List NArith ZArith Bool.
From Coq Require Import Floats.SpecFloat.
From Verif Require Import Base SpecSeq OString HMap Heap SpecHeap ValueOps Env Builtins Eval Boot Run Checks SafeBase SpecText SpecTrace SpecSpecial SpecCall SpecReal SpecBuiltin SpecWrite SpecPlus SpecCpAt TraceProofs SpecialForms BuiltinProofs BuiltinCases PlusProofs CpAtProofs PropsCall PropsBuiltin PropsSearch PropsWrite PropsOutput.
Local Open Scope string_scope.
Local Open Scope list_scope.
Import ListNotations.
Local Open Scope N_scope.

Theorem C108_cp_at : exists p, named "cp@" p /\ reader p cp_at_result.
Proof. exists BiCpAt. split; [library_name|exact cp_at_reader]. Qed.
Print Assumptions C108_cp_at.

Example C108_character : a_case BiCpAt (gives_data (fun d => match d with DChar [99] => true | _ => false end)).
Proof. apply (arg_case _ _ "(define a as [abc] [n]) (define b as {D-1} [n])" ["a"; "b"]). vm_compute. reflexivity. Qed.
Example C108_characters : a_case BiCpAt (fun _ _ s' r => match data_at s' r with Some (DVec l) => match flat_map (fun x => match data_at s' x with Some (DChar z) => z | _ => [] end) l with [98; 99; 100] => true | _ => false end | _ => false end).
Proof. apply (arg_case _ _ "(define a as [abcde] [n]) (define b as {D+1} [n]) (define c as {D-2} [n])" ["a"; "b"; "c"]). vm_compute. reflexivity. Qed.
Example C108_element : a_case BiCpAt (fun _ _ s' r => match data_at s' r with Some (DVec l) => match ints_of s' l with [4; 5]%Z => true | _ => false end | _ => false end).
Proof. apply (arg_case _ _ "(define a as '({D+1} ({D+4} {D+5})) [n]) (define b as {D+1.5} [n])" ["a"; "b"]). vm_compute. reflexivity. Qed.
Example C108_elements : a_case BiCpAt (fun _ _ s' r => match data_at s' r with Some (DVec l) => match ints_of s' l with [8; 9]%Z => true | _ => false end | _ => false end).
Proof. apply (arg_case _ _ "(define a as '({D+7} {D+8} {D+9}) [n]) (define b as {D+1} [n]) (define c as {D+2} [n])" ["a"; "b"; "c"]). vm_compute. reflexivity. Qed.
Example C108_outside : a_case BiCpAt (gives_data is_error_b).
Proof. apply (arg_case _ _ "(define a as '({D+7} {D+8} {D+9}) [n]) (define b as {D+3} [n])" ["a"; "b"]). vm_compute. reflexivity. Qed.
Example C108_value : a_case BiCpAt (gives_data (is_int_b 2)).
Proof. apply (arg_case _ _ "(define a as (hash-map 'k {D+2}) [n]) (define b as 'k [n]) (define c as 'hash [n])" ["a"; "b"; "c"]). vm_compute. reflexivity. Qed.
Example C108_bit : a_case BiCpAt (gives_data (is_int_b 1)).
Proof. apply (arg_case _ _ "(define a as {D-5} [n]) (define b as {D-1} [n])" ["a"; "b"]). vm_compute. reflexivity. Qed.
Example C108_version : a_case BiCpAt (gives_data (is_int_b 3)).
Proof. apply (arg_case _ _ "(define a as 1.2.3 [n]) (define b as {D-1} [n])" ["a"; "b"]). vm_compute. reflexivity. Qed.
