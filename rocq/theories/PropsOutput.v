(** C98-C101: string-format, print, println, print-readably; what no program can
    undo.  See SpecOutput.v, SpecReal.v, SpecPrint.v and SpecHistory.v. *)
From Coq Require Import NArith ZArith Bool Lia Arith String List.
From Coq Require Import Floats.SpecFloat.
From Verif Require Import Base Input HMap Heap SpecHeap ValueOps Env RealText Builtins Eval Read Boot Run Checks SafeBase SpecText SpecTrace SpecSpecial SpecForm SpecCall SpecDefine SpecEval SpecValue SpecReal SpecPrint SpecBuiltin SpecWrite SpecOutput SpecHistory SpecSched TraceProofs SpecialForms RealProofs RealUnique BuiltinProofs BuiltinCases PropsBuiltin OutputProofs HistoryProofs.
Import ListNotations.
Local Open Scope N_scope.
Local Open Scope string_scope.
Local Open Scope list_scope.

Definition is_text_b (u : string) (d : data) : bool := match d with DStr t => text_eqb t (asc u) | _ => false end.
Definition is_error_b (d : data) : bool := match d with DErr _ _ => true | _ => false end.
(** What a call has added to standard output. *)
Definition says (u : list N) (s s' : vm) : bool := text_eqb (output s') (output s ++ u).

(** ** C98 *)
Theorem C98_string_format : exists p, named "string-format" p /\ reader p string_format_result.
Proof. exists BiStringFormat. split; [library_name|exact string_format_reader]. Qed.
Print Assumptions C98_string_format.
Example C98_case : a_case BiStringFormat (gives_data (is_text_b "x=ab, '{}{!, ({D-7} [q]) ''{D+2.5} '{}")).
Proof. apply (arg_case _ _ "(define f as [x={}, '{}{!, {} ''{} '{}] [n]) (define a as [ab] [n]) (define b as '({D-7} [q]) [n]) (define c as {D+2.5} [n]) (define d as [unused] [n])" ["f"; "a"; "b"; "c"; "d"]). vm_compute. reflexivity. Qed.
Example C98_missing : a_case BiStringFormat (gives_data is_error_b).
Proof. apply (arg_case _ _ "(define f as [x={} {}] [n]) (define a as [ab] [n])" ["f"; "a"]). vm_compute. reflexivity. Qed.
Example C98_one : a_case BiStringFormat (gives_data (is_text_b "[x={}]")).
Proof. apply (arg_case _ _ "(define f as [x={}] [n])" ["f"]). vm_compute. reflexivity. Qed.

(** ** C99 *)
Theorem C99_print : exists p, named "print" p /\ does p print_result.
Proof. exists BiPrint. split; [library_name|exact print_does]. Qed.
Print Assumptions C99_print.
Theorem C99_println : exists p, named "println" p /\ does p println_result.
Proof. exists BiPrintln. split; [library_name|exact println_does]. Qed.
Print Assumptions C99_println.
Example C99_case : a_case BiPrint (fun s _ s' r => says (asc "x={D+7}.") s s' && match data_at s' r with Some (DBool true) => true | _ => false end).
Proof. apply (arg_case _ _ "(define f as [x={}.] [n]) (define a as {D+7} [n])" ["f"; "a"]). vm_compute. reflexivity. Qed.
Example C99_missing : a_case BiPrintln (fun s _ s' r => says (asc "x={D+7}." ++ [10%N]) s s' && match data_at s' r with Some (DErr _ _) => true | _ => false end).
Proof. apply (arg_case _ _ "(define f as [x={}.{}!] [n]) (define a as {D+7} [n])" ["f"; "a"]). vm_compute. reflexivity. Qed.
Example C99_list : a_case BiPrintln (fun s _ s' _ => says (asc "(list {D+1} [a])" ++ [10%N]) s s').
Proof. apply (arg_case _ _ "(define f as (list {D+1} [a]) [n]) (define a as {D+7} [n])" ["f"; "a"]). vm_compute. reflexivity. Qed.

(** ** C100 *)
Theorem C100_print_readably : exists p, named "print-readably" p /\ does p print_readably_result.
Proof. exists BiPrintReadably. split; [library_name|exact print_readably_does]. Qed.
Print Assumptions C100_print_readably.
Example C100_case : a_case BiPrintReadably (fun s _ s' r => readably s && negb (readably s') && match data_at s' r with Some (DBool false) => true | _ => false end).
Proof. apply (arg_case _ _ "(define f as false [n])" ["f"]). vm_compute. reflexivity. Qed.
(** Afterwards values are printed for people. *)
Example C100_plain : a_case BiPrint (fun s _ s' _ => says (asc "(-7 q 2.5)") s s').
Proof. apply (arg_case _ _ "(define b as '({D-7} [q] {D+2.5}) [n]) (print-readably false)" ["b"]). vm_compute. reflexivity. Qed.

(** ** C101 *)

(** For every machine, form, environment and text, and for every sequence of texts. *)
Theorem C101_evaluation : forall n v env s o s', eval n v env s = Ret (o, s') -> later s s'.
Proof. exact eval_later. Qed.
Print Assumptions C101_evaluation.
Theorem C101_texts : forall n l s os s', run_texts n l s = Ret (os, s') -> later s s'.
Proof.
  intros n. induction l as [|t l IH]; intros s os s' E; cbn [run_texts] in E; [injection E as _ <-; apply later_refl|].
  destruct (read_eval n (input_new t) s) as [[o s1]| | | | |] eqn:E1; try discriminate. cbn [obind fst snd] in E.
  destruct (run_texts n l s1) as [[os1 s2]| | | | |] eqn:E2; try discriminate. cbn [obind fst snd] in E. injection E as _ <-.
  eapply later_trans; [eapply read_eval_later; exact E1|eapply IH; exact E2].
Qed.
Print Assumptions C101_texts.
Example C101_case : match run_texts 60 [asc "(println [a{}] {D+1})"; asc "(for i in '({D+1} {D+2}) (print i))"] machine with
  | Ret (_, s) => text_eqb (output s) (asc "a{D+1}" ++ [10] ++ asc "{D+1}{D+2}") && (nextId machine <? nextId s)%N | _ => false end = true.
Proof. vm_compute. reflexivity. Qed.

(** ** C102 *)

(** The text a real is printed as: its value rounded to six significant digits
    (ties to even), in the shorter of two notations; every real but NaN has one,
    and only one. *)
Theorem C102_real_text : forall f u, real_text f u <-> g_text f = Ret u.
Proof.
  intros f u. split; [|apply g_text_spec]. intros R.
  assert (N : f <> S754_nan) by (intros ->; inversion R). destruct (g_text_total f N) as (v & E). rewrite E. f_equal. eapply real_text_unique; [apply g_text_spec; exact E|exact R].
Qed.
Print Assumptions C102_real_text.
Theorem C102_every_real : forall f, f <> S754_nan -> exists! u, real_text f u.
Proof.
  intros f N. destruct (g_text_total f N) as (u & E). exists u. split; [now apply g_text_spec|]. intros v R. eapply real_text_unique; [apply g_text_spec; exact E|exact R].
Qed.
Print Assumptions C102_every_real.
(** 2/3, 1e-5, 1234567.5 and -0.0001. *)
Example C102_cases : map (fun f => match g_text f with Ret u => u | _ => [] end)
    [SFdiv 53 1024 (of_int 2) (of_int 3); SFdiv 53 1024 (of_int 1) (of_int 100000); SFdiv 53 1024 (of_int 2469135) (of_int 2); SFdiv 53 1024 (of_int (-1)) (of_int 10000)]
  = [asc "0.666667"; asc "1e-05"; asc "1.23457e+06"; asc "-0.0001"].
Proof. vm_compute. reflexivity. Qed.
