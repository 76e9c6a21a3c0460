(** C116-C119: the stand-alone program. *)
From Coq Require Import List NArith ZArith Bool Lia String.
From Verif Require Import Base SpecText OStringProofs LexerProofs Input Lexer HMap Heap SpecHeap ValueOps Env ToText Eval Read Boot Run SpecRead SpecHistory SafeBase SafeRun SpecTrace TraceProofs SpecialForms Repl SpecRepl ReplProofs.
From Verif Require PropsSafe PropsReader.
Import ListNotations.
Local Open Scope string_scope.
Local Open Scope list_scope.
Local Open Scope N_scope.

Definition newline : string := String (Ascii.ascii_of_nat 10) "".
Definition line_of (t : string) : text := asc (t ++ newline)%string.
Definition no_files : octets -> option octets := fun _ => None.
(** What is left of a run: messages and status. *)
Definition shown (o : outcome (list message * Z * vm)) : outcome (list message * Z) := obind o (fun '(m, z, _) => Ret (m, z)).

(** ** C116 *)
(** A session without arguments: the lines [ls] are typed, and possibly a last one that
    is not finished.  Then the program greets, prompts and holds the conversation
    described by [talk] (SpecRepl.v), and its status is the exit code of the machine. *)
Theorem C116_conversation : forall fuel files ls unfinished s m st s',
  Forall typed ls -> textual unfinished -> ~ In 10 unfinished ->
  (program fuel files [] (utf8_text (List.concat ls ++ unfinished)) s = Ret (m, st, s') <->
   exists m', m = Greeting :: Prompt :: m' /\ st = exitCode s' /\ talk fuel s [] ls m' s').
Proof.
  intros fuel files ls u s m st s' T (SU & ZU) NU. unfold program. cbn [parse_args no_options strings script run_strings andb negb interactive]. unfold ret. cbn [obind].
  rewrite (lines_typed ls u T NU SU ZU). split.
  - destruct (session fuel (map utf8_text ls) [] s) as [[m1 s1]| | | | |] eqn:E; cbn [obind]; try discriminate. intros [= <- <- <-]. exists m1. split; [reflexivity|split; [reflexivity|]]. now apply session_talk.
  - intros (m' & -> & -> & K). apply session_talk in K; [|exact T]. now rewrite K.
Qed.
(** After every answer the program prompts, unless it has been asked to exit: lines
    after an (exit) are not looked at. *)
Theorem C116_nothing_after_exit : forall fuel s p ls m s' more, talk fuel s p ls m s' -> quit s' = true -> (exists a e t, m = a ++ [Answer e t]) -> talk fuel s p (ls ++ more) m s'.
Proof.
  intros fuel s p ls m s' more T. induction T as [s p|s p l ls e t s1 m s' A Q T IH|s p l ls e t s1 A Q|s p l ls s1 m s' U T IH]; intros QT (a & e' & t' & EM).
  - now destruct a.
  - cbn [app]. eapply t_answer; [exact A|exact Q|]. apply IH; [exact QT|]. destruct a as [|x [|y a]]; [discriminate EM|destruct m; discriminate EM|]. injection EM as _ _ ->. eauto.
  - cbn [app]. now eapply t_exit.
  - cbn [app]. eapply t_more; [exact U|]. apply IH; [exact QT|]. destruct a as [|x a]; [discriminate EM|]. injection EM as _ ->. eauto.
Qed.
(** The answer to a line depends on its first form only: what follows on the line
    is dropped. *)
Theorem C116_rest_dropped : forall fuel s p l1 l2 v r1 r2 s1, read_value (p ++ l1) s = Ret ((Some v, r1), s1) -> read_value (p ++ l2) s = Ret ((Some v, r2), s1) ->
  forall ls m s', talk fuel s p (l1 :: ls) m s' -> (exists e t m', m = Answer e t :: m') -> talk fuel s p (l2 :: ls) m s'.
Proof.
  intros fuel s p l1 l2 v r1 r2 s1 R1 R2 ls m s' T (e & t & m' & EM).
  assert (SAME : forall e t s2, answered fuel s (p ++ l1) e t s2 -> answered fuel s (p ++ l2) e t s2).
  { intros e0 t0 s2 (v' & r' & s1' & x & s3 & c & RV & K). rewrite R1 in RV. injection RV as <- _ <-. exists v, r2, s1, x, s3, c. auto. }
  subst m. inversion T; subst; [eapply t_answer|eapply t_exit]; eauto.
Qed.
(** A line with nothing but blanks or a comment at the prompt is undefined
    behaviour (repl:641-697). *)
Theorem C116_blank_line_refuted : forall fuel files w rest s, blank w -> typed w -> program fuel files [] (utf8_text w ++ rest) s = Undef.
Proof.
  intros fuel files w rest s B T. pose proof (typed_textual w T) as (TX & NE). unfold program. cbn [parse_args no_options strings script run_strings andb negb interactive]. unfold ret. cbn [obind].
  assert (L : lines (utf8_text w ++ rest) = utf8_text w :: lines rest).
  { destruct T as (a & -> & NL & SC & NZ). unfold lines. rewrite utf8_text_app. change (utf8_text [10]) with [10]. rewrite <- app_assoc. cbn [app]. apply lines_line, utf8_text_newline; [exact NL|apply textual_decodable; now split]. }
  rewrite L, (session_blank fuel w _ s B TX NE); [reflexivity|]. rewrite <- (app_nil_r w) at 1. now rewrite (proj1 (PropsReader.C27_blanks_are_insignificant w [] B)).
Qed.
(** Not every form that is typed is evaluated, and a form cannot be continued on the
    next line. *)
Theorem C116_every_form_refuted : shown (program 60 no_files [] (line_of "{D+1} (exit {D+3})") machine) = Ret ([Greeting; Prompt; Answer false (asc "{D+1}"); Prompt], 0%Z).
Proof. vm_compute. reflexivity. Qed.
Theorem C116_continued_form_refuted : match shown (program 60 no_files [] (line_of "(+ {D+1}" ++ line_of "{D+2})") machine) with
  | Ret ([Greeting; Prompt; Answer true _; Prompt; Answer false a; Prompt], _) => a = asc "{D+2}" | _ => False end.
Proof. vm_compute. reflexivity. Qed.
Definition a_talk : list text := [line_of "(+ {D+1} {D+2}) [dropped]"; line_of "'"; line_of "a"; line_of "(define y as {D+7} [y])"; line_of "y"; line_of "(exit y)"; line_of "y"].
Lemma line_typed t : ~ In 10 (asc t) -> forallb (fun c => (0 <? c) && (c <? 128)) (asc t) = true -> typed (line_of t).
Proof.
  intros NL C. exists (asc t). split; [unfold line_of, asc; clear; induction t as [|c t IH]; [reflexivity|]; cbn [String.append list_ascii_of_string map app]; now rewrite IH|]. split; [exact NL|]. rewrite forallb_forall in C.
  split; [apply Forall_forall; intros x J; specialize (C x J); unfold scalar; lia|]. intro J. specialize (C 0 J). discriminate C.
Qed.
Ltac no_ten := let K := fresh in intro K; vm_compute in K; repeat (destruct K as [K|K]; [discriminate K|]); exact K.
Example C116_a_talk : Forall typed a_talk /\ shown (program 60 no_files [] (utf8_text (List.concat a_talk ++ asc "y")) machine) =
  Ret ([Greeting; Prompt; Answer false (asc "{D+3}"); Prompt; MorePrompt; Answer false (asc "a"); Prompt; Answer false (asc "true"); Prompt; Answer false (asc "{D+7}"); Prompt; Answer false (asc "true")], 7%Z).
Proof. split; [repeat (constructor; [apply line_typed; [no_ten|reflexivity]|]); constructor|vm_compute; reflexivity]. Qed.
Example C116_a_blank_line : blank (line_of "  ; nothing") /\ typed (line_of "  ; nothing").
Proof.
  split; [|apply line_typed; [no_ten|reflexivity]]. change (line_of "  ; nothing") with (32 :: 32 :: 59 :: asc " nothing" ++ 10 :: []).
  apply blank_space; [unfold space; cbn; tauto|]. apply blank_space; [unfold space; cbn; tauto|]. apply blank_line; [no_ten|constructor].
Qed.

(** ** C117 *)
(** The status: 1 with a message that says what failed; 0 for version and usage;
    otherwise the exit code of the machine, which is 0 unless a program asked to exit. *)
Theorem C117_status : forall fuel files args stdin s m st s', program fuel files args stdin s = Ret (m, st, s') -> quit s = false -> exitCode s = 0%Z ->
  ((exists x, In x m /\ failing x) -> st = 1%Z) /\
  (~ (exists x, In x m /\ failing x) -> st = exitCode s' /\ (quit s' = false -> st = 0%Z)).
Proof.
  intros fuel files args stdin s m st s' P Q C. pose proof (program_later _ _ _ _ _ _ _ _ P) as (_ & _ & _ & _ & _ & X).
  destruct (program_status _ _ _ _ _ _ _ _ P) as [(F & ->)|[(N & ->)|(M & -> & ->)]].
  - split; [reflexivity|]. intro K. contradiction.
  - rewrite Forall_forall in N. split; [intros (x & J & F); now elim (N x J)|]. intros _. split; [reflexivity|]. intro Q'. rewrite (X Q'). exact C.
  - split; [intros (x & J & F); destruct M as [->| ->]; destruct J as [<-|[]]; destruct F|]. auto.
Qed.
(** Once a program has asked to exit, nothing that is read afterwards is evaluated:
    nothing is written and the exit code stands. *)
Theorem C117_exit_stands : forall fuel i s o s', read_eval fuel i s = Ret (o, s') -> quit s = true -> quit s' = true /\ exitCode s' = exitCode s /\ output s' = output s.
Proof. intros fuel i s o s' E Q. exact (q_read_eval fuel i s o s' E Q). Qed.
Theorem C117_program_exit_stands : forall fuel files args stdin s m st s', program fuel files args stdin s = Ret (m, st, s') -> quit s = true -> exitCode s' = exitCode s /\ output s' = output s.
Proof.
  intros fuel files args stdin s m st s' P Q. revert P. unfold program. destruct (parse_args false false no_options args) as [o| | |a]; try (intros [= _ _ <-]; auto).
  destruct (run_strings fuel (strings o) s) as [[[m1|] s1]| | | | |] eqn:E1; cbn [obind]; try discriminate; apply q_run_strings in E1; destruct (E1 Q) as (Q1 & C1 & O1); [intros [= _ _ <-]; auto|].
  destruct (match script o with Some (path, rest) => run_script fuel files path (add_arguments rest s1) | None => Ret (None, s1) end) as [[[m2|] s2]| | | | |] eqn:E2; cbn [obind]; try discriminate;
    (assert (S2 : stopped s1 s2) by (destruct (script o) as [[path l]|]; [exact (q_run_script _ _ _ _ _ _ E2)|try discriminate E2; injection E2 as <-; apply stopped_refl])); destruct (S2 Q1) as (Q2 & C2 & O2); [intros [= _ _ <-]; split; congruence|].
  destruct (_ && _); [intros [= _ _ <-]; split; congruence|]. destruct (session fuel (lines stdin) [] s2) as [[m3 s3]| | | | |] eqn:E3; cbn [obind]; try discriminate. intros [= _ _ <-]. destruct (q_session _ _ _ _ _ _ E3 Q2) as (_ & C3 & O3). split; congruence.
Qed.
(** The first string that fails ends the program: whatever else is given after it (if
    it is a command line at all), the script and standard input do not matter. *)
Theorem C117_first_failure : forall fuel files stdin is l x s s', written is l -> program fuel files l stdin s = Ret ([x], 1%Z, s') -> failing x ->
  forall more files' stdin' o, meaning (l ++ more) (Start o) -> program fuel files' (l ++ more) stdin' s = Ret ([x], 1%Z, s').
Proof.
  intros fuel files stdin is l x s s' W P F more files' stdin' o M. apply meaning_parse in M. pose proof (meaning_parse _ _ (m_options is l W)) as M0. unfold program in *. rewrite M0 in P. rewrite M.
  assert (R : run_strings fuel (strings (asked is None)) s = Ret (Some x, s')).
  { destruct (run_strings fuel (strings (asked is None)) s) as [[[m1|] s1]| | | | |]; cbn [obind] in P; try discriminate P; [congruence|]. cbn [script asked obind] in P.
    match type of P with (if ?b then _ else _) = _ => destruct b end; [discriminate P|]. destruct (session fuel (lines stdin) [] s1) as [[m3 s3]| | | | |]; cbn [obind] in P; discriminate P. }
  rewrite (parse_written _ _ W) in M. apply parse_strings in M as (extra & M). rewrite M. change (strings (plus no_options is)) with (strings (asked is None)). now rewrite (strings_app fuel _ extra _ _ _ R).
Qed.
Definition args_of (l : list string) : list octets := map asc l.
Example C117_cases :
  shown (program 60 no_files (args_of ["-e"; "(exit {D+5})"; "-e"; "(println [no])"; "-i"]) (line_of "(exit {D+6})") machine) = Ret ([Greeting; Prompt; Answer false (asc "nil")], 5%Z) /\
  (match shown (program 60 no_files (args_of ["-e"; ")"; "-i"]) (line_of "(exit {D+6})") machine) with Ret ([Complaint _], 1%Z) => True | _ => False end) /\
  shown (program 60 no_files (args_of ["-e"; "'"; "x"]) [] machine) = Ret ([Incomplete], 1%Z) /\
  shown (program 60 no_files (args_of ["x"; "-v"]) [] machine) = Ret ([Unreadable (asc "x")], 1%Z).
Proof. vm_compute. auto. Qed.
Example C117_machine : quit machine = false /\ exitCode machine = 0%Z. Proof. vm_compute. auto. Qed.

(** ** C118 *)
(** Every command line has exactly one meaning, and the program acts on it. *)
Theorem C118_command_line : forall args c, meaning args c <-> parse_args false false no_options args = c.
Proof.
  intros args c. split; [apply meaning_parse|]. intros <-. destruct (meaning_exists args) as (c & M). now rewrite (meaning_parse _ _ M).
Qed.
(** Asking for version or help, or an unknown option anywhere among the options: nothing is
    evaluated, whatever else is on the command line. *)
Theorem C118_information : forall fuel files args stdin s,
  (meaning args ShowVersion -> program fuel files args stdin s = Ret ([VersionText], 0%Z, s)) /\
  (meaning args ShowUsage -> program fuel files args stdin s = Ret ([UsageText], 0%Z, s)) /\
  (forall a, meaning args (Refuse a) -> program fuel files args stdin s = Ret ([UnknownArgument a; UsageText], 1%Z, s)).
Proof. intros fuel files args stdin s. unfold program. repeat split; intros; match goal with M : meaning _ _ |- _ => apply meaning_parse in M; rewrite M; reflexivity end. Qed.
(** Strings only: they are evaluated in order, and that is all. *)
Theorem C118_strings : forall fuel files args stdin o ts s m st s', meaning args (Start o) -> strings o = map utf8_text ts -> ts <> [] -> Forall textual ts -> script o = None -> interactive o = false ->
  (program fuel files args stdin s = Ret (m, st, s') <->
   (loads fuel s ts None s' /\ m = [] /\ st = exitCode s') \/ (exists x, loads fuel s ts (Some x) s' /\ m = [x] /\ st = 1%Z)).
Proof.
  intros fuel files args stdin o ts s m st s' M S NE T NS NI. apply meaning_parse in M. unfold program. rewrite M, S, NS, NI. destruct ts as [|t ts]; [contradiction|]. cbn [map]. change (utf8_text t :: map utf8_text ts) with (map utf8_text (t :: ts)).
  split.
  - destruct (run_strings fuel (map utf8_text (t :: ts)) s) as [[[x|] s1]| | | | |] eqn:E; cbn [obind]; try discriminate; apply strings_loads in E; try exact T; intros [= <- <- <-]; eauto.
  - intros [(L & -> & ->)|(x & L & -> & ->)]; apply strings_loads in L; try exact T; rewrite L; reflexivity.
Qed.
(** With a script: it comes after the strings, and after what follows its path on
    the command line has been added to the arguments programs see. *)
Theorem C118_script : forall fuel files args stdin o ts path rest t s m st s', meaning args (Start o) -> strings o = map utf8_text ts -> Forall textual ts -> script o = Some (path, rest) ->
  files path = Some (utf8_text t) -> textual t -> t <> [] -> interactive o = false ->
  (program fuel files args stdin s = Ret (m, st, s') <->
   (exists x, loads fuel s ts (Some x) s' /\ m = [x] /\ st = 1%Z) \/
   (exists s1, loads fuel s ts None s1 /\
     ((loads fuel (add_arguments rest s1) [t] None s' /\ m = [] /\ st = exitCode s') \/ (exists x, loads fuel (add_arguments rest s1) [t] (Some x) s' /\ x <> Incomplete /\ m = [x] /\ st = 1%Z)))).
Proof.
  intros fuel files args stdin o ts path rest t s m st s' M S T SC F TT NT NI. apply meaning_parse in M. unfold program. rewrite M, S, SC, NI. split.
  - destruct (run_strings fuel (map utf8_text ts) s) as [[[x|] s1]| | | | |] eqn:E; cbn [obind]; try discriminate; apply strings_loads in E; try exact T; [intros [= <- <- <-]; eauto|].
    destruct (run_script fuel files path (add_arguments rest s1)) as [[[x|] s2]| | | | |] eqn:E2; cbn [obind]; try discriminate; apply (script_loads fuel files path t (add_arguments rest s1) _ _ TT NT F) in E2 as (E2 & N2).
    + intros [= <- <- <-]. right. exists s1. split; [exact E|]. right. exists x. repeat split; auto. congruence.
    + destruct ts; cbn [map negb andb]; intros [= <- <- <-]; right; exists s1; auto.
  - intros [(x & L & -> & ->)|(s1 & L & [(K & -> & ->)|(x & K & NX & -> & ->)])]; apply strings_loads in L; try exact T; rewrite L; cbn [obind]; [reflexivity|..].
    + assert (R : run_script fuel files path (add_arguments rest s1) = Ret (None, s')) by (apply (script_loads fuel files path t (add_arguments rest s1) _ _ TT NT F); split; [exact K|discriminate]). rewrite R. cbn [obind].
      now destruct ts.
    + assert (R : run_script fuel files path (add_arguments rest s1) = Ret (Some x, s')) by (apply (script_loads fuel files path t (add_arguments rest s1) _ _ TT NT F); split; [exact K|congruence]). rewrite R. reflexivity.
Qed.
(** A script that cannot be read, or is empty. *)
Theorem C118_no_script : forall fuel files args stdin o path rest s, meaning args (Start o) -> strings o = [] -> script o = Some (path, rest) -> files path = None \/ files path = Some [] ->
  program fuel files args stdin s = Ret ([Unreadable path], 1%Z, add_arguments rest s).
Proof. intros fuel files args stdin o path rest s M S SC F. apply meaning_parse in M. unfold program. rewrite M, S, SC. cbn [run_strings obind]. unfold ret. cbn [obind]. unfold run_script. destruct F as [->| ->]; reflexivity. Qed.
(** Without strings and script, or with -i, the interactive loop follows. *)
Theorem C118_interactive : forall fuel files args stdin o ts s s1, meaning args (Start o) -> strings o = map utf8_text ts -> Forall textual ts -> script o = None -> ts = [] \/ interactive o = true ->
  loads fuel s ts None s1 -> program fuel files args stdin s = program fuel files [] stdin s1.
Proof.
  intros fuel files args stdin o ts s s1 M S T NS IT L. apply meaning_parse in M. unfold program. rewrite M, S, NS. apply strings_loads in L; [|exact T]. rewrite L. cbn [obind parse_args no_options strings script run_strings]. unfold ret. cbn [obind].
  destruct IT as [->|I]; [reflexivity|]. destruct ts; cbn [map]; [reflexivity|]. rewrite I. reflexivity.
Qed.
(** A script that is blank aborts the program. *)
Theorem C118_blank_script_refuted : program 60 (fun _ => Some (asc " ")) (args_of ["x"]) [] machine = Abort.
Proof. vm_compute. reflexivity. Qed.
Example C118_a_command_line : let o := mkOptions false true false false (args_of ["{D+1}"]) (args_of ["d"]) (Some (asc "x", args_of ["-v"; "y"])) in
  meaning (args_of ["-e"; "{D+1}"; "-i"; "--include"; "d"; "x"; "-v"; "y"]) (Start o) /\
  meaning (args_of ["-e"; "-v"]) (Start (asked [Evaluate (asc "-v")] None)) /\ meaning (args_of ["-c"; "-e"; "x"; "--verbose"]) (Refuse (asc "--verbose")).
Proof. split; [|split]; apply C118_command_line; vm_compute; reflexivity. Qed.
Example C118_a_script : shown (program 60 (fun _ => Some (asc "(define y as {D+7} [y]) (exit (+ y x))")) (args_of ["-e"; "(define x as {D+2} [x])"; "f.dern"; "-i"]) [] machine) = Ret ([], 9%Z).
Proof. vm_compute. reflexivity. Qed.

(** ** C119 *)
(** Whatever is given on the command line, in the script and on standard input (any
    octets): the machine stays consistent, its stack is as it was, and no run ends in
    the abort of an unbalanced stack. *)
Theorem C119_consistent : forall fuel files args stdin s, sane s ->
  program fuel files args stdin s <> Unbalanced /\
  forall m st s', program fuel files args stdin s = Ret (m, st, s') -> sane s' /\ stack s' = stack s /\ later s s'.
Proof.
  intros fuel files args stdin s S. split; [apply program_balanced|]. intros m st s' P. pose proof (proj1 (sane_inv s) S) as A. pose proof (program_ok true fuel files args stdin s A) as K. rewrite P in K. destruct K as (K1 & K2 & _).
  split; [now apply sane_inv|]. split; [exact K2|]. eapply program_later. exact P.
Qed.
(** With the functions of C66_memory_safe_partial no freed value is used. *)
Theorem C119_memory_safe_partial : forall lib limit addresses messages out fuel files args stdin,
  PropsSafe.functions_only lib -> PropsSafe.safe_library lib -> forall u s, boot lib (empty_vm limit addresses messages) = Ret (u, s) -> program fuel files args stdin (with_outside s out) <> Dangling.
Proof.
  intros lib limit addresses messages out fuel files args stdin FO SL u s B. pose proof (PropsSafe.session_gen false lib limit addresses messages out fuel [] FO (fun _ => SL)) as H. unfold PropsSafe.session in H. rewrite B in H. cbn [obind snd PropsSafe.texts] in H. destruct H as (A & _).
  pose proof (program_ok false fuel files args stdin (with_outside s out) A) as K. intro E. rewrite E in K. discriminate K.
Qed.
Example C119_machine : sane machine. Proof. exact machine_sane. Qed.
Example C119_garbage : shown (program 60 no_files [] [255; 10; 40; 10; 34; 200; 10] machine) <> Undef.
Proof. vm_compute. discriminate. Qed.

Print Assumptions C116_conversation.
Print Assumptions C116_nothing_after_exit.
Print Assumptions C116_rest_dropped.
Print Assumptions C116_blank_line_refuted.
Print Assumptions C117_status.
Print Assumptions C117_exit_stands.
Print Assumptions C117_program_exit_stands.
Print Assumptions C117_first_failure.
Print Assumptions C118_command_line.
Print Assumptions C118_information.
Print Assumptions C118_strings.
Print Assumptions C118_script.
Print Assumptions C118_no_script.
Print Assumptions C118_interactive.
Print Assumptions C119_consistent.
Print Assumptions C119_memory_safe_partial.
