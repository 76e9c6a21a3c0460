(** C127: read-and-eval-path; C128: the arguments and the environment variables. *)
From Coq Require Import NArith ZArith Bool Lia Arith String List.
From Verif Require Import Repl SpecRepl ReplProofs PropsRepl.
From Verif Require Import Base Utf8 OString OStringProofs Input LexerProofs HMap Heap SpecHeap ValueOps Env Reader ToText Builtins Eval Read Boot Run SafeBase SpecText SpecTrace SpecSpecial SpecForm SpecCall SpecDefine SpecValue SpecBuiltin SpecOutside TraceProofs SpecialProofs SpecialEval DefineProofs BuiltinProofs BuiltinCases OutsideProofs SpecialForms PropsEval PropsBuiltin.
Import ListNotations.
Local Open Scope N_scope.
Local Open Scope string_scope.
Local Open Scope list_scope.

(** ** A machine with an outside, for the examples *)
Definition some_host : outer :=
  mkOuter (fun _ p => if text_eqb p (asc "program") then Some (asc "(define z as {D+4} [z]) (++ z)") else if text_eqb p (asc "blank") then Some (asc " ") else if text_eqb p (asc "empty") then Some [] else None)
    [asc "one"; asc "two"] [asc "HOME=/"; (asc "A=b" ++ [0%N] ++ asc "c")].
Lemma host_case p q pre names : match arg_state (with_outside (after_text machine pre) some_host) names with
  | Some (a, xs, s) => own_b s a && match builtin_call 50 (Eval.eval 50) p a (genv s) s with Ret (r, s') => q s xs s' r | _ => false end
  | None => false end = true -> a_case p q.
Proof.
  assert (G : forall s0, sane s0 -> match arg_state s0 names with
    | Some (a, xs, s) => own_b s a && match builtin_call 50 (Eval.eval 50) p a (genv s) s with Ret (r, s') => q s xs s' r | _ => false end
    | None => false end = true -> a_case p q).
  { intros s0 S0. destruct (arg_state s0 names) as [((a & xs) & s)|] eqn:EA; [|discriminate]. intros E. apply andb_true_iff in E as (E1 & E2).
    destruct (builtin_call 50 (Eval.eval 50) p a (genv s) s) as [[r s']| | | | |] eqn:EB; try discriminate.
    exists 50%nat, 50%nat, a, (genv s), xs, s, r, s'. split; [eapply arg_state_ok; eauto|]. auto. }
  apply G. apply sane_inv, inv_outside, sane_inv, after_text_sane, SpecialForms.machine_sane.
Qed.

(** ** C127 *)
(** One string: the text of the file at that path is read and evaluated in the
    global environment form by form, as [text_run] says; the result is that of the
    last form, or the first error.  Anything else, no file, a file without octets
    and one that does not begin with a character are errors. *)
Inductive path_result (s : vm) : list ref -> vm -> ref -> Prop :=
| path_text x t b u fuel vs s' r : data_at s x = Some (DStr t) -> file_at s t (Some b) -> b <> [] -> octets_say b u -> u <> [] ->
    text_run fuel u u None s vs (Some r) s' -> vs <> [] -> r = List.last vs 0 -> path_result s [x] s' r
| path_empty x t b s' r : data_at s x = Some (DStr t) -> file_at s t (Some b) -> octets_say b [] -> keeps (stack s) s s' -> complains s s' r -> path_result s [x] s' r
| path_missing x t s' r : data_at s x = Some (DStr t) -> file_at s t None -> keeps (stack s) s s' -> complains s s' r -> path_result s [x] s' r
| path_bad xs s' r : (forall x t, xs = [x] -> data_at s x <> Some (DStr t)) -> keeps (stack s) s s' -> complains s s' r -> path_result s xs s' r.
Theorem C127_read_and_eval_path_partial : exists p, named "read-and-eval-path" p /\ does p (fun s _ => path_result s).
Proof.
  exists BiReadEvalPath. split; [library_name|]. intros n m a env xs s r s' A E. cbn [builtin_call] in E. unfold b_read_eval_path in E.
  assert (BAD : new_error s = Ret (r, s') -> keeps (stack s) s s' /\ complains s s' r).
  { intros EN. assert (W : wp new_error (fun r s' => keeps (stack s) s s' /\ complains s s' r) s).
    { assert (I : Inv [] s) by (apply sane_inv, A). eapply (q_error [] s []); [exact (at_start true true [] s I)|]. intros r1 s1 H C. split; [|exact C]. eapply keeps_at; exact H. }
    exact (wp_ret_inv _ _ _ _ _ W EN). }
  apply bind_inv in E as (l & s1 & EL & E). unfold vec_of in EL. apply bind_inv in EL as (d & s2 & EG & EL). apply get_inv in EG as (-> & D). rewrite (ar_values _ _ _ _ A) in D. injection D as <-. injection EL as <- <-.
  destruct xs as [|x [|y xs]]; [destruct (BAD E); now constructor| |destruct (BAD E); now constructor].
  apply bind_inv in E as (d & s1 & EG & E). apply get_inv in EG as (-> & D).
  destruct d as [ |db|dz|df|t|dt|dt|dmsg dline|l|m0|l max|l|db denc|df|df|dp|dp|dv]; try (destruct (BAD E); apply path_bad; [intros x0 t [= <-]; congruence|assumption|assumption]).
  apply bind_inv in E as (p & s1 & EP & E). unfold lift in EP. destruct (str_get_c_string (text_str t)) as [q| | | | |] eqn:ET; try discriminate. injection EP as <- <-.
  apply path_right in ET. apply bind_inv in E as (f & s1 & EF & E). unfold read_file, read in EF. injection EF as EF <-.
  assert (FA : file_at s t f) by (exists (cstr (snd q)); auto). clear EF ET.
  destruct f as [[|c0 b]|].
  - destruct (BAD E). eapply path_empty; eauto. exists []. split; [reflexivity|]. split; [constructor|]. intros (c & q' & DC & EQ). destruct (utf8 c) eqn:U; [|discriminate]. clear - U. unfold utf8 in U. repeat destruct (_ <? _)%N; discriminate.
  - apply bind_inv in E as (u & s1 & EU & E). unfold lift in EU. destruct (octets_text (c0 :: b)) as [u0| | | | |] eqn:EO; try discriminate. injection EU as <- <-. apply octets_text_says in EO.
    apply bind_inv in E as (o & s1 & ER & E). apply need_inv in E as (-> & ->).
    destruct u0 as [|c1 u0].
    { unfold read_eval_by in ER. cbn [input_good input_new rest] in ER. apply bind_inv in ER as (r1 & s2 & EN & ER). injection ER as -> ->. destruct (BAD EN). eapply path_empty; eauto. }
    assert (NE : c1 :: u0 <> []) by discriminate. set (t1 := c1 :: u0) in *. destruct (C64_in_order m t1 s (Some r) s1 NE ER) as (vs & TR). pose proof (C64_value _ _ _ _ _ _ _ _ TR) as V.
    apply (path_text s x t (c0 :: b) t1 m vs); [exact D|exact FA|discriminate|exact EO|exact NE|exact TR| |]; destruct vs; try discriminate. injection V as ->. reflexivity.
  - destruct (BAD E). eapply path_missing; eauto.
Qed.
Print Assumptions C127_read_and_eval_path_partial.

Definition is_err_b (d : data) : bool := match d with DErr _ _ => true | _ => false end.
Example C127_case : a_case BiReadEvalPath (gives_data (is_int_b 5)).
Proof. apply (host_case _ _ "(define t as [program] [t])" ["t"]). vm_compute. reflexivity. Qed.
Example C127_case_missing : a_case BiReadEvalPath (gives_data is_err_b).
Proof. apply (host_case _ _ "(define t as [progra] [t])" ["t"]). vm_compute. reflexivity. Qed.
Example C127_case_empty : a_case BiReadEvalPath (gives_data is_err_b).
Proof. apply (host_case _ _ "(define t as [empty] [t])" ["t"]). vm_compute. reflexivity. Qed.
Example C127_case_bad : a_case BiReadEvalPath (gives_data is_err_b).
Proof. apply (host_case _ _ "(define t as [program] [t])" ["t"; "t"]). vm_compute. reflexivity. Qed.
(** That every file gives a value: refuted.  A file without a form ends the
    program (the check that the result is not NULL, see [need] in Env.v). *)
Theorem C127_refuted : run_text (with_outside machine some_host) "(read-and-eval-path [blank])" = Undef.
Proof. vm_compute. reflexivity. Qed.
Print Assumptions C127_refuted.
Example C127_run : contents (run_text (with_outside machine some_host) "(+ (read-and-eval-path [program]) z)") = Ret (Some (DInt 10)).
Proof. vm_compute. reflexivity. Qed.

(** A file with the text of a string is evaluated as that string is by
    read-and-eval-string: the same outcome, whatever it is. *)
Theorem C127_same_as_string : exists p q, named "read-and-eval-path" p /\ named "read-and-eval-string" q /\
  forall n m a a' env x y t u s, arguments s a env [x] -> arguments s a' env [y] -> data_at s x = Some (DStr t) -> data_at s y = Some (DStr u) ->
  Forall scalar t -> sound_text u -> file_at s t (Some (utf8_text u)) ->
  builtin_call n (Eval.eval m) p a env s = builtin_call n (Eval.eval m) q a' env s.
Proof.
  exists BiReadEvalPath, BiReadEvalString. split; [library_name|]. split; [library_name|]. intros n m a a' env x y t u s A A' DX DY ST SU (p & PA & F). cbn [builtin_call]. unfold b_read_eval_path, b_read_eval_string.
  assert (V : forall a0 l, data_at s a0 = Some (DVec l) -> vec_of a0 s = Ret (l, s)).
  { intros a0 l K. unfold vec_of, bind, get, bind, get_cell. unfold data_at in K. destruct (lookup (all s) a0) as [c|]; [|discriminate]. cbn in *. injection K as ->. reflexivity. }
  assert (G : forall a0 d, data_at s a0 = Some d -> get a0 s = Ret (d, s)).
  { intros a0 d K. unfold get, bind, get_cell. unfold data_at in K. destruct (lookup (all s) a0) as [c|]; [|discriminate]. cbn in *. injection K as ->. reflexivity. }
  assert (RB : forall X Y (k0 : M X) (k : X -> M Y) z s1 s2, k0 s1 = Ret (z, s2) -> bind k0 k s1 = k z s2) by (intros X Y k0 k z s1 s2 K; unfold bind; now rewrite K).
  rewrite (RB _ _ _ _ _ _ _ (V a _ (ar_values _ _ _ _ A))), (RB _ _ _ _ _ _ _ (V a' _ (ar_values _ _ _ _ A'))), (RB _ _ _ _ _ _ _ (G _ _ DX)), (RB _ _ _ _ _ _ _ (G _ _ DY)).
  destruct (get_c_string_scalar (text_str t) (or_introl eq_refl) ST) as (s1 & EG & _).
  assert (LG : lift (str_get_c_string (text_str t)) s = Ret (s1, utf8_text (ucs (text_str t)) ++ [0]%N, s)) by (unfold lift; now rewrite EG).
  rewrite (RB _ _ _ _ _ _ _ LG). cbn [snd]. assert (EP : cstr (utf8_text (ucs (text_str t)) ++ [0]%N) = p) by (rewrite (PA ST); apply path_right in EG; exact (EG ST)).
  rewrite EP. assert (RF : read_file p s = Ret (Some (utf8_text u), s)) by (unfold read_file, read; now rewrite F). rewrite (RB _ _ _ _ _ _ _ RF).
  assert (LC : lift (c_string_copy u) s = Ret (u, s)) by (unfold lift; now rewrite (copy_ok u SU)). rewrite (RB _ _ _ _ _ _ _ LC).
  pose proof (octets_text_ok u SU) as O. destruct (utf8_text u) as [|c b] eqn:EU.
  - assert (u = []) as ->. { destruct u as [|c u]; [reflexivity|]. rewrite utf8_text_cons in EU. apply app_eq_nil in EU as (EU & _). unfold utf8 in EU. repeat destruct (_ <? _)%N; discriminate. }
    unfold read_eval_by. cbn [input_good input_new rest]. unfold bind, ret, need. destruct (new_error s) as [[r s2]| | | | |]; reflexivity.
  - assert (LO : lift (octets_text (c :: b)) s = Ret (u, s)) by (unfold lift; now rewrite O). rewrite (RB _ _ _ _ _ _ _ LO). reflexivity.
Qed.
Print Assumptions C127_same_as_string.

(** ** C128 *)
Theorem C128_arguments : exists p, named "host-get-command-line-arguments" p /\ reader p (host_result o_arguments).
Proof. exists BiHostArguments. split; [library_name|exact arguments_reader]. Qed.
Print Assumptions C128_arguments.
Theorem C128_variables : exists p, named "host-get-environment-variables" p /\ reader p (host_result o_variables).
Proof. exists BiHostVariables. split; [library_name|exact variables_reader]. Qed.
Print Assumptions C128_variables.
Definition gives_strings (l : list text) (_ : vm) (_ : list ref) (s' : vm) (r : ref) : bool :=
  match data_at s' r with
  | Some (DVec ws) => Nat.eqb (List.length ws) (List.length l) && forallb (fun wt => match data_at s' (fst wt) with Some (DStr t) => text_eqb t (snd wt) | _ => false end) (combine ws l)
  | _ => false end.
Example C128_arguments_case : a_case BiHostArguments (gives_strings [asc "one"; asc "two"]).
Proof. apply (host_case _ _ "" []). vm_compute. reflexivity. Qed.
Example C128_variables_case : a_case BiHostVariables (gives_strings [asc "HOME=/"; asc "A=b"]).
Proof. apply (host_case _ _ "" []). vm_compute. reflexivity. Qed.
Example C128_case_bad : a_case BiHostArguments (gives_data is_err_b).
Proof. apply (host_case _ _ "(define t as {D+4} [t])" ["t"]). vm_compute. reflexivity. Qed.
(** No program changes what it sees of the outside. *)
Theorem C128_unchanged : forall n v env s o s', eval n v env s = Ret (o, s') -> outside s' = outside s.
Proof. exact eval_outside. Qed.
Print Assumptions C128_unchanged.
Theorem C128_unchanged_by_text : forall n i s o s', read_eval n i s = Ret (o, s') -> outside s' = outside s.
Proof. exact read_eval_outside. Qed.
Print Assumptions C128_unchanged_by_text.
(** What follows the script on the command line of octaspire-dern-repl is added to
    the arguments before the script is evaluated. *)
Theorem C128_script_arguments : forall fuel files args stdin o ts path rest t s m st s', meaning args (Start o) -> strings o = map utf8_text ts -> Forall textual ts -> script o = Some (path, rest) ->
  files path = Some (utf8_text t) -> textual t -> t <> [] -> interactive o = false -> program fuel files args stdin s = Ret (m, st, s') ->
  (exists x, loads fuel s ts (Some x) s' /\ m = [x] /\ st = 1%Z) \/
  (exists s1 s2, loads fuel s ts None s1 /\ given rest s1 s2 /\
     ((loads fuel s2 [t] None s' /\ m = [] /\ st = exitCode s') \/ (exists x, loads fuel s2 [t] (Some x) s' /\ x <> Incomplete /\ m = [x] /\ st = 1%Z))).
Proof.
  intros fuel files args stdin o ts path rest t s m st s' M S T SC F TT NT NI P. apply (C118_script fuel files args stdin o ts path rest t s m st s' M S T SC F TT NT NI) in P as [P|(s1 & L & P)]; [now left|].
  right. exists s1, (add_arguments rest s1). split; [exact L|]. split; [apply arguments_given|exact P].
Qed.
Print Assumptions C128_script_arguments.
Example C128_script_case : shown (program 60 (fun _ => Some (asc "(define a as (host-get-command-line-arguments) [a]) (if (== (ln@ a {D+1}) [y]) (exit (len a)))")) [asc "f.dern"; asc "x"; asc "y"; asc "z"] [] machine) = Ret ([], 3%Z).
Proof. vm_compute. reflexivity. Qed.
