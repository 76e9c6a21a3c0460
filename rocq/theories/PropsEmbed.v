(** C120-C124: programs that embed the machine. *)
From Coq Require Import List NArith ZArith Bool Lia String.
From Verif Require Import Base SpecText OStringProofs LexerProofs Input Lexer HMap Heap SpecHeap GcProofs VmProofs ValueOps Env SpecEnv EnvProofs ToText Eval Read Boot Run SpecKept Repl ReplProofs Embed SpecEmbed StackProofs SafeBase SafeLib SafeRun EmbedProofs.
From Verif Require SpecTrace SpecSpecial SpecForm SpecCall SpecCalled TraceProofs EmbedCall EmbedKept PropsSafe PropsEnv Relate.
Import ListNotations.
Local Open Scope string_scope.
Local Open Scope list_scope.
Local Open Scope N_scope.
Definition no_files : octets -> option octets := fun _ => None.

(** ** C120 *)
(** A machine just made, with the functions of C66_memory_safe_partial, and a host
    that follows the rule of SpecEmbed.v in everything it did: its next request,
    when it follows the rule, uses no freed value and does not end in the abort of
    an unbalanced stack; the stack is the values it has pushed, on the global
    environment; and the values it may use exist. *)
Theorem C120_memory_safe_partial : forall lib limit addresses messages u s0, PropsSafe.functions_only lib -> PropsSafe.safe_library lib ->
  boot lib (empty_vm limit addresses messages) = Ret (u, s0) -> forall p l s, history s0 p l s ->
  (forall fuel files q, obeys p l s q -> perform fuel files q s <> Dangling /\ perform fuel files q s <> Unbalanced) /\
  stack s = p ++ [genv s] /\ genv s = genv s0 /\ (forall x, held s l x -> exists c, lookup (all s) x = Some c).
Proof.
  intros lib limit addresses messages u s0 FO SL B p l s H.
  pose proof (PropsSafe.session_gen false lib limit addresses messages (outside s0) 0 [] FO (fun _ => SL)) as A. unfold PropsSafe.session in A. rewrite B in A. cbn [obind snd PropsSafe.texts] in A. replace (with_outside s0 (outside s0)) with s0 in A by now destruct s0. destruct A as (A & ST).
  assert (IG : In (genv s0) (stack s0)) by (rewrite ST; now left).
  pose proof (hosted_history false s0 A IG p l s H) as K. pose proof K as (A1 & S1 & _ & G1 & L1). split; [|split; [|split; [exact G1|]]].
  - intros fuel files q OB. pose proof (hosted_step false (stack s0) (genv s0) fuel files q p l s K OB) as W. unfold SafeBase.wp in W.
    split; intros E; rewrite E in W; [discriminate W|].
    destruct q; try (match type of E with perform _ _ ?q _ = _ => pose proof (bal_perform fuel files q ltac:(split; discriminate) (stack s) s eq_refl) as X; rewrite E in X; exact X end).
    destruct OB as (p' & ->). cbn [perform] in E. unfold done, bind, pop in E. rewrite S1 in E. cbn [app] in E. rewrite N.eqb_refl in E. discriminate E.
  - now rewrite S1, ST, G1.
  - intros x HX. pose proof (held_good false s l x A1 L1 HX) as (_ & _ & LV). specialize (LV eq_refl). unfold SafeBase.live in LV. destruct (lookup (all s) x); [eauto|contradiction].
Qed.
(** With the whole library and any files, from any machine that is consistent and has
    its global environment on its stack: it stays so, and every value the host may
    use was made before. *)
Theorem C120_consistent : forall s0, SpecTrace.sane s0 -> In (genv s0) (stack s0) -> forall p l s, history s0 p l s ->
  SpecTrace.sane s /\ stack s = p ++ stack s0 /\ genv s = genv s0 /\ (forall x, held s l x -> x < nextId s) /\
  (forall fuel files q, obeys p l s q -> perform fuel files q s <> Unbalanced).
Proof.
  intros s0 S IG p l s H. pose proof (proj1 (TraceProofs.sane_inv s0) S) as A.
  pose proof (hosted_history true s0 A IG p l s H) as K. pose proof K as (A1 & S1 & _ & G1 & L1).
  split; [now apply TraceProofs.sane_inv|]. split; [exact S1|]. split; [exact G1|]. split; [intros x HX; apply (held_good true s l x A1 L1 HX)|].
  intros fuel files q OB E.
  destruct q; try (match type of E with perform _ _ ?q _ = _ => pose proof (bal_perform fuel files q ltac:(split; discriminate) (stack s) s eq_refl) as X; rewrite E in X; exact X end).
  destruct OB as (p' & ->). cbn [perform] in E. unfold done, bind, pop in E. rewrite S1 in E. cbn [app] in E. rewrite N.eqb_refl in E. discriminate E.
Qed.
(** A small machine that collects garbage at every allocation. *)
Definition few : list (string * data) := [("vector", DBuiltin BiVector); ("+", DBuiltin BiPlus)].
Definition small : vm := Eval vm_compute in match boot few (empty_vm 1 (fun n => n) (fun _ => [])) with Ret (_, s) => s | _ => empty_vm 1 (fun n => n) (fun _ => []) end.
Example C120_small : PropsSafe.functions_only few /\ PropsSafe.safe_library few /\ boot few (empty_vm 1 (fun n => n) (fun _ => [])) = Ret (tt, small).
Proof.
  split; [intros n d [[= <- <-]|[[= <- <-]|[]]]; eauto|]. split; [|vm_compute; reflexivity].
  split; [intros n p [[= <- <-]|[[= <- <-]|[]]]; repeat split; discriminate|intros n [[=]|[[=]|[]]]].
Qed.
(** A host makes two integers and the vector of them, keeping them on the stack,
    evaluates a text and takes the vector off the stack. *)
Definition integer (r : ref) (z : Z) (s : vm) : Prop := SpecTrace.data_at s r = Some (DInt z).
Ltac request H q :=
  match type of H with history ?s0 ?p ?l ?s =>
    let r := eval vm_compute in (perform 40 no_files q s) in
    match r with Ret (?a, ?s') =>
      let O := fresh in assert (O : obeys p l s q) by (cbn [obeys]; first [exact I|apply re_root; cbn; tauto|intros ? [<-|[]]; apply re_root; cbn; tauto|intros ? [<-|[<-|[]]]; apply re_root; cbn; tauto|eexists; reflexivity]);
      let E := fresh in assert (E : perform 40 no_files q s = Ret (a, s')) by (vm_compute; reflexivity);
      apply (fun h => h_step s0 p l s 40 no_files q a s' h O E) in H; clear O E; cbn [pushed_after loose_after may_collect app tl] in H
    end end.
Example C120_history : exists p l s v x y, history small p l s /\ p = [y; x] /\ hd_error l = Some v /\ integer x 7 s /\ integer y 8 s /\ SpecTrace.data_at s v = Some (DVec [x; y]).
Proof.
  pose proof (h_start small) as H. unfold small in H at 2.
  request H (New (Integer 7)).
  match type of H with history _ _ [?r] _ => request H (Push r); request H (New (Integer 8));
    match type of H with history _ _ [?t] _ => request H (Push t); request H (VectorOf [r; t]) end end.
  match type of H with history _ _ [?v] _ => request H (Push v); request H (EvaluateString (asc "(+ {D+1} (vector)) nope")); request H (Pop v) end.
  do 6 eexists. split; [exact H|]. vm_compute. auto 9.
Qed.
(** The rule is needed: a vector made of a value that is not on the stack (what
    create_new_value_vector_from_values does with the values a host has just made)
    holds a value that is freed before it is stored. *)
Theorem C120_unanchored_refuted : exists r s1 v s2 s3 t s4,
  perform 40 no_files (New (Integer 7)) small = Ret (Value (Some r), s1) /\ perform 40 no_files (VectorOf [r]) s1 = Ret (Value (Some v), s2) /\
  SpecTrace.data_at s2 v = Some (DVec [r]) /\ lookup (all s2) r = None /\
  perform 40 no_files (Push v) s2 = Ret (Done, s3) /\
  perform 40 no_files (New Nil) s3 = Ret (Value (Some t), s4) /\ perform 40 no_files (New Nil) s4 = Dangling.
Proof. do 7 eexists. do 6 (split; [vm_compute; reflexivity|]). vm_compute. reflexivity. Qed.

(** ** C121 *)
(** A call of a function or macro from C, the function and the vector of its
    arguments being on the stack: what happens is a sequence of events that is a
    call as SpecCall.v describes calls in programs, and its result is the answer. *)
Theorem C121_call : forall fuel files f args s a s', SpecTrace.sane s -> In f (stack s) -> In args (stack s) ->
  perform fuel files (Call f args) s = Ret (a, s') ->
  exists r evs od, a = Value (Some r) /\ SpecTrace.trace (eval fuel) (stack s) s evs s' /\ SpecCalled.called f args s evs (Some (r, od)) /\ SpecSpecial.result_is s' r od.
Proof.
  intros fuel files f args s a s' S IF IA E. cbn [perform] in E. unfold value, bind in E. pose proof (EmbedCall.call_lambda_spec fuel f args s S IF IA) as W. unfold SafeBase.wp in W.
  destruct (call_lambda fuel f args s) as [[r s1]| | | | |]; cbn [obind fst snd] in E; try discriminate. injection E as <- <-. destruct W as (evs & od & A & B & C). eauto 8.
Qed.

(** A machine in which a host has defined a function, and calls it with 40. *)
Definition some : list (string * data) := [("define", DSpecial SpDefine); ("fn", DSpecial SpFn); ("quote", DSpecial SpQuote); ("vector", DBuiltin BiVector); ("+", DBuiltin BiPlus)].
Definition other : vm := Eval vm_compute in match boot some (empty_vm 1 (fun n => n) (fun _ => [])) with Ret (_, s) => s | _ => small end.
Lemma boot_sane lib limit addresses messages u s : PropsSafe.functions_only lib -> boot lib (empty_vm limit addresses messages) = Ret (u, s) -> SpecTrace.sane s /\ stack s = [genv s].
Proof.
  intros FO B. pose proof (PropsSafe.session_gen true lib limit addresses messages (outside s) 0 [] FO ltac:(discriminate)) as K. unfold PropsSafe.session in K. rewrite B in K. cbn [obind snd PropsSafe.texts] in K. replace (with_outside s (outside s)) with s in K by now destruct s.
  destruct K as (K & E). split; [now apply TraceProofs.sane_inv|exact E].
Qed.
Lemma other_booted : boot some (empty_vm 1 (fun n => n) (fun _ => [])) = Ret (tt, other).
Proof. vm_compute. reflexivity. Qed.
Lemma some_functions : PropsSafe.functions_only some.
Proof. intros n d I. repeat (destruct I as [[= <- <-]|I]; [eauto|]). destruct I. Qed.
Lemma other_sane : SpecTrace.sane other /\ stack other = [genv other].
Proof. exact (boot_sane _ _ _ _ _ _ some_functions other_booted). Qed.
Example C121_case : exists s f args r s', SpecTrace.sane s /\ In f (stack s) /\ In args (stack s) /\
  perform 40 no_files (Call f args) s = Ret (Value (Some r), s') /\ integer r 42 s'.
Proof.
  destruct other_sane as (SA & ST). pose proof (h_start other) as H. unfold other in H at 2.
  request H (EvaluateString (asc "(define f as (fn (x) (vector) (+ x {D+2})) [f] '(x [x]) howto-ok)")).
  request H (EvaluateString (asc "f")).
  match type of H with history _ _ [?f] _ => request H (Push f) end.
  request H (New (Integer 40)).
  match type of H with history _ [?f] [?x] _ => request H (Push x); request H (VectorOf [x]);
    match type of H with history _ _ [?a] _ => request H (Push a);
      destruct (C120_consistent other SA ltac:(rewrite ST; now left) _ _ _ H) as (S1 & _);
      match type of H with history _ _ _ ?s => exists s, f, a end end end.
  do 2 eexists. split; [exact S1|]. clear. cbn [stack In]. split; [tauto|]. split; [tauto|]. split; [vm_compute; reflexivity|]. vm_compute. reflexivity.
Qed.
(** ** C122 *)
(** No input: the answer is an error, and nothing the program can reach, nor any
    register of the machine, is different. *)
Theorem C122_no_input : forall fuel files q s a s', SpecTrace.sane s ->
  q = EvaluateBuffer [] \/ (exists b, q = EvaluateString (0 :: b)) \/ q = EvaluateString [] \/ (exists path, q = EvaluateFile path /\ (files path = None \/ files path = Some [])) ->
  perform fuel files q s = Ret (a, s') ->
  exists r d, a = Value (Some r) /\ SpecTrace.data_at s' r = Some d /\ SpecTrace.is_err d /\ SpecTrace.keeps (stack s) s s' /\ stack s' = stack s.
Proof.
  intros fuel files q s a s' S Q E. assert (E' : (r <- new_error ;; ret (Value (Some r))) s = Ret (a, s')).
  { destruct Q as [->|[(b & ->)|[->|(path & -> & [F|F])]]]; cbn [perform] in E; rewrite ?F in E; cbn [before_nul N.eqb evaluate_buffer] in E; unfold values, bind in *; destruct (new_error s) as [[r s1]| | | | |]; exact E. }
  clear E Q. unfold bind in E'. destruct (new_error s) as [[r s1]| | | | |] eqn:N; try discriminate. cbn [obind fst snd] in E'. injection E' as <- <-.
  pose proof (proj1 (TraceProofs.sane_inv s) S) as A.
  assert (W : SafeBase.wp true new_error (fun r s' => At true true [] s [] (eq r) s') s) by (apply (r_new_error true true [] s [] (fun _ => False) _ s (at_start true true [] s A)); auto).
  unfold SafeBase.wp in W. rewrite N in W. destruct (new_error_ret s r s1 (i_ids _ _ _ A) N) as (m & AE). destruct (ae_cell _ _ _ _ AE) as (ad & L).
  exists r, (DErr m 0). split; [reflexivity|]. split; [unfold SpecTrace.data_at; now rewrite L|]. split; [exact I|]. split; [eapply TraceProofs.keeps_at; exact W|]. exact (ae_stack _ _ _ _ AE).
Qed.
(** A text (scalar values, no NUL) that is not empty means the same in a file, a
    buffer and a string: the text is read and its forms are evaluated in the global
    environment (C67-C72). *)
Theorem C122_text : forall fuel files path t s, textual t -> t <> [] -> files path = Some (utf8_text t) ->
  let evaluated := obind (read_eval fuel (input_new t) s) (fun q => Ret (Value (fst q), snd q)) in
  perform fuel files (EvaluateFile path) s = evaluated /\ perform fuel files (EvaluateBuffer (utf8_text t)) s = evaluated /\
  perform fuel files (EvaluateString (utf8_text t)) s = evaluated /\
  (forall rest, perform fuel files (EvaluateString (utf8_text t ++ 0 :: rest)) s = evaluated).
Proof.
  intros fuel files path t s T NE F.
  assert (B : perform fuel files (EvaluateBuffer (utf8_text t)) s = obind (read_eval fuel (input_new t) s) (fun q => Ret (Value (fst q), snd q))).
  { cbn [perform]. unfold values, evaluate_buffer. pose proof (octets_text_ok t T) as O. destruct (utf8_text t) as [|c b] eqn:U.
    - assert (K : octets_text [] = Ret []) by reflexivity. rewrite K in O. injection O as <-. contradiction.
    - rewrite O. unfold bind, lift. cbn [obind fst snd]. unfold ret. reflexivity. }
  assert (Z : ~ In 0 (utf8_text t)) by (apply utf8_text_nonul; apply textual_decodable; exact T).
  assert (N1 : forall l, ~ In 0 l -> before_nul l = l). { induction l as [|c l IH]; cbn; [auto|]. intros K. destruct (N.eqb_spec c 0); [tauto|]. f_equal. tauto. }
  assert (N2 : forall l r, ~ In 0 l -> before_nul (l ++ 0 :: r) = l). { induction l as [|c l IH]; cbn; [auto|]. intros r K. destruct (N.eqb_spec c 0); [tauto|]. f_equal. apply IH. tauto. }
  split; [cbn [perform]; rewrite F; exact B|]. split; [exact B|]. split; [cbn [perform]; rewrite N1 by exact Z; exact B|]. intros rest. cbn [perform]. rewrite N2 by exact Z. exact B.
Qed.

(** ** C123 *)
(** A host binds the symbol [k], whose text is [t], to the value [v] in the environment
    [e]: from then on a symbol with this text evaluates to [v] in [e], which changes
    nothing; every other name denotes in every environment what it denoted. *)
Theorem C123_bound : forall fuel files e k v t b enc ck s, names_unique (all s) -> lookup (all s) k = Some ck -> cdata ck = DSym t -> is_env (all s) e b enc ->
  exists s', perform fuel files (Bind e k v) s = Ret (Done, s') /\
    (forall fuel' k', quit s = false -> SpecTrace.data_at s' k' = Some (DSym t) -> perform (S (S fuel')) files (Evaluate k' e) s' = Ret (Value (Some v), s')) /\
    (forall e' t' x, t' <> t -> (denotes (all s') e' t' x <-> denotes (all s) e' t' x)) /\
    (forall e' t' x, ~ encloses (all s) e' e -> (denotes (all s') e' t' x <-> denotes (all s) e' t' x)) /\
    (forall r, r <> e -> lookup (all s') r = lookup (all s) r).
Proof.
  intros fuel files e k v t b enc ck s NU LK EK EN. destruct (PropsEnv.C49_binding e k v s t b enc ck NU LK EK EN) as (s' & ES & NU' & DV & D1 & D2 & D3).
  exists s'. split; [cbn [perform]; unfold done, bind; rewrite ES; reflexivity|]. split; [|auto].
  intros fuel' k' QT DK. pose proof (env_set_ret _ _ _ _ _ _ ES) as (ck' & t' & ce & b0 & enc0 & _ & _ & LE & _ & EQ).
  assert (Q' : quit s' = false) by (rewrite EQ; exact QT).
  assert (LE' : exists c', lookup (all s') e = Some c' /\ exists b1 enc1, cdata c' = DEnv b1 enc1).
  { rewrite EQ. cbn [all with_all]. rewrite lookup_update, N.eqb_refl, LE. eexists. split; [reflexivity|]. cbn. eauto. }
  destruct LE' as (ce' & LE' & b1 & enc1 & EC). clear EQ. pose proof (proj2 (env_get_iff e t s' (Some v) s' NU') (conj eq_refl DV)) as EG.
  unfold SpecTrace.data_at in DK. destruct (lookup (all s') k') as [ck2|] eqn:LK'; [|discriminate]. injection DK as DK.
  cbn [perform]. unfold values, bind. cbn [eval eval_loop]. unfold eval_impl, bind, read. cbn [obind fst snd no_stack]. rewrite Q'. unfold get, get_cell, bind. rewrite LE'. cbn [obind fst snd]. unfold ret at 1. cbn [obind fst snd]. rewrite EC.
  unfold push. cbn [obind fst snd all with_stack]. rewrite LK'. cbn [obind fst snd]. rewrite DK.
  unfold env_get, heap_op in EG |- *. cbn [all with_stack]. destruct (env_find _ (all s') e t) as [o'| | | | |]; try discriminate. injection EG as ->.
  unfold ret, pops, pop. cbn [iterM]. unfold bind, pop. cbn [obind fst snd stack with_stack]. cbn [no_stack obind fst snd stack with_stack]. rewrite N.eqb_refl. cbn [obind fst snd stack with_stack]. rewrite N.eqb_refl. unfold ret. cbn [obind fst snd negb]. destruct s'; reflexivity.
Qed.
(** create_and_define_new_integer never defines anything: the text it evaluates
    lacks "as", and its number is not an integer of the language. *)
Theorem C123_define_integer_refuted :
  (exists s, perform 60 no_files (DefineInteger (asc "x") (asc "a number") 5) machine = Ret (Flag false, s)) /\
  (exists s r s', perform 60 no_files (DefineInteger (asc "x") (asc "a number") 5) machine = Ret (Flag false, s) /\
     perform 60 no_files (EvaluateString (asc "x")) s = Ret (Value (Some r), s') /\ exists m n, SpecTrace.data_at s' r = Some (DErr m n)).
Proof.
  split; [eexists; vm_compute; reflexivity|]. do 3 eexists. split; [vm_compute; reflexivity|]. split; [vm_compute; reflexivity|]. do 2 eexists. vm_compute. reflexivity.
Qed.

(** ** C124 *)
(** While the host prevents collection, nothing is freed, whatever it evaluates; and no
    request but the two settings themselves changes the settings. *)
Theorem C124_prevented : forall fuel files q s a s', perform fuel files q s = Ret (a, s') -> q <> Collect -> (forall b, q <> PreventCollection b) -> (forall n, q <> CollectEvery n) ->
  preventGc s' = preventGc s /\ gcLimit s' = gcLimit s /\ (preventGc s = true -> forall r, exists_in s r -> exists_in s' r).
Proof. intros fuel files q s a s' E A B C. exact (EmbedKept.on_perform fuel files q A B C s a s' E). Qed.
Theorem C124_settings : forall fuel files s,
  (forall b, exists s', perform fuel files (PreventCollection b) s = Ret (Done, s') /\ preventGc s' = b /\ all s' = all s /\ stack s' = stack s) /\
  (forall n, exists s', perform fuel files (CollectEvery n) s = Ret (Done, s') /\ gcLimit s' = n /\ all s' = all s /\ stack s' = stack s).
Proof. intros fuel files s. split; intros x; eexists; (split; [reflexivity|]); auto. Qed.
(** Values are pushed and popped in the order of a stack; the pop of another value
    than the last one pushed ends the program. *)
Theorem C124_stack : forall fuel files x s, exists s', perform fuel files (Push x) s = Ret (Done, s') /\
  perform fuel files Peek s' = Ret (Value (Some x), s') /\ perform fuel files (Pop x) s' = Ret (Done, s) /\
  perform fuel files StackLength s' = Ret (Number (Z.of_nat (List.length (stack s)) + 1), s') /\
  (forall y, y <> x -> perform fuel files (Pop y) s' = Unbalanced).
Proof.
  intros fuel files x s. eexists. split; [reflexivity|]. split; [reflexivity|]. split; [|split].
  - cbn [perform]. unfold done, bind, pop. cbn [obind fst snd stack with_stack]. rewrite N.eqb_refl. destruct s; reflexivity.
  - cbn [perform]. unfold bind, read, ret. cbn [obind fst snd stack with_stack List.length]. do 3 f_equal. lia.
  - intros y NE. cbn [perform]. unfold done, bind, pop. cbn [obind fst snd stack with_stack]. destruct (N.eqb_spec x y); [congruence|]. reflexivity.
Qed.
(** After a request to quit the machine says so, the exit code is the one last set,
    and everything evaluates to nil. *)
Theorem C124_quit : forall fuel files z s, exists s1 s2, perform fuel files (SetExitCode z) s = Ret (Done, s1) /\ perform fuel files Quit s1 = Ret (Done, s2) /\
  perform fuel files IsQuit s2 = Ret (Flag true, s2) /\ perform fuel files ExitCode s2 = Ret (Number z, s2) /\
  all s2 = all s /\ stack s2 = stack s /\ forall fuel' x e a s', SpecTrace.sane s2 -> perform fuel' files (Evaluate x e) s2 = Ret (a, s') -> exists r, a = Value (Some r) /\ SpecTrace.data_at s' r = Some DNil.
Proof.
  intros fuel files z s. do 2 eexists. split; [reflexivity|]. split; [reflexivity|]. do 4 (split; [reflexivity|]).
  intros [|[|f]] x e a s' SA E; cbn [perform] in E; unfold values, bind in E; cbn [eval eval_loop] in E; try discriminate.
  unfold bind, eval_impl, bind, read in E. cbn [obind fst snd no_stack quit with_quit] in E.
  match type of E with context [alloc DNil ?t] => destruct (alloc DNil t) as [[r s1]| | | | |] eqn:AL; set (t0 := t) in * end; cbn [obind fst snd] in E; try discriminate.
  unfold ret in E. cbn [obind fst snd negb] in E. injection E as <- <-. exists r. split; [reflexivity|].
  destruct (ae_cell _ _ _ _ (alloc_ret _ _ _ _ (i_ids true [] _ (proj1 (TraceProofs.sane_inv _) SA)) AL)) as (ad & L). unfold SpecTrace.data_at. now rewrite L.
Qed.

Example C122_witness : textual (asc "(vector) {D+2}") /\ exists r s, perform 40 no_files (EvaluateBuffer (utf8_text (asc "(vector) {D+2}"))) other = Ret (Value (Some r), s) /\ integer r 2 s.
Proof. split; [split; [repeat constructor; apply scalarb_spec; reflexivity|vm_compute; intuition discriminate]|]. do 2 eexists. split; vm_compute; reflexivity. Qed.
Example C124_witness : SpecTrace.sane other /\ exists s r, perform 40 no_files (New Nil) other = Ret (Value (Some r), s) /\ exists_in s r.
Proof. split; [apply other_sane|]. do 2 eexists. split; [vm_compute; reflexivity|]. vm_compute. discriminate. Qed.
Print Assumptions C120_memory_safe_partial.
Print Assumptions C120_consistent.
Print Assumptions C120_unanchored_refuted.
Print Assumptions C121_call.
Print Assumptions C122_no_input.
Print Assumptions C122_text.
Print Assumptions C123_bound.
Print Assumptions C123_define_integer_refuted.
Print Assumptions C124_prevented.
Print Assumptions C124_settings.
Print Assumptions C124_stack.
Print Assumptions C124_quit.
