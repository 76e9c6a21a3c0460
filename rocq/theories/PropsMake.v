(** C85-C87: what fn, macro and eval do, and calls of macros.  See SpecMake.v and
    SpecApply.v. *)
From Coq Require Import NArith ZArith Bool Lia Arith String List.
From Verif Require Import Base HMap Heap SpecHeap ValueOps Env Eval Read Boot Run SpecText SpecTrace SpecSpecial SpecForm SpecCall SpecBuiltin SpecMake SpecApply SpecialForms CallForms MakeProofs ApplyProofs MacroProofs SpecAgain AgainProofs.
Import ListNotations.
Local Open Scope N_scope.
Local Open Scope string_scope.
Local Open Scope list_scope.

(** ** C85 *)

(** (fn formals form ...) evaluates none of its parts: it makes a function whose
    body is those forms, which remembers the environment it was made in, or
    complains when the formals are not acceptable. *)
Theorem C85_fn : maker_form SpFn (maker_run DFun).
Proof. exact fn_form. Qed.
Print Assumptions C85_fn.
Theorem C85_macro : maker_form SpMacro (maker_run DMac).
Proof. exact macro_form. Qed.
Print Assumptions C85_macro.
Definition made (s' : vm) (o : option ref) (mac : bool) (nf nb : nat) : bool :=
  match o with
  | Some r => match data_at s' r with
              | Some (DFun g) => negb mac && match data_at s' (fformals g), data_at s' (fbody g) with Some (DVec l), Some (DVec l') => Nat.eqb (List.length l) nf && Nat.eqb (List.length l') nb | _, _ => false end
              | Some (DMac g) => mac && match data_at s' (fformals g), data_at s' (fbody g) with Some (DVec l), Some (DVec l') => Nat.eqb (List.length l) nf && Nat.eqb (List.length l') nb | _, _ => false end
              | _ => false
              end
  | None => false
  end%bool.
Definition failed (s' : vm) (o : option ref) : bool := match o with Some r => match data_at s' r with Some (DErr _ _) => true | _ => false end | None => false end.
Example C85_fn_witness : a_call (fun s f s2 o s' => match data_at s2 f with Some (DSpecial SpFn) => true | _ => false end && made s' o false 3 2)%bool.
Proof. apply (call_case _ "(define x as {D+5} [x])" "(fn (x . rest) (++ x) (nope x))"). vm_compute. reflexivity. Qed.
Example C85_macro_witness : a_call (fun s f s2 o s' => match data_at s2 f with Some (DSpecial SpMacro) => true | _ => false end && made s' o true 2 1)%bool.
Proof. apply (call_case _ "" "(macro (x y) (quote x))"). vm_compute. reflexivity. Qed.
Example C85_refused : a_call (fun s f s2 o s' => match data_at s2 f with Some (DSpecial SpFn) => true | _ => false end && failed s' o)%bool.
Proof. apply (call_case _ "" "(fn (x . y z) x)"). vm_compute. reflexivity. Qed.
(** Two functions made by the same form are different values, each with its own
    body. *)
Theorem C85_new_each_time : forall mk env s l r s' env2 s2 l2 r2 s2', sane s' -> maker_run mk env s l r s' -> nextId s' <= nextId s2 -> maker_run mk env2 s2 l2 r2 s2' -> data_at s' r2 = None.
Proof.
  intros mk env s l r s' env2 s2 l2 r2 s2' SA _ LE M2. unfold data_at. destruct (lookup (all s') r2) as [c|] eqn:L; [|reflexivity]. exfalso.
  assert (N : r2 < nextId s') by (eapply (sane_ids _ SA), GcProofs.lookup_in; [apply (sane_tidy _ SA)|exact L]).
  assert (nextId s2 <= r2); [|lia]. destruct M2 as [_ (d & (B & _) & _)|x fs _ _ (d & (B & _) & _)|x fs b d _ _ _ (B & _)]; exact B.
Qed.
Print Assumptions C85_new_each_time.

(** ** C86 *)

(** eval evaluates its argument and then the value, in the current environment or
    the one given; with more arguments it applies an operator to them in the
    environment given. *)
Theorem C86_eval : special_form SpEval (fun _ => eval_run).
Proof. exact eval_forms. Qed.
Print Assumptions C86_eval.
Example C86_witness : form_calls 50 SpEval (Some (DInt 8)).
Proof. apply (text_case _ "(define x as '(+ {D+3} {D+5}) [x])" "(eval x)"). vm_compute. reflexivity. Qed.
Example C86_in_witness : form_calls 50 SpEval (Some (DInt 7)).
Proof. apply (text_case _ "(define e as (env-new) [e]) (define y as {D+7} [y] in e)" "(eval y e)"). vm_compute. reflexivity. Qed.
Example C86_apply_witness : form_calls 50 SpEval (Some (DInt 10)).
Proof. apply (text_case _ "(define v as (vector {D+2} {D+3}) [v])" "(eval + (env-current) {D+1} v {D+4})"). vm_compute. reflexivity. Qed.

(** ** C87 *)

(** A call of a macro binds the formals to the forms, not to their values, runs
    the body and evaluates its value, the expansion, where the formals are bound.
    That is the value of the call unless it is a vector with elements: what the
    code does with such a vector is [expansion_run] of SpecAgain.v. *)
Theorem C87_macro : forall fuel env v s x f s2 o s' g, calls_form fuel env v s x f s2 o s' -> data_at s2 f = Some (DMac g) ->
  exists evs r od s4 evs' r',
    trace (Eval.eval (S fuel)) (env :: v :: stack s) s (SpecTrace.Eval x env (inside v env s) (Some f) s2 :: evs) s4 /\
    macro_run v f s2 evs r od /\ data_at s4 r = od /\
    trace (Eval.eval (S fuel)) (stack s) s4 evs' s' /\ expansion_run env r od evs' r' /\ o = Some r'.
Proof. intros fuel env v s x f s2 o s' g C D. exact (eval_macro_whole fuel env v x f s s2 s' o C g D). Qed.
Print Assumptions C87_macro.
(** When it is not such a vector, it is the value and nothing else happens. *)
Theorem C87_other_values : forall fuel env v s x f s2 o s' g, calls_form fuel env v s x f s2 o s' -> data_at s2 f = Some (DMac g) ->
  exists evs r od s4, trace (Eval.eval fuel) (env :: v :: stack s) s (SpecTrace.Eval x env (inside v env s) (Some f) s2 :: evs) s4 /\
    macro_run v f s2 evs r od /\ data_at s4 r = od /\
    ((forall y ys, od <> Some (DVec (y :: ys))) -> o = Some r /\ exists st, s' = with_stack s4 st).
Proof.
  intros fuel env v s x f s2 o s' g C D. destruct (eval_macro_spec fuel env v x f s s2 s' o C g D) as (evs & r & od & s4 & T & M & DR & K). exists evs, r, od, s4. split; [exact T|]. split; [exact M|]. split; [exact DR|].
  intros N. apply K. intros F. destruct od as [[ | | | | | | | |[|y ys]| | | | | | | | |]|]; try contradiction. now apply (N y ys).
Qed.
Print Assumptions C87_other_values.
(** It is not so that the expansion is evaluated once: of a macro whose expansion
    is the form F, neither the effects nor the value are those of F when the value
    of F is a vector. *)
Definition with_macros (form : string) : string :=
  "(define x as {D+5} [x]) (define k as (macro () {D+9}) [k] '() howto-no) (define m as (macro () '" ++ form ++ ") [m] '() howto-no) ".
Theorem C87_evaluated_once_refuted :
  (~ forall form, value_of_text (with_macros form ++ "(m) x") = value_of_text (with_macros form ++ form ++ " x")) /\
  ~ forall form d d', value_of_text (with_macros form ++ "(m)") = Ret (Some d) -> value_of_text (with_macros form ++ form) = Ret (Some d') ->
      ((exists l, d = DVec l) <-> exists l, d' = DVec l).
Proof.
  split.
  - intros K. specialize (K "(vector '(++ x) {D+1})"). vm_compute in K. discriminate K.
  - intros K. specialize (K "(vector 'k)"). assert (E1 : value_of_text (with_macros "(vector 'k)" ++ "(m)") = Ret (Some (DInt 9))) by (vm_compute; reflexivity).
    destruct (value_of_text (with_macros "(vector 'k)" ++ "(vector 'k)")) as [[d'|]| | | | |] eqn:E2; try (vm_compute in E2; discriminate E2).
    destruct (K _ _ E1 eq_refl) as (_ & K2). destruct K2 as (l & F); [|discriminate F]. vm_compute in E2. injection E2 as <-. eauto.
Qed.
Print Assumptions C87_evaluated_once_refuted.
Example C87_witness : a_call (fun s f s2 o s' => match data_at s2 f, o with Some (DMac _), Some r => match data_at s' r with Some (DInt 6) => true | _ => false end | _, _ => false end).
Proof. apply (call_case _ "(define x as {D+5} [x]) (define m as (macro (a b) (if false a b)) [m] '(a [a] b [b]) howto-no)" "(m (nope) (++ x))"). vm_compute. reflexivity. Qed.
Example C87_vector_witness : a_call (fun s f s2 o s' => match data_at s2 f, o with Some (DMac _), Some r => match data_at s' r with Some (DVec [y; _]) => true | _ => false end | _, _ => false end).
Proof. apply (call_case _ (with_macros "(vector '(++ x) {D+1})") "(m)"). vm_compute. reflexivity. Qed.
Example C87_again_witness : a_call (fun s f s2 o s' => match data_at s2 f, o with Some (DMac _), Some r => match data_at s' r with Some (DInt 9) => true | _ => false end | _, _ => false end).
Proof. apply (call_case _ (with_macros "(vector 'k)") "(m)"). vm_compute. reflexivity. Qed.
