(** C66: memory safety.  [Dangling] is the use of a value the collector has
    freed; [Unbalanced] the abort of octaspire_dern_vm_pop_value. *)
From Coq Require Import NArith ZArith Bool Lia Arith String List.
From Verif Require Import Base Input HMap Heap SpecHeap ValueOps Env Builtins Specials Eval Read Boot Run StackProofs SafeBase SafeRun SpecTrace TraceProofs SpecialEval SpecialForms.
Notation Inv := SafeBase.Inv.
Import ListNotations.
Local Open Scope N_scope.
Local Open Scope string_scope.
Local Open Scope list_scope.

(** A session: the machine is made with the functions [lib] and then reads and
    evaluates texts. *)
Fixpoint texts (fuel : nat) (l : list (list N)) (s : vm) : outcome vm :=
  match l with
  | [] => Ret s
  | t :: r => obind (read_eval fuel (input_new t) s) (fun q => texts fuel r (snd q))
  end.
Definition session (lib : list (string * data)) (limit : N) (addresses : N -> N) (messages : N -> text) (out : outer) (fuel : nat) (l : list (list N)) : outcome vm :=
  obind (boot lib (empty_vm limit addresses messages)) (fun q => texts fuel l (with_outside (snd q) out)).

(** A library of specials and builtins; without the builtins return, =,
    copy and cp@ and the special template. *)
Definition functions_only (lib : list (string * data)) : Prop :=
  forall n d, In (n, d) lib -> (exists p, d = DSpecial p) \/ (exists p, d = DBuiltin p).
Definition safe_library (lib : list (string * data)) : Prop :=
  (forall n p, In (n, DBuiltin p) lib -> p <> BiReturn /\ p <> BiSet /\ p <> BiCopy /\ p <> BiCpAt) /\
  (forall n, ~ In (n, DSpecial SpTemplate) lib).

Lemma session_gen D lib limit addresses messages out fuel l : functions_only lib -> (D = false -> safe_library lib) ->
  match session lib limit addresses messages out fuel l with
  | Ret s => Inv D [] s /\ stack s = [genv s]
  | Dangling => D = true
  | _ => True
  end.
Proof.
  intros FO SL. unfold session. pose proof (boot_ok D lib limit addresses messages) as B.
  assert (HL : forall n d, In (n, d) lib -> plain d /\ (D = false -> tame d)).
  { intros n d J. destruct (FO n d J) as [(p & ->)|(p & ->)]; (split; [exact I|]); intros E; destruct (SL E) as (SB & SS).
    - destruct p; try exact I. elim (SS n J).
    - destruct (SB n p J) as (A1 & A2 & A3 & A4). now destruct p. }
  specialize (B HL). unfold wp in B. destruct (boot lib (empty_vm limit addresses messages)) as [[u s]| | | | |]; cbn [obind snd] in *; auto.
  destruct B as (A & ST). apply (inv_outside _ _ _ out) in A. change (stack (with_outside s out) = [genv (with_outside s out)]) in ST. revert A ST. generalize (with_outside s out). clear s. intros s A ST. revert s A ST. induction l as [|t l IH]; intros s A ST; cbn [texts]; [auto|].
  pose proof (read_eval_ok D fuel (input_new t) [] s A) as W. unfold wp in W. destruct (read_eval fuel (input_new t) s) as [[r s1]| | | | |]; cbn [obind snd] in *; auto.
  apply IH; [exact (a_inv _ _ _ _ _ _ _ W)|]. rewrite (a_stack _ _ _ _ _ _ _ W), ST. cbn [app]. f_equal. symmetry. exact (a_genv _ _ _ _ _ _ _ W).
Qed.
Lemma texts_balanced fuel l : forall s, texts fuel l s <> Unbalanced.
Proof.
  induction l as [|t l IH]; intros s; cbn [texts]; [discriminate|]. pose proof (bal_read_eval fuel (input_new t) (stack s) s eq_refl) as B.
  destruct (read_eval fuel (input_new t) s) as [[r s1]| | | | |]; cbn; try discriminate; [apply IH|destruct B].
Qed.

(** For every library without return, =, copy, cp@ and template, every schedule of the
    collector (the limit), every choice of addresses, of the texts of error messages and of files and arguments,
    every sequence of texts: no freed value is used, and after every text the
    stack holds the global environment only.  Missing: a library with those
    functions (refuted below and by C46); [Undef] is not excluded, which includes
    the use of the contents of a value that have been replaced. *)
Theorem C66_memory_safe_partial : forall lib limit addresses messages out fuel l,
  functions_only lib -> safe_library lib ->
  session lib limit addresses messages out fuel l <> Dangling /\
  (forall s, session lib limit addresses messages out fuel l = Ret s -> stack s = [genv s] /\ fret s = None).
Proof.
  intros lib limit addresses messages out fuel l FO SL. pose proof (session_gen false lib limit addresses messages out fuel l FO (fun _ => SL)) as H.
  destruct (session lib limit addresses messages out fuel l) as [s| | | | |]; (split; [try discriminate|]); try (intros s' E; discriminate).
  intros s' [= <-]. destruct H as (A & ST). split; [exact ST|]. pose proof (i_fret _ _ _ A) as F. destruct (fret s); [|reflexivity]. now destruct F as (_ & _ & ?).
Qed.
Print Assumptions C66_memory_safe_partial.
(** With the whole library the machine stays consistent between texts: identities
    are unique, and nothing refers to a value not made yet (the state the other
    theorems about evaluation start from). *)
Theorem C66_consistent_partial : forall lib limit addresses messages out fuel l s,
  functions_only lib -> session lib limit addresses messages out fuel l = Ret s -> sane s /\ stack s = [genv s].
Proof.
  intros lib limit addresses messages out fuel l s FO E. pose proof (session_gen true lib limit addresses messages out fuel l FO ltac:(discriminate)) as H.
  rewrite E in H. destruct H as (A & ST). split; [now apply sane_inv|exact ST].
Qed.
Print Assumptions C66_consistent_partial.
(** The library of the machine without those five functions, and a session with
    it that collects garbage at every 25th allocation. *)
Definition unsafe (d : data) : bool := match d with DBuiltin BiReturn | DBuiltin BiSet | DBuiltin BiCopy | DBuiltin BiCpAt | DSpecial SpTemplate => true | _ => false end.
Definition most : list (string * data) := filter (fun nd => negb (unsafe (snd nd))) library.
Lemma library_functions : functions_only library.
Proof.
  intros n d J. pose proof (plain_library d n J) as P. destruct d; try destruct P; eauto.
Qed.
Definition most_session : outcome vm :=
  session most 25 (fun n => n) (fun _ => []) nothing_outside 30
    [asc "(define f as (fn (n) (if (< n {D+2}) n (+ (f (- n {D+1})) (f (- n {D+2}))))) [f] '(n [n]) howto-ok)";
     asc "(define v as (vector (f {D+3})) [v]) (+= v [abc]) (nope"].
Lemma filtered_functions f l : functions_only l -> functions_only (filter f l).
Proof. intros H n d J. apply filter_In in J as (J & _). exact (H n d J). Qed.
Lemma filtered_safe l : safe_library (filter (fun nd => negb (unsafe (snd nd))) l).
Proof. split; [intros n p J|intros n J]; apply filter_In in J as (_ & J); [destruct p; repeat split; discriminate|discriminate]. Qed.
Example C66_most : functions_only most /\ safe_library most.
Proof. exact (conj (filtered_functions _ library library_functions) (filtered_safe library)). Qed.
Example C66_most_length : List.length most = (List.length library - 5)%nat.
Proof. vm_compute. reflexivity. Qed.
Example C66_most_session : match most_session with Ret s => stack s = [genv s] | _ => False end.
Proof. vm_compute. reflexivity. Qed.
(** copy with a predicate that takes the element out of its vector: the element
    is freed before it is copied. *)
Theorem C66_copy_refuted :
  run_text (with_limit machine 1)
    "(define v as '([a]) [v]) (define f as (fn (x i) (pop-back v) (len v) true) [f] '(x [x] i [i]) howto-ok) (copy v f)" = Dangling.
Proof. vm_compute. reflexivity. Qed.
Print Assumptions C66_copy_refuted.
(** = frees what a value held while it is in use: here the vector a loop walks
    through, and the function that is running. *)
Theorem C66_set_refuted :
  run_text machine "(define v as '({D+1} {D+2} {D+3}) [v]) (for x in v (= v {D+1}))" = Undef /\
  run_text machine "(define f as (fn () (= f {D+1}) {D+2}) [f] '() howto-ok) (f)" = Undef.
Proof. vm_compute. auto. Qed.
Print Assumptions C66_set_refuted.
(** cp@ with a range: the new vector is collected while it is being filled. *)
Theorem C66_range_refuted :
  run_text (with_limit machine 1) "(define v as '([a] [b] [c]) [v]) (cp@ v {D+0} {D+2})" = Dangling.
Proof. vm_compute. reflexivity. Qed.
Print Assumptions C66_range_refuted.
(** template: the code of a nested form takes that form out of the template. *)
Theorem C66_template_refuted :
  run_text (with_limit machine 1) "(define q as '(template (a (,(do (pop-back (ln@ q {D+1})) (len q)) b))) [q]) (eval q)" = Dangling.
Proof. vm_compute. reflexivity. Qed.
Print Assumptions C66_template_refuted.
