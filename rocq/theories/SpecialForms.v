(** Every special modelled does what its relation says; concrete cases. *)
From Coq Require Import NArith ZArith Bool Lia Arith List String.
From Coq Require Import ZifyBool ZifyNat ZifyN.
From Verif Require Import Base Input OString HMap Heap SpecHeap GcProofs VmProofs ValueOps Env Copy Builtins Specials Eval Read Boot Run SafeBase SafeRead SafeLib SafeBuiltins SafeSpecials SafeEval SafeText SafeRun SpecTrace SpecSpecial SpecForm TraceProofs SpecialProofs SpecialEval.
Import ListNotations.
Local Open Scope N_scope.

Lemma special_form_of p (R : nat -> ref -> vm -> list ref -> list event -> ref -> option data -> Prop) :
  (forall fuel env ev, ev_ok true ev -> special_does ev fuel p env (R fuel env)) -> (forall fuel env, stable (R fuel env)) -> special_form p R.
Proof.
  intros SD ST fuel env v s x f s2 o s' [SA LV LE QT (xs & DV) EF DF EV]. 
  exact (eval_special_spec fuel p env (R fuel env) (SD fuel env) (ST fuel env) v s o s' x xs f s2 SA LV LE QT DV EV EF DF).
Qed.
Lemma const_stable (R : list ref -> list event -> ref -> option data -> Prop) : stable (fun _ => R).
Proof. intros s s' l evs r od _ _ H. exact H. Qed.

Lemma quote_form : special_form SpQuote (fun _ _ => quote_run).
Proof.
  apply special_form_of.
  - intros fuel env ev EV P a s0 c0 l IN L0 E0 GE IE A0. cbn [special_call]. now apply quote_spec with (c0 := c0).
  - intros _ _ s s' l evs r od K _ H. pose proof (agree_data _ _ _ K) as KD. clear K. rename KD into K. destruct H as [l0 r0 d N I|x]; [now constructor|]. rewrite <- K by now left. constructor.
Qed.
Lemma if_form : special_form SpIf (fun _ env _ => if_run env).
Proof.
  apply special_form_of; [|intros; apply const_stable].
  intros fuel env ev EV P a s0 c0 l IN L0 E0 GE IE A0. cbn [special_call]. now apply if_spec with (c0 := c0).
Qed.
Lemma select_forms : special_form SpSelect (fun _ => select_form).
Proof.
  apply special_form_of.
  - intros fuel env ev EV P a s0 c0 l IN L0 E0 GE IE A0. cbn [special_call]. now apply select_spec with (c0 := c0).
  - intros _ env s s' l evs r od K _ H. pose proof (agree_data _ _ _ K) as KD. clear K. rename KD into K. destruct H as [r0 d A B|evs0 r0 od0 A B C]; [now apply sf_arity|]. apply sf_run; auto. eapply select_same; [|exact C].
    intros x J. unfold is_default. now rewrite K.
Qed.
Lemma while_forms : special_form SpWhile (fun _ env _ => while_form env).
Proof.
  apply special_form_of; [|intros; apply const_stable].
  intros fuel env ev EV P a s0 c0 l IN L0 E0 GE IE A0. cbn [special_call]. now apply while_spec with (c0 := c0).
Qed.
Lemma logic_forms (stop : bool) : special_form (if stop then SpOr else SpAnd) (fun _ env _ => logic_run env stop).
Proof.
  apply special_form_of; [|intros; apply const_stable].
  intros fuel env ev EV P a s0 c0 l IN L0 E0 GE IE A0. destruct stop; cbn [special_call]; now apply logic_spec with (c0 := c0).
Qed.
Lemma do_forms : special_form SpDo (fun _ env _ => do_run env).
Proof.
  apply special_form_of; [|intros; apply const_stable].
  intros fuel env ev EV P a s0 c0 l IN L0 E0 GE IE A0. cbn [special_call]. now apply do_spec with (c0 := c0).
Qed.
Lemma order_forms p cmp : (forall fuel ev a env, special_call fuel ev p a env = s_order ev (cmp fuel) a env) ->
  special_form p (fun fuel env _ => compare_run env (fun h x y b => cmp fuel h x y = Ret b) true).
Proof.
  intros EQ. apply special_form_of; [|intros; apply const_stable].
  intros fuel env ev EV P a s0 c0 l IN L0 E0 GE IE A0. rewrite EQ. now apply order_spec with (c0 := c0).
Qed.
Lemma equal_forms : special_form SpEqual (fun fuel env _ => compare_run env (fun h x y b => vequal fuel h x y = Ret b) true).
Proof.
  apply special_form_of; [|intros; apply const_stable].
  intros fuel env ev EV P a s0 c0 l IN L0 E0 GE IE A0. cbn [special_call]. unfold s_equal. apply (equal_with_spec ev EV P a env s0 c0 l IN L0 E0 GE A0). apply by_value_decides.
Qed.
Lemma not_equal_forms : special_form SpNotEqual (fun fuel env _ => compare_run env (fun h x y b => vequal fuel h x y = Ret b) false).
Proof.
  apply special_form_of; [|intros; apply const_stable].
  intros fuel env ev EV P a s0 c0 l IN L0 E0 GE IE A0. cbn [special_call]. now apply not_equal_spec with (c0 := c0).
Qed.
Lemma identical_forms : special_form SpIdentical (fun fuel env _ => compare_run env (fun h x y b => b = (x =? y)) true).
Proof.
  apply special_form_of; [|intros; apply const_stable].
  intros fuel env ev EV P a s0 c0 l IN L0 E0 GE IE A0. cbn [special_call]. unfold s_identical. apply (equal_with_spec ev EV P a env s0 c0 l IN L0 E0 GE A0). apply by_uid_decides.
Qed.

(** ** Concrete cases *)
Lemma plain_library d n : In (n, d) library -> SafeRun.plain d.
Proof. intros J. assert (K : forall l, forallb (fun q : string * data => match snd q with DBuiltin _ | DSpecial _ => true | _ => false end) l = true -> In (n, d) l -> SafeRun.plain d).
  { intros l F I. apply (proj1 (forallb_forall _ _) F) in I. cbn in I. destruct d; try discriminate; exact Logic.I. }
  eapply K; [|exact J]. vm_compute. reflexivity. Qed.
Lemma booted_sane limit addr msg s : boot library (empty_vm limit addr msg) = Ret (tt, s) -> sane s.
Proof.
  intros E. apply sane_inv. pose proof (boot_ok true library limit addr msg) as B.
  assert (K : forall n d, In (n, d) library -> plain d /\ (true = false -> tame d)) by (intros n d J; split; [now apply (plain_library d n)|discriminate]).
  specialize (B K). exact (proj1 (wp_ret_inv _ _ _ _ _ B E)).
Qed.
Lemma machine_sane : sane machine.
Proof. apply (booted_sane 1024 (fun n => n) (fun _ => [])). exact machine_is_booted. Qed.
Lemma run_text_sane s t o s' : sane s -> run_text s t = Ret (o, s') -> sane s'.
Proof.
  intros S E. apply sane_inv. apply sane_inv in S. pose proof (read_eval_ok true 100 (input_new (asc t)) [] s S) as W.
  pose proof (wp_ret_inv _ _ _ _ _ W E) as H. exact (a_inv _ _ _ _ _ _ _ H).
Qed.
Lemma after_text_sane s t : sane s -> sane (after_text s t).
Proof. intros S. unfold after_text. destruct (run_text s t) as [[o s']| | | | |] eqn:E; auto. eapply run_text_sane; eauto. Qed.
Lemma read_value_sane s l v r s' : sane s -> read_value l s = Ret ((Some v, r), s') -> sane s' /\ v < nextId s' /\ genv s' < nextId s'.
Proof.
  intros S E. apply sane_inv in S. pose proof (read_value_ok true [] s l S) as W. destruct (wp_ret_inv _ _ _ _ _ W E) as (H & _).
  pose proof (a_inv _ _ _ _ _ _ _ H) as A. split; [now apply sane_inv|]. split; [exact (proj1 (a_good _ _ _ _ _ _ _ H v eq_refl))|exact (proj1 (i_genv _ _ _ A))].
Qed.
(** The text [t] after the text [pre] is a form whose operator is [p]: what the
    evaluation of that form is. *)
Definition special_eqb (p q : special) : bool :=
  match p, q with
  | SpDefine, SpDefine | SpEval, SpEval | SpQuote, SpQuote | SpSelect, SpSelect | SpIf, SpIf | SpWhile, SpWhile | SpFor, SpFor
  | SpEqual, SpEqual | SpIdentical, SpIdentical | SpNotEqual, SpNotEqual | SpLess, SpLess | SpGreater, SpGreater
  | SpLessEq, SpLessEq | SpGreaterEq, SpGreaterEq | SpFn, SpFn | SpMacro, SpMacro | SpAnd, SpAnd | SpOr, SpOr | SpDo, SpDo
  | SpGenerate, SpGenerate | SpTemplate, SpTemplate => true
  | _, _ => false
  end.
Lemma special_eqb_eq p q : special_eqb p q = true -> p = q.
Proof. destruct p, q; easy. Qed.
(** Evaluating a form read from [t] in [s0] is a call of the special [p]. *)
Definition try_form (n : nat) (p : special) (s0 : vm) (t : text) : option (ref * vm * ref * ref * vm * option ref * vm) :=
  match read_value t s0 with
  | Ret ((Some v, _), s) =>
      match data_at s v with
      | Some (DVec (x :: _)) =>
          match Eval.eval n x (genv s) (inside v (genv s) s), Eval.eval (S n) v (genv s) s with
          | Ret (Some f, s2), Ret (o, s') =>
              match data_at s2 f with
              | Some (DSpecial q) => if special_eqb p q && negb (quit s) then Some (v, s, x, f, s2, o, s') else None
              | _ => None
              end
          | _, _ => None
          end
      | _ => None
      end
  | _ => None
  end.
Definition form_calls (n : nat) (p : special) (d : option data) : Prop :=
  exists v s x f s2 o s', calls_special n p (genv s) v s x f s2 o s' /\
    match o with Some r => data_at s' r | None => None end = d.
Lemma try_form_calls n p s0 t d : sane s0 ->
  match try_form n p s0 t with Some (_, _, _, _, _, Some r, s') => data_at s' r | _ => None end = Some d -> form_calls n p (Some d).
Proof.
  intros S0. unfold try_form. destruct (read_value t s0) as [[[[v|] rr] s]| | | | |] eqn:ER; try discriminate.
  destruct (data_at s v) as [[]|] eqn:EV; try discriminate. destruct l as [|x xs]; [discriminate|].
  destruct (Eval.eval n x (genv s) (inside v (genv s) s)) as [[[f|] s2]| | | | |] eqn:EF; try discriminate.
  destruct (Eval.eval (S n) v (genv s) s) as [[o s']| | | | |] eqn:EO; try discriminate.
  destruct (data_at s2 f) as [[]|] eqn:DF; try discriminate. destruct (special_eqb p p0 && negb (quit s))%bool eqn:C; [|discriminate].
  apply andb_true_iff in C as (C1 & C2). apply special_eqb_eq in C1 as <-. apply negb_true_iff in C2. intros ED.
  destruct (read_value_sane _ _ _ _ _ S0 ER) as (SA & LV & LG).
  exists v, s, x, f, s2, o, s'. split; [constructor; eauto|]. destruct o; [exact ED|discriminate].
Qed.
Lemma text_case p pre t d : match try_form 50 p (after_text machine pre) (asc t) with Some (_, _, _, _, _, Some r, s') => data_at s' r | _ => None end = Some d ->
  form_calls 50 p (Some d).
Proof. intros E. exact (try_form_calls 50 p _ _ d (after_text_sane machine pre machine_sane) E). Qed.
