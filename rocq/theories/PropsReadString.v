(** C106: read-and-eval-string. *)
From Coq Require Import NArith ZArith Bool Lia Arith String List.
From Verif Require Import Base Input HMap Heap SpecHeap ValueOps Env Reader Builtins Eval Read Boot Run SafeBase SpecText SpecTrace SpecSpecial SpecForm SpecCall SpecDefine SpecBuiltin TraceProofs SpecialProofs SpecialEval DefineProofs BuiltinProofs BuiltinCases PropsEval PropsBuiltin.
Import ListNotations.
Local Open Scope N_scope.
Local Open Scope string_scope.
Local Open Scope list_scope.

(** One string: the text (up to its first NUL character) is read and evaluated in
    the global environment form by form, as [text_run] says; the result is that of
    the last form, or the first error.  Anything else, and the empty text, is an error. *)
Inductive reads_result (s : vm) : list ref -> vm -> ref -> Prop :=
| reads_text x t t' fuel vs s' r : data_at s x = Some (DStr t) -> through_c t t' -> text_run fuel t' t' None s vs (Some r) s' -> vs <> [] -> r = List.last vs 0 ->
    reads_result s [x] s' r
| reads_empty x t t' s' r : data_at s x = Some (DStr t) -> through_c t t' -> t' = [] -> keeps (stack s) s s' -> complains s s' r -> reads_result s [x] s' r
| reads_bad xs s' r : (forall x t, xs = [x] -> data_at s x <> Some (DStr t)) -> keeps (stack s) s s' -> complains s s' r -> reads_result s xs s' r.
Theorem C106_read_and_eval_string_partial : exists p, named "read-and-eval-string" p /\ does p (fun s _ => reads_result s).
Proof.
  exists BiReadEvalString. split; [library_name|]. intros n m a env xs s r s' A E. cbn [builtin_call] in E. unfold b_read_eval_string in E.
  assert (BAD : new_error s = Ret (r, s') -> keeps (stack s) s s' /\ complains s s' r).
  { intros EN. assert (W : wp new_error (fun r s' => keeps (stack s) s s' /\ complains s s' r) s).
    { assert (I : Inv [] s) by (apply sane_inv, A). eapply (q_error [] s []); [exact (at_start true true [] s I)|]. intros r1 s1 H C. split; [|exact C]. eapply keeps_at; exact H. }
    exact (wp_ret_inv _ _ _ _ _ W EN). }
  apply bind_inv in E as (l & s1 & EL & E). unfold vec_of in EL. apply bind_inv in EL as (d & s2 & EG & EL). apply get_inv in EG as (-> & D). rewrite (ar_values _ _ _ _ A) in D. injection D as <-. injection EL as <- <-.
  destruct xs as [|x [|y xs]]; [destruct (BAD E); now constructor| |destruct (BAD E); now constructor].
  apply bind_inv in E as (d & s1 & EG & E). apply get_inv in EG as (-> & D).
  destruct d as [ |db|dz|df|t|dt|dt|dmsg dline|l|m0|l max|l|db denc|df|df|dp|dp|dv]; try (destruct (BAD E); constructor; [intros x0 t [= <-]; congruence|assumption|assumption]).
  apply bind_inv in E as (t' & s1 & EC & E). unfold lift in EC. destruct (c_string_copy t) as [t0| | | | |] eqn:ET; try discriminate. injection EC as <- <-.
  apply bind_inv in E as (o & s1 & ER & E). apply need_inv in E as (-> & ->).
  destruct t0 as [|c0 t0]; [|].
  { unfold read_eval_by in ER. cbn [input_good input_new rest] in ER. apply bind_inv in ER as (r1 & s2 & EN & ER). injection ER as -> ->. destruct (BAD EN). eapply reads_empty; eauto using c_string_through. }
  assert (NE : c0 :: t0 <> []) by discriminate. set (t1 := c0 :: t0) in *. destruct (C64_in_order m t1 s (Some r) s1 NE ER) as (vs & TR). pose proof (C64_value _ _ _ _ _ _ _ _ TR) as V.
  apply (reads_text s x t t1 m vs); [exact D|exact (c_string_through _ _ ET)|exact TR| |]; destruct vs; try discriminate. injection V as ->. reflexivity.
Qed.
Print Assumptions C106_read_and_eval_string_partial.
Example C106_case : a_case BiReadEvalString (gives_data (is_int_b 5)).
Proof. apply (arg_case _ _ "(define t as [(define z as {D+4} |[|z|]|) (++ z)] [t])" ["t"]). vm_compute. reflexivity. Qed.
Example C106_case_bad : a_case BiReadEvalString (gives_data (fun d => match d with DErr _ _ => true | _ => false end)).
Proof. apply (arg_case _ _ "(define t as {D+4} [t])" ["t"]). vm_compute. reflexivity. Qed.
(** That every text gives a value: refuted.  A text without a form ends the
    program (the check that the result is not NULL, see [need] in Env.v). *)
Theorem C106_refuted :
  run_text machine "(read-and-eval-string [ ])" = Undef /\
  run_text machine "(read-and-eval-string [#!only a comment!#])" = Undef.
Proof. repeat split; vm_compute; reflexivity. Qed.
Print Assumptions C106_refuted.
