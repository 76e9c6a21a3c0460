(** C53, C56, C62, C63: special forms.  See [special_form] in SpecForm.v and the
    relations in SpecSpecial.v. *)
From Coq Require Import NArith ZArith Bool Lia Arith String List.
From Verif Require Import Base HMap Heap SpecHeap ValueOps Env Eval Read Boot Run SpecTrace SpecSpecial SpecForm SpecialForms PropsValue.
Import ListNotations.
Local Open Scope N_scope.
Local Open Scope string_scope.
Local Open Scope list_scope.

(** ** C53 *)

(** if evaluates the test and then exactly one branch, or none. *)
Theorem C53_if : special_form SpIf (fun _ env _ => if_run env).
Proof. exact if_form. Qed.
Print Assumptions C53_if.
Example C53_if_witness : form_calls 50 SpIf (Some (DInt 2)) /\ form_calls 50 SpIf (Some DNil).
Proof.
  split.
  - apply (text_case _ "(define x as {D+1} [x])" "(if (== x {D+1}) (++ x) (= x {D+9}))"). vm_compute. reflexivity.
  - apply (text_case _ "(define x as {D+1} [x])" "(if (== x {D+2}) (++ x))"). vm_compute. reflexivity.
Qed.
(** What [if_run] says, in particular: of the two branches at most one is
    evaluated, once, after everything the test needs. *)
Corollary C53_if_one_branch : forall env c x y evs r od, if_run env [c; x; y] evs r od ->
  exists tests t d, test_run env c tests t d /\
    (evs = tests \/ exists e b, evs = tests ++ [e] /\ yields e (if b : bool then x else y) env r od /\ d = DBool b).
Proof.
  intros env c x y evs r od H. inversion H; subst.
  - cbn in *. contradiction.
  - eexists _, _, _. split; [eassumption|]. right. exists e, true. auto.
  - eexists _, _, _. split; [eassumption|]. right. exists e, false. auto.
  - eexists _, _, _. split; [eassumption|]. now left.
  - eexists _, _, _. split; [eassumption|]. now left.
Qed.
Print Assumptions C53_if_one_branch.
(** select tries the selectors in order, evaluating nothing but the selectors up
    to the first that is true (or default) and the form beside it. *)
Theorem C53_select : special_form SpSelect (fun _ => select_form).
Proof. exact select_forms. Qed.
Print Assumptions C53_select.
Example C53_select_witness : form_calls 50 SpSelect (Some (DInt 2)) /\ form_calls 50 SpSelect (Some DNil) /\ form_calls 50 SpSelect (Some (DInt 7)).
Proof.
  split; [|split].
  - apply (text_case _ "(define x as {D+1} [x])" "(select (== x {D+5}) {D+4} (== x {D+1}) (++ x) default (nope))"). vm_compute. reflexivity.
  - apply (text_case _ "(define x as {D+1} [x])" "(select (== x {D+5}) {D+4} (== x {D+6}) (++ x))"). vm_compute. reflexivity.
  - apply (text_case _ "(define x as {D+1} [x])" "(select (== x {D+5}) {D+4} default {D+7})"). vm_compute. reflexivity.
Qed.

(** ** C56 *)

(** while: the test, then the body, again and again; the result is the number of
    completed rounds, or the error (or pending return) that ended the loop. *)
Theorem C56_while : special_form SpWhile (fun _ env _ => while_form env).
Proof. exact while_forms. Qed.
Print Assumptions C56_while.
Example C56_witness : form_calls 50 SpWhile (Some (DInt 3)) /\ form_calls 50 SpWhile (Some (DInt 0)).
Proof.
  split.
  - apply (text_case _ "(define x as {D+1} [x])" "(while (< x {D+4}) (++ x))"). vm_compute. reflexivity.
  - apply (text_case _ "(define x as {D+1} [x])" "(while (< x {D+1}) (++ x))"). vm_compute. reflexivity.
Qed.
(** The test is true before every round and the number of rounds is the number of
    times the whole body was evaluated without an error. *)
Inductive rounds (env c : ref) (body : list ref) : nat -> list event -> Prop :=
| no_rounds : rounds env c body 0 []
| one_round n evs e t evs' : gives e c env t (DBool true) -> body_run env body evs' None -> rounds env c body n evs ->
    rounds env c body (S n) (e :: evs' ++ evs).
Corollary C56_count : forall env c body evs r z, while_run env c body 0 evs r (Some (DInt z)) ->
  exists n done last, rounds env c body n done /\
    ((z = Z.of_nat n /\ evs = done ++ [last] /\ exists t, gives last c env t (DBool false)) \/
     (exists e t rest, evs = done ++ e :: rest /\ gives e c env t (DBool true) /\ exists v od, body_run env body rest (Some (v, od)))).
Proof.
  assert (K : forall env c body k evs r od, while_run env c body k evs r od -> forall z, od = Some (DInt z) ->
    exists n done last, rounds env c body n done /\
    ((z = k + Z.of_nat n /\ evs = done ++ [last] /\ exists t, gives last c env t (DBool false)) \/
     (exists e t rest, evs = done ++ e :: rest /\ gives e c env t (DBool true) /\ exists v od, body_run env body rest (Some (v, od))))%Z).
  { intros env c body k evs r od H. induction H as [k e t r G|k e t evs evs' r od G B H IH|k e t evs r od G B|k e t d G D|k e t dt r d G D1 D2 D]; intros z E.
    - injection E as <-. exists O, [], e. split; [constructor|]. left. split; [cbn; lia|]. eauto.
    - destruct (IH z E) as (n & dn & last & R & K). exists (S n), (e :: evs ++ dn), last. split; [econstructor; eauto|].
      destruct K as [(-> & -> & T)|(e1 & t1 & rest & -> & T & V)]; [left|right].
      + split; [lia|]. split; [now rewrite <- app_comm_cons, <- app_assoc|exact T].
      + exists e1, t1, rest. split; [now rewrite <- app_comm_cons, <- app_assoc|auto].
    - exists O, [], e. split; [constructor|]. right. exists e, t, evs. eauto.
    - injection E as ->. destruct D.
    - injection E as ->. destruct D. }
  intros env c body evs r z H. destruct (K _ _ _ _ _ _ _ H z eq_refl) as (n & dn & last & R & [(E & E')|E]); exists n, dn, last; (split; [exact R|]); [left|right]; auto.
Qed.
Print Assumptions C56_count.

(** ** C62 *)

(** What and/or do instead: they stop at the first operand that is false (true);
    otherwise the result is the value of the last operand, so that an error in an
    operand before the last is dropped ([C62_error_dropped_refuted]).  Missing:
    an error of an earlier operand as the result, which does not hold. *)
Theorem C62_and_partial : special_form SpAnd (fun _ env _ => logic_run env false).
Proof. exact (logic_forms false). Qed.
Print Assumptions C62_and_partial.
Theorem C62_or_partial : special_form SpOr (fun _ env _ => logic_run env true).
Proof. exact (logic_forms true). Qed.
Print Assumptions C62_or_partial.
(** An error in the last operand is the result. *)
Corollary C62_last_partial : forall env stop l x evs r od, logic_run env stop (l ++ [x]) evs r od ->
  (exists e t d evs', evs = evs' ++ [e] /\ List.length evs' = List.length l /\ gives e x env t d /\ is_err d) ->
  (exists v, fret (after (List.last evs (Pend None machine machine))) = Some v) \/ exists d, od = Some d /\ is_err d.
Proof.
  intros env stop l x. induction l as [|y l IH]; intros evs r od H (e & t & d & evs' & -> & LE & G & D); cbn [app] in H.
  - destruct evs'; [|discriminate]. cbn [app] in *. inversion H as [|? ? ? ? G'|? ? ? ? G'|? ? ? ? ? ? ? ? G'|? ? ? ? ? ? F]; subst; try congruence.
    + destruct G as (sa & sb & -> & GD), G' as (sc & sd & EQ & GD'). injection EQ as <- <- <-. rewrite GD in GD'. injection GD' as ->. destruct D.
    + destruct G as (sa & sb & -> & GD), G' as (sc & sd & EQ & GD'). injection EQ as <- <- <-. rewrite GD in GD'. injection GD' as ->. right. eauto.
    + left. exists r. exact F.
  - destruct evs' as [|e' evs']; [discriminate|]. cbn [List.length app] in *. inversion H as [|? ? ? ? G'|? ? ? ? G'|? ? ? ? ? ? ? ? G' NS PE NL H'|? ? ? ? ? ? F]; subst;
      try (destruct evs'; discriminate).
    + destruct (IH (evs' ++ [e]) r od H') as [(v & V)|R]; [|left; exists v; rewrite !last_last in *|now right].
      * exists e, t, d, evs'. split; [reflexivity|]. split; [lia|auto].
      * change (e' :: evs' ++ [e])%list with ((e' :: evs') ++ [e])%list. now rewrite last_last.
Qed.
Print Assumptions C62_last_partial.
Example C62_witness : form_calls 50 SpAnd (Some (DBool false)) /\ form_calls 50 SpOr (Some (DInt 5)) /\ form_calls 50 SpAnd (Some (DErr [] 0)).
Proof.
  split; [|split].
  - apply (text_case _ "" "(and true false (nope))"). vm_compute. reflexivity.
  - apply (text_case _ "" "(or false {D+5})"). vm_compute. reflexivity.
  - apply (text_case _ "" "(and true (nope))"). vm_compute. reflexivity.
Qed.

(** ** C63 *)

(** What the comparisons do instead: the first value is compared with each of the
    others, in order, up to the first comparison that does not hold.  Missing:
    each argument compared with the next, which does not hold
    ([C63_chain_refuted]). *)
Theorem C63_order_partial :
  special_form SpLess (fun fuel env _ => compare_run env (fun h x y b => vless fuel h x y = Ret b) true) /\
  special_form SpGreater (fun fuel env _ => compare_run env (fun h x y b => vgreater fuel h x y = Ret b) true) /\
  special_form SpLessEq (fun fuel env _ => compare_run env (fun h x y b => vless_eq fuel h x y = Ret b) true) /\
  special_form SpGreaterEq (fun fuel env _ => compare_run env (fun h x y b => vgreater_eq fuel h x y = Ret b) true).
Proof. repeat split; apply order_forms; reflexivity. Qed.
Print Assumptions C63_order_partial.
Theorem C63_equality_partial :
  special_form SpEqual (fun fuel env _ => compare_run env (fun h x y b => vequal fuel h x y = Ret b) true) /\
  special_form SpNotEqual (fun fuel env _ => compare_run env (fun h x y b => vequal fuel h x y = Ret b) false) /\
  special_form SpIdentical (fun _ env _ => compare_run env (fun _ x y b => b = (x =? y)%N) true).
Proof. split; [exact equal_forms|]. split; [exact not_equal_forms|exact identical_forms]. Qed.
Print Assumptions C63_equality_partial.
Example C63_witness : form_calls 50 SpLess (Some (DBool true)) /\ form_calls 50 SpGreaterEq (Some (DBool false)) /\ form_calls 50 SpNotEqual (Some (DBool true)) /\ form_calls 50 SpIdentical (Some (DBool true)).
Proof.
  split; [|split; [|split]].
  - apply (text_case _ "" "(< {D+1} {D+2} {D+3})"). vm_compute. reflexivity.
  - apply (text_case _ "" "(>= {D+1} {D+2})"). vm_compute. reflexivity.
  - apply (text_case _ "" "(!= [a] [b])"). vm_compute. reflexivity.
  - apply (text_case _ "(define x as {D+1} [x])" "(=== x x)"). vm_compute. reflexivity.
Qed.
(** With two integers the result is their order (when their difference fits,
    see C35): [a] and [b] are the forms, [x] and [y] their values. *)
Corollary C63_two_partial : forall fuel env a b evs r od,
  compare_run env (fun h x y b => vless (S fuel) h x y = Ret b) true [a; b] evs r od ->
  exists x y s1 s2 s3 s4, evs = [SpecTrace.Eval a env s1 (Some x) s2; SpecTrace.Eval b env s3 (Some y) s4] /\
    (forall m n, data_at s4 x = Some (DInt m) -> data_at s4 y = Some (DInt n) -> in_int32 (m - n) = true ->
       od = Some (DBool (m <? n)%Z)).
Proof.
  intros fuel env a b evs r od H. inversion H as [|? ? s1 x s2 evs' ? ? _ H']; subst; [cbn in *; lia|].
  assert (K : forall s4 y q, vless (S fuel) (all s4) x y = Ret q -> forall m n, data_at s4 x = Some (DInt m) -> data_at s4 y = Some (DInt n) -> in_int32 (m - n) = true -> q = (m <? n)%Z).
  { intros s4 y q Q m n X Y F. unfold data_at in X, Y. destruct (lookup (all s4) x) as [cx|] eqn:LX; [|discriminate]. destruct (lookup (all s4) y) as [cy|] eqn:LY; [|discriminate].
    injection X as X. injection Y as Y. destruct (C35_integer_comparison_partial _ _ _ _ _ _ _ fuel LX LY X Y F) as (W & _). congruence. }
  inversion H' as [|? ? s3 y s4 ? ? ? Q E|? ? s3 y s4 ? Q]; subst; [inversion E; subst|]; exists x, y, s1, s2, s3, s4; (split; [reflexivity|]); intros m n X Y F; rewrite <- (K _ _ _ Q m n X Y F); reflexivity.
Qed.
Print Assumptions C63_two_partial.

(** ** do and quote *)
Theorem C67_do : special_form SpDo (fun _ env _ => do_run env).
Proof. exact do_forms. Qed.
Print Assumptions C67_do.
Theorem C68_quote : special_form SpQuote (fun _ _ => quote_run).
Proof. exact quote_form. Qed.
Print Assumptions C68_quote.
Example C67_C68_witness : form_calls 50 SpDo (Some (DInt 2)) /\ form_calls 50 SpQuote (Some (DSym (asc "x"))).
Proof.
  split.
  - apply (text_case _ "(define x as {D+1} [x])" "(do (++ x) x)"). vm_compute. reflexivity.
  - apply (text_case _ "" "(quote x)"). vm_compute. reflexivity.
Qed.
