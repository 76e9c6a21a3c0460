(** Concrete calls, for the witnesses. *)
From Coq Require Import NArith ZArith Bool Lia Arith List String.
From Verif Require Import Base HMap Heap Env Eval Read Boot Run SpecTrace SpecForm SpecCall SpecialForms.
Import ListNotations.
Local Open Scope N_scope.

(** Evaluating the form read from [t] in [s0]. *)
Definition try_call (n : nat) (s0 : vm) (t : text) : option (ref * vm * ref * ref * vm * option ref * vm) :=
  match read_value t s0 with
  | Ret ((Some v, _), s) =>
      match data_at s v with
      | Some (DVec (x :: _)) =>
          match Eval.eval n x (genv s) (inside v (genv s) s), Eval.eval (S n) v (genv s) s with
          | Ret (Some f, s2), Ret (o, s') => if quit s then None else Some (v, s, x, f, s2, o, s')
          | _, _ => None
          end
      | _ => None
      end
  | _ => None
  end.
Definition a_call (q : vm -> ref -> vm -> option ref -> vm -> bool) : Prop :=
  exists n v s x f s2 o s', calls_form n (genv s) v s x f s2 o s' /\ q s f s2 o s' = true.
Lemma call_case q pre t : match try_call 50 (after_text machine pre) (asc t) with Some (_, s, _, f, s2, o, s') => q s f s2 o s' | None => false end = true -> a_call q.
Proof.
  assert (G : forall s0 t, sane s0 -> match try_call 50 s0 t with Some (_, s, _, f, s2, o, s') => q s f s2 o s' | None => false end = true -> a_call q).
  { clear. intros s0 t S0. unfold try_call. destruct (read_value t s0) as [[[[v|] rr] s]| | | | |] eqn:ER; try discriminate.
    destruct (data_at s v) as [[]|] eqn:EV; try discriminate. destruct l as [|x xs]; [discriminate|].
    destruct (Eval.eval 50 x (genv s) (inside v (genv s) s)) as [[[f|] s2]| | | | |] eqn:EF; try discriminate.
    destruct (Eval.eval 51 v (genv s) s) as [[o s']| | | | |] eqn:EO; try discriminate. destruct (quit s) eqn:EQ; [discriminate|]. intros H.
    destruct (read_value_sane _ _ _ _ _ S0 ER) as (SA & LV & LG). exists 50%nat, v, s, x, f, s2, o, s'. split; [constructor; eauto|exact H]. }
  apply G. apply after_text_sane, machine_sane.
Qed.
