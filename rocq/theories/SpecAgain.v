(** What becomes of the expansion of a macro whose value is a vector. *)
From Coq Require Import List NArith ZArith Bool.
From Verif Require Import Base HMap Heap SpecHeap Env Eval SpecTrace SpecSpecial SpecForm SpecCall SpecApply.
Import ListNotations.
Local Open Scope list_scope.

(** The call of the function [f] where expansions are evaluated: as any call, but
    the value of the body is evaluated once more, in the environment of the body. *)
Inductive function_again (env v f : ref) (s : vm) : list event -> ref -> option data -> Prop :=
| fa_args evs xs r d : args_run env v s 1 evs xs (Some (r, d)) -> function_again env v f s evs r (Some d)
| fa_refused evs xs g ext a s1 r s2 : args_run env v s 1 evs xs None -> holds_fun s1 f g -> (nextId s <= ext)%N ->
    data_at s1 ext = Some (DEnv [] (Some (fenv g))) -> data_at s1 a = Some (DVec xs) ->
    function_again env v f s (evs ++ [Extend ext (fformals g) a s1 (Some r) s2]) r (data_at s2 r)
| fa_run evs xs g ext a s1 s2 evs' t od e r od' : args_run env v s 1 evs xs None -> holds_fun s1 f g -> (nextId s <= ext)%N ->
    data_at s1 ext = Some (DEnv [] (Some (fenv g))) -> data_at s1 a = Some (DVec xs) ->
    fbody_run f ext s2 0 None evs' (Some (t, od)) -> yields e t ext r od' ->
    function_again env v f s (evs ++ (Extend ext (fformals g) a s1 None s2 :: evs') ++ [e]) r od'.

(** In [s], the value of the operator of the form [y] is [f]. *)
Definition operator (env y : ref) (s : vm) (f : ref) (s' : vm) (z : ref) : Prop :=
  quit s = false /\ (exists zs, data_at s y = Some (DVec (z :: zs))) /\ exists fuel, eval fuel z env (inside y env s) = Ret (Some f, s').
Definition is_form (d : option data) : Prop := exists z zs, d = Some (DVec (z :: zs)).
Definition plain_call (env y : ref) (s : vm) : Prop :=
  exists f s' z, operator env y s f s' z /\ forall g, data_at s' f <> Some (DFun g) /\ data_at s' f <> Some (DMac g).
(** [y] is evaluated where expansions are: what is not the call of a function or
    of a macro as ever. *)
Inductive again_run (env y : ref) : list event -> ref -> option data -> Prop :=
| ag_plain s r s' : quit s = true \/ ~ is_form (data_at s y) \/ plain_call env y s ->
    again_run env y [SpecTrace.Eval y env s (Some r) s'] r (data_at s' r)
| ag_function s z f s' g evs r od : operator env y s f s' z -> data_at s' f = Some (DFun g) -> function_again env y f s' evs r od ->
    again_run env y (SpecTrace.Eval z env (inside y env s) (Some f) s' :: evs) r od
| ag_macro s z f s' g evs r od : operator env y s f s' z -> data_at s' f = Some (DMac g) -> macro_run y f s' evs r od ->
    again_run env y (SpecTrace.Eval z env (inside y env s) (Some f) s' :: evs) r od.

(** The value [r] of an expansion, holding [od].  It is the value of the call,
    unless it is a vector with elements: then its first element is evaluated in
    the environment of the call; the vector is still the value of the call when
    the value of that element is not a macro; when it is one the vector is
    evaluated as an expansion in its turn. *)
Inductive expansion_run (env : ref) : ref -> option data -> list event -> ref -> Prop :=
| ex_value r od : ~ is_form od -> expansion_run env r od [] r
| ex_vector r y ys evs t od : again_run env y evs t od -> (forall g, od <> Some (DMac g)) ->
    expansion_run env r (Some (DVec (y :: ys))) evs r
| ex_macro r y ys evs t g evs1 r1 od1 evs2 r2 : again_run env y evs t (Some (DMac g)) -> again_run env r evs1 r1 od1 ->
    expansion_run env r1 od1 evs2 r2 ->
    expansion_run env r (Some (DVec (y :: ys))) (evs ++ evs1 ++ evs2) r2.
