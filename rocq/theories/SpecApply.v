(** What eval does (also in the form that applies an operator). *)
From Coq Require Import String List NArith ZArith Bool.
From Verif Require Import Base HMap Heap SpecHeap Env Eval SpecTrace SpecSpecial SpecForm SpecCall.
Import ListNotations.
Local Open Scope list_scope.

Definition is_env (d : data) : Prop := match d with DEnv _ _ => True | _ => False end.
Definition callable (d : data) : Prop := match d with DFun _ | DMac _ | DSpecial _ | DBuiltin _ => True | _ => False end.
(** [x] is evaluated in [env], and then its value. *)
Inductive twice_run (env x : ref) : list event -> ref -> option data -> Prop :=
| twice e t od1 e' r od : yields e x env t od1 -> yields e' t env r od -> twice_run env x [e; e'] r od.
(** The arguments of an application: the forms are evaluated in order; a vector
    stands for its elements, and a form without a value for nothing. *)
Inductive splice_run (env : ref) : list ref -> list event -> list ref -> Prop :=
| sp_end : splice_run env [] [] []
| sp_none x l s s' evs vs : splice_run env l evs vs -> splice_run env (x :: l) (Eval x env s None s' :: evs) vs
| sp_vector x l e r ws evs vs : gives e x env r (DVec ws) -> splice_run env l evs vs -> splice_run env (x :: l) (e :: evs) (ws ++ vs)
| sp_value x l e r d evs vs : gives e x env r d -> (forall ws, d <> DVec ws) -> splice_run env l evs vs -> splice_run env (x :: l) (e :: evs) (r :: vs).
Inductive eval_run (env : ref) (s : vm) : list ref -> list event -> ref -> option data -> Prop :=
| ev_none r d : is_err d -> eval_run env s [] [] r (Some d)
| ev_one x evs r od : twice_run env x evs r od -> eval_run env s [x] evs r od
(** (eval x e): in the environment [e]. *)
| ev_in x e d evs r od : data_at s e = Some d -> is_env d -> twice_run e x evs r od -> eval_run env s [x; e] evs r od
| ev_in_value x y dy e1 e d evs r od : data_at s y = Some dy -> ~ is_env dy -> gives e1 y env e d -> is_env d -> twice_run e x evs r od ->
    eval_run env s [x; y] (e1 :: evs) r od
| ev_in_error x y dy e1 e d : data_at s y = Some dy -> ~ is_env dy -> gives e1 y env e d -> is_err d -> eval_run env s [x; y] [e1] e (Some d)
| ev_in_bad x y dy e1 e d r d' : data_at s y = Some dy -> ~ is_env dy -> gives e1 y env e d -> ~ is_env d -> ~ is_err d -> is_err d' ->
    eval_run env s [x; y] [e1] r (Some d')
(** (eval f e x...): the value of [f] is applied in the environment that is the
    value of [e]: a new form holding it and the values of the [x] is evaluated
    there. *)
| ev_not_callable x y z l e1 f d r d' : gives e1 x env f d -> ~ callable d -> is_err d' -> eval_run env s (x :: y :: z :: l) [e1] r (Some d')
| ev_not_env x y z l e1 f d e2 e dy r d' : gives e1 x env f d -> callable d -> gives e2 y env e dy -> ~ is_env dy -> is_err d' ->
    eval_run env s (x :: y :: z :: l) [e1; e2] r (Some d')
| ev_apply x y z l e1 f d e2 e dy evs vs e3 w r od : gives e1 x env f d -> callable d -> gives e2 y env e dy -> is_env dy ->
    splice_run env (z :: l) evs vs -> yields e3 w e r od -> data_at (before e3) w = Some (DVec (f :: vs)) ->
    eval_run env s (x :: y :: z :: l) (e1 :: e2 :: evs ++ [e3]) r od.

(** ** Macros *)

(** The call of the macro [f]: the forms of [v] after the first, unevaluated, are
    bound to the formals in a new environment [ext] inside the one the macro was
    made in; the body is run in it; its value (the expansion) is then evaluated in
    [ext]. *)
Inductive macro_run (v f : ref) (s : vm) : list event -> ref -> option data -> Prop :=
| ma_refused l g ext a s1 r s2 : data_at s v = Some (DVec l) -> holds_fun s f g -> (nextId s <= ext)%N ->
    data_at s1 ext = Some (DEnv [] (Some (fenv g))) -> data_at s1 a = Some (DVec (tl l)) ->
    macro_run v f s [Extend ext (fformals g) a s1 (Some r) s2] r (data_at s2 r)
| ma_run l g ext a s1 s2 evs t od e r od' : data_at s v = Some (DVec l) -> holds_fun s f g -> (nextId s <= ext)%N ->
    data_at s1 ext = Some (DEnv [] (Some (fenv g))) -> data_at s1 a = Some (DVec (tl l)) ->
    fbody_run f ext s2 0 None evs (Some (t, od)) -> yields e t ext r od' ->
    macro_run v f s (Extend ext (fformals g) a s1 None s2 :: evs ++ [e]) r od'.
