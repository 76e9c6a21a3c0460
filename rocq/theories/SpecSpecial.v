(** What the special forms do, as relations between the argument forms, the
    visible events in their order, and the result.

    In each relation [r] is the result; its contents are [od] (up to the text of
    an error; [None]: nothing is said about them). *)
From Coq Require Import String List NArith ZArith Bool.
From Verif Require Import Base HMap Heap Env SpecTrace.
Local Open Scope string_scope.
Local Open Scope list_scope.
Import ListNotations.

Definition is_bool (d : data) : Prop := match d with DBool _ => True | _ => False end.
Definition is_func (d : data) : Prop := match d with DFun _ => True | _ => False end.
Definition told (d d' : data) : Prop := d' = d \/ (is_err d /\ is_err d').
Definition result_is (s : vm) (r : ref) (od : option data) : Prop :=
  match od with Some d => exists d', data_at s r = Some d' /\ told d d' | None => True end.

(** [x] was evaluated in [env] with the result [r], holding [od]. *)
Definition yields (e : event) (x env r : ref) (od : option data) : Prop :=
  exists s s', e = Eval x env s (Some r) s' /\ data_at s' r = od.

(** The forms [l] given to a special; [R]: what the special does with them. A
    form that is itself an error is the result. *)
Definition no_error (s : vm) (l : list ref) : Prop := forall x d, In x l -> data_at s x = Some d -> ~ is_err d.
Inductive form_run (R : list ref -> list event -> ref -> option data -> Prop) (s : vm) (l : list ref) : list event -> ref -> option data -> Prop :=
| form_bad l1 x l2 d : l = l1 ++ x :: l2 -> no_error s l1 -> data_at s x = Some d -> is_err d -> form_run R s l [] x (Some d)
| form_fine evs r od : no_error s l -> R l evs r od -> form_run R s l evs r od.

(** ** quote *)
Inductive quote_run (s : vm) : list ref -> list event -> ref -> option data -> Prop :=
| quote_arity l r d : List.length l <> 1 -> is_err d -> quote_run s l [] r (Some d)
| quote_one x : quote_run s [x] [] x (data_at s x).

(** ** if *)

(** The test: evaluated once; when its value is a function, that function is
    called without arguments (a new form [w] holding only the function). *)
Inductive test_run (env c : ref) : list event -> ref -> data -> Prop :=
| test_plain e t d : gives e c env t d -> ~ is_func d -> test_run env c [e] t d
| test_call e f g e' w t d : gives e c env f (DFun g) -> gives e' w env t d -> data_at (before e') w = Some (DVec [f]) ->
    test_run env c [e; e'] t d.
Inductive if_run (env : ref) : list ref -> list event -> ref -> option data -> Prop :=
| if_arity l r d : List.length l <> 2 -> List.length l <> 3 -> is_err d -> if_run env l [] r (Some d)
| if_true c x l evs t e r od : List.length l <= 1 -> test_run env c evs t (DBool true) -> yields e x env r od ->
    if_run env (c :: x :: l) (evs ++ [e]) r od
| if_false c x y evs t e r od : test_run env c evs t (DBool false) -> yields e y env r od ->
    if_run env [c; x; y] (evs ++ [e]) r od
| if_false_nil c x evs t r : test_run env c evs t (DBool false) -> if_run env [c; x] evs r (Some DNil)
| if_error c x l evs t d : List.length l <= 1 -> test_run env c evs t d -> is_err d -> if_run env (c :: x :: l) evs t (Some d)
| if_not_bool c x l evs t dt r d : List.length l <= 1 -> test_run env c evs t dt -> ~ is_bool dt -> ~ is_err dt -> is_err d ->
    if_run env (c :: x :: l) evs r (Some d).

(** ** select *)

(** The selectors and their forms, from the first on. [is_default x]: the
    selector is the symbol default. *)
Definition is_default (s : vm) (x : ref) : Prop := data_at s x = Some (DSym (asc "default")).
Inductive select_run (env : ref) : vm -> list ref -> list event -> ref -> option data -> Prop :=
| sel_none s r : select_run env s [] [] r (Some DNil)
| sel_default s x y e r od : is_default s x -> yields e y env r od -> select_run env s [x; y] [e] r od
| sel_early_default s x y l r d : is_default s x -> l <> [] -> is_err d -> select_run env s (x :: y :: l) [] r (Some d)
| sel_true s x y l e t e' r od : ~ is_default s x -> gives e x env t (DBool true) -> yields e' y env r od ->
    select_run env s (x :: y :: l) [e; e'] r od
| sel_false s x y l e t evs r od : ~ is_default s x -> gives e x env t (DBool false) -> select_run env (after e) l evs r od ->
    select_run env s (x :: y :: l) (e :: evs) r od
| sel_error s x y l e t d : ~ is_default s x -> gives e x env t d -> is_err d -> select_run env s (x :: y :: l) [e] t (Some d)
| sel_not_bool s x y l e t dt r d : ~ is_default s x -> gives e x env t dt -> ~ is_bool dt -> ~ is_err dt -> is_err d ->
    select_run env s (x :: y :: l) [e] r (Some d).

Inductive select_form (env : ref) (s : vm) (l : list ref) : list event -> ref -> option data -> Prop :=
| sf_arity r d : List.length l < 2 \/ Nat.odd (List.length l) = true -> is_err d -> select_form env s l [] r (Some d)
| sf_run evs r od : 2 <= List.length l -> Nat.even (List.length l) = true -> select_run env s l evs r od -> select_form env s l evs r od.

(** ** Bodies and while *)

(** The forms of a body, in order: [None]: all were evaluated; [Some (v, od)]:
    stopped by an error, or by a pending return of [v]. *)
Inductive body_run (env : ref) : list ref -> list event -> option (ref * option data) -> Prop :=
| body_end : body_run env [] [] None
| body_next x l e r d evs o : gives e x env r d -> ~ is_err d -> pending e = None -> body_run env l evs o ->
    body_run env (x :: l) (e :: evs) o
| body_error x l e r d : gives e x env r d -> is_err d -> body_run env (x :: l) [e] (Some (r, Some d))
| body_return x l e r d v : gives e x env r d -> ~ is_err d -> pending e = Some v -> body_run env (x :: l) [e] (Some (v, None)).
(** [n] rounds have been made before. *)
Inductive while_run (env c : ref) (body : list ref) : Z -> list event -> ref -> option data -> Prop :=
| while_end n e t r : gives e c env t (DBool false) -> while_run env c body n [e] r (Some (DInt n))
| while_round n e t evs evs' r od : gives e c env t (DBool true) -> body_run env body evs None ->
    while_run env c body (n + 1) evs' r od -> while_run env c body n (e :: evs ++ evs') r od
| while_stop n e t evs r od : gives e c env t (DBool true) -> body_run env body evs (Some (r, od)) ->
    while_run env c body n (e :: evs) r od
| while_error n e t d : gives e c env t d -> is_err d -> while_run env c body n [e] t (Some d)
| while_not_bool n e t dt r d : gives e c env t dt -> ~ is_bool dt -> ~ is_err dt -> is_err d -> while_run env c body n [e] r (Some d).

Inductive while_form (env : ref) (l : list ref) : list event -> ref -> option data -> Prop :=
| wf_arity r d : List.length l < 2 -> is_err d -> while_form env l [] r (Some d)
| wf_run c body evs r od : l = c :: body -> body <> [] -> while_run env c body 0 evs r od -> while_form env l evs r od.

(** ** and, or, do *)

(** [stop]: the boolean that decides the result (false for and, true for or). *)
Inductive logic_run (env : ref) (stop : bool) : list ref -> list event -> ref -> option data -> Prop :=
| logic_empty r : logic_run env stop [] [] r (Some (DBool (negb stop)))
| logic_stop x l e r : gives e x env r (DBool stop) -> pending e = None -> logic_run env stop (x :: l) [e] r (Some (DBool stop))
| logic_last x e r d : gives e x env r d -> d <> DBool stop -> pending e = None -> logic_run env stop [x] [e] r (Some d)
| logic_next x l e t d evs r od : gives e x env t d -> d <> DBool stop -> pending e = None -> l <> [] -> logic_run env stop l evs r od ->
    logic_run env stop (x :: l) (e :: evs) r od
| logic_return x l s o s' v : fret s' = Some v -> logic_run env stop (x :: l) [SpecTrace.Eval x env s o s'] v None.
Inductive do_run (env : ref) : list ref -> list event -> ref -> option data -> Prop :=
| do_empty r d : is_err d -> do_run env [] [] r (Some d)
| do_error x l e r d : gives e x env r d -> is_err d -> pending e = None -> do_run env (x :: l) [e] r (Some d)
| do_last x e r d : gives e x env r d -> ~ is_err d -> pending e = None -> do_run env [x] [e] r (Some d)
| do_next x l e t d evs r od : gives e x env t d -> ~ is_err d -> pending e = None -> l <> [] -> do_run env l evs r od ->
    do_run env (x :: l) (e :: evs) r od
| do_return x l s o s' v : fret s' = Some v -> do_run env (x :: l) [SpecTrace.Eval x env s o s'] v None.

(** ** Comparison: the first value [x] against each of the others. [holds h x y b]:
    the comparison of [x] and [y] in the memory [h] gives [b]; [yes]: the boolean
    for "all comparisons hold". *)
Inductive compare_rest (env : ref) (holds : heap -> ref -> ref -> bool -> Prop) (yes : bool) (x : ref) : list ref -> list event -> ref -> option data -> Prop :=
| cmp_all r : compare_rest env holds yes x [] [] r (Some (DBool yes))
| cmp_next y l s t s' evs r od : holds (all s') x t true -> compare_rest env holds yes x l evs r od ->
    compare_rest env holds yes x (y :: l) (SpecTrace.Eval y env s (Some t) s' :: evs) r od
| cmp_fails y l s t s' r : holds (all s') x t false -> compare_rest env holds yes x (y :: l) [SpecTrace.Eval y env s (Some t) s'] r (Some (DBool (negb yes))).
Inductive compare_run (env : ref) (holds : heap -> ref -> ref -> bool -> Prop) (yes : bool) : list ref -> list event -> ref -> option data -> Prop :=
| cmp_arity l r d : List.length l < 2 -> is_err d -> compare_run env holds yes l [] r (Some d)
| cmp_first y l s x s' evs r od : l <> [] -> compare_rest env holds yes x l evs r od ->
    compare_run env holds yes (y :: l) (SpecTrace.Eval y env s (Some x) s' :: evs) r od.
