(** What fn and macro make. *)
From Coq Require Import String List NArith ZArith Bool.
From Verif Require Import Base HMap Heap SpecHeap ValueOps Env Eval SpecTrace SpecSpecial SpecForm SpecBuiltin.
Import ListNotations.
Local Open Scope string_scope.
Local Open Scope list_scope.

(** The names of formals: at most one marker ".", and at most one name after it. *)
Definition proper_names (names : list text) : Prop :=
  ~ In (asc ".") names \/
  exists l l', names = l ++ asc "." :: l' /\ ~ In (asc ".") l /\ ~ In (asc ".") l' /\ List.length l' <= 1.
Definition proper_formals (s : vm) (x : ref) : Prop :=
  exists fs names, data_at s x = Some (DVec fs) /\ Forall2 (fun y t => data_at s y = Some (DSym t)) fs names /\ proper_names names.
(** The documentation of a value. *)
Definition doc_at (s : vm) (r : ref) : option ref := match lookup (all s) r with Some c => cdoc c | None => None end.

(** The result [r] of (fn l...) or (macro l...), evaluated in [env]. *)
Inductive maker_run (mk : func -> data) (env : ref) (s : vm) (l : list ref) (r : ref) (s' : vm) : Prop :=
| make_few : List.length l < 2 -> complains s s' r -> maker_run mk env s l r s'
| make_bad x forms : l = x :: forms -> ~ proper_formals s x -> complains s s' r -> maker_run mk env s l r s'
| make_new x forms body doc : l = x :: forms -> forms <> [] -> proper_formals s x ->
    makes s s' r (mk (mkFunc [] [] false x body env)) -> makes s s' body (DVec forms) ->
    doc_at s' r = Some doc -> makes s s' doc (DStr []) -> NoDup [r; body; doc] -> maker_run mk env s l r s'.

(** Evaluating a form whose operator is the special [p] makes a value (or an
    error) as [K] says and changes nothing that existed; a form among [tl l] that
    is itself an error is the result. *)
Definition maker_form (p : special) (K : ref -> vm -> list ref -> ref -> vm -> Prop) : Prop :=
  forall fuel env v s x f s2 o s', calls_special fuel p env v s x f s2 o s' ->
  exists r l, o = Some r /\ data_at s2 v = Some (DVec l) /\ keeps (env :: v :: stack s) s2 s' /\
    ((no_error s2 (tl l) /\ K env s2 (tl l) r s') \/
     (exists l1 l2 d d', tl l = l1 ++ r :: l2 /\ no_error s2 l1 /\ data_at s2 r = Some d /\ is_err d /\ data_at s' r = Some d' /\ is_err d')).
