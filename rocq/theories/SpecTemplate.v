(** What (template ...) does, as relations between the argument forms, the
    visible events in their order, and the result (as in SpecSpecial.v). *)
From Coq Require Import String List NArith ZArith Bool.
From Verif Require Import Base HMap Heap SpecHeap Env SpecTrace SpecSpecial SpecDefine.
Local Open Scope string_scope.
Local Open Scope list_scope.
Import ListNotations.

(** Where the elements of a template are: the forms given, or a vector among
    them, which is read anew for every element. *)
Definition source : Type := vm -> option (list ref).
Definition given (l : list ref) : source := fun _ => Some l.
Definition contents (x : ref) : source := fun s => match data_at s x with Some (DVec l) => Some l | _ => None end.
Definition element (src : source) (s : vm) (i : nat) (x : ref) : Prop := exists l, src s = Some l /\ nth_error l i = Some x.
Definition is_last (src : source) (s : vm) (i : nat) : Prop := exists l, src s = Some l /\ List.length l = S i.
(** The machine after some events. *)
Definition at_end (s : vm) (evs : list event) : vm := match rev evs with [] => s | e :: _ => after e end.

(** The values [xs] become part of the result.  [Some (r, cur)]: they are added to
    the new vector [r], which holds [cur], one after the other, from the machine
    [s1] on.  [None]: the template has one form; the value is the result. *)
Inductive adds : option (ref * list ref) -> vm -> list ref -> list event -> Prop :=
| adds_result x s1 : adds None s1 [x] []
| adds_none r cur s1 : adds (Some (r, cur)) s1 [] []
| adds_next r cur s1 x xs s s' evs : all s = all s1 -> data_at s r = Some (DVec cur) ->
    data_at s' r = Some (DVec (cur ++ [x])) -> (forall y, y <> r -> lookup (all s') y = lookup (all s) y) -> adds (Some (r, cur ++ [x])) s' xs evs ->
    adds (Some (r, cur)) s1 (x :: xs) (Put r (DVec (cur ++ [x])) s s' :: evs).

(** [piece env res src s i j evs s1 xs]: what stands at [i] in the template, read in
    the machine [s], contributes the values [xs], after the events [evs], in the
    machine [s1]; the next thing stands at [j].
    [fill env src r s i n cur evs out]: the things from [i] up to [n], added to
    [r], which holds [cur], make it hold [out]. *)
Inductive piece (env : ref) : option ref -> source -> vm -> nat -> nat -> list event -> vm -> list ref -> Prop :=
| piece_missing res src s i x t r d s1 : element src s i x -> data_at s x = Some (DSym t) -> t = asc "," \/ t = asc ",@" -> is_last src s i ->
    data_at s r = None -> data_at s1 r = Some d -> is_err d -> piece env res src s i (S i) [] s1 [r]
| piece_value res src s i x y w sa sb s1 : element src s i x -> data_at s x = Some (DSym (asc ",")) -> ~ is_last src s i -> element src s (S i) y ->
    all s1 = all sb -> piece env res src s i (S (S i)) [SpecTrace.Eval y env sa (Some w) sb] s1 [w]
| piece_elements res src s i x y w ws sa sb s1 : element src s i x -> data_at s x = Some (DSym (asc ",@")) -> ~ is_last src s i -> element src s (S i) y ->
    data_at sb w = Some (DVec ws) -> all s1 = all sb -> res <> None -> piece env res src s i (S (S i)) [SpecTrace.Eval y env sa (Some w) sb] s1 ws
| piece_element res src s i x y w sa sb s1 : element src s i x -> data_at s x = Some (DSym (asc ",@")) -> ~ is_last src s i -> element src s (S i) y ->
    (forall ws, data_at sb w <> Some (DVec ws)) -> all s1 = all sb -> piece env res src s i (S (S i)) [SpecTrace.Eval y env sa (Some w) sb] s1 [w]
| piece_name res src s i x t t' k w sa sb s1 : element src s i x -> data_at s x = Some (DSym (44%N :: t)) -> t <> [] -> t <> asc "@" ->
    through_c (44%N :: t) t' -> data_at s k = None -> data_at sa k = Some (DSym (tl t')) ->
    all s1 = all sb -> piece env res src s i (S i) [SpecTrace.Eval k env sa (Some w) sb] s1 [w]
| piece_vector res src s i x l b s' evs out s1 : element src s i x -> data_at s x = Some (DVec l) -> data_at s b = None -> res <> Some b ->
    (forall y c, y <> b -> lookup (all s') y = Some c -> lookup (all s) y = Some c) -> data_at s' b = Some (DVec []) ->
    fill env (contents x) b s' 0 (List.length l) [] evs out -> data_at s1 b = Some (DVec out) -> all s1 = all (at_end s' evs) ->
    piece env res src s i (S i) evs s1 [b]
| piece_other res src s i x d s1 : element src s i x -> data_at s x = Some d -> (forall t, d <> DSym (44%N :: t)) -> (forall l, d <> DVec l) -> all s1 = all s ->
    piece env res src s i (S i) [] s1 [x]
with fill (env : ref) : source -> ref -> vm -> nat -> nat -> list ref -> list event -> list ref -> Prop :=
| fill_last src r s i j n cur evs s1 xs evs' : piece env (Some r) src s i j evs s1 xs -> adds (Some (r, cur)) s1 xs evs' -> n <= j ->
    fill env src r s i n cur (evs ++ evs') (cur ++ xs)
| fill_next src r s i j n cur evs s1 xs evs' rest out : piece env (Some r) src s i j evs s1 xs -> adds (Some (r, cur)) s1 xs evs' -> j < n ->
    fill env src r (at_end s (evs ++ evs')) j n (cur ++ xs) rest out -> fill env src r s i n cur (evs ++ evs' ++ rest) out.

(** One form: what it stands for. More: a new vector of what they stand for.
    The forms are given in the machine [s]; they are read from [s'] on, where
    they hold the same. *)
Inductive template_on (env : ref) (s s' : vm) : list ref -> list event -> ref -> option data -> Prop :=
| template_one x j evs s1 r : piece env None (given [x]) s' 0 j evs s1 [r] -> template_on env s s' [x] evs r (data_at s1 r)
| template_more l r evs out : 2 <= List.length l -> (nextId s <= r)%N -> data_at s' r = Some (DVec []) -> fill env (given l) r s' 0 (List.length l) [] evs out ->
    template_on env s s' l evs r (Some (DVec out)).
Definition template_run (env : ref) (s : vm) (l : list ref) (evs : list event) (r : ref) (od : option data) : Prop :=
  exists s', (forall x, reachable (all s) l x -> lookup (all s') x = lookup (all s) x) /\ template_on env s s' l evs r od.
