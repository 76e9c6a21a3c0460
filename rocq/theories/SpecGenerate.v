(** What (generate ...) does, as relations between the argument forms, the visible
    events in their order, and the result (as in SpecSpecial.v). *)
From Coq Require Import String List NArith ZArith Bool SpecFloat.
From Verif Require Import Base HMap Heap Env SpecTrace SpecSpecial SpecSearch.
Local Open Scope string_scope.
Local Open Scope list_scope.
Import ListNotations.

(** The values of the first form that are accepted, and the result to begin with. *)
Inductive starts : data -> data -> Prop :=
| starts_vector : starts (DSym (asc "vector")) (DVec [])
| starts_string : starts (DSym (asc "string")) (DStr []).
(** How many elements a value stands for. *)
Inductive negative : spec_float -> Prop :=
| negative_finite m e : negative (S754_finite true m e)
| negative_infinity : negative (S754_infinity true).
Inductive counts : data -> nat -> Prop :=
| counts_int z : (0 <= z)%Z -> counts (DInt z) (Z.to_nat z)
| counts_real f z : truncated f z -> (0 <= z)%Z -> ~ negative f -> counts (DReal f) (Z.to_nat z).
Inductive no_count : data -> Prop :=
| no_count_int z : (z < 0)%Z -> no_count (DInt z)
| no_count_real f : negative f -> no_count (DReal f)
| no_count_other d : (forall z, d <> DInt z) -> (forall f, d <> DReal f) -> no_count d.
Definition operator (d : data) : Prop :=
  match d with DFun _ | DMac _ | DBuiltin _ | DSpecial _ => True | _ => False end.

(** The event [e] appends the value [x] to [res], which then holds [d]: a vector
    gets the value itself, a string the character of a character value. *)
Inductive appends (res x : ref) : event -> data -> Prop :=
| appends_element cur s s' : data_at s res = Some (DVec cur) -> appends res x (Put res (DVec (cur ++ [x])) s s') (DVec (cur ++ [x]))
| appends_character cur c t s s' : data_at s res = Some (DStr cur) -> data_at s x = Some (DChar (c :: t)) ->
    appends res x (Put res (DStr (cur ++ [c])) s s') (DStr (cur ++ [c])).
(** [n] times the same value. *)
Inductive same_rounds (res x : ref) : nat -> data -> list event -> data -> Prop :=
| same_end d : same_rounds res x 0 d [] d
| same_next n d e d1 evs d2 : data_at (before e) res = Some d -> appends res x e d1 -> same_rounds res x n d1 evs d2 ->
    same_rounds res x (S n) d (e :: evs) d2.
(** The calls number [i] to [n - 1]: the form evaluated is (gen (quote res) i);
    its value is appended to whatever [res] holds after the call. *)
Definition calls_with (gen res : ref) (i : nat) (s : vm) (form : ref) : Prop :=
  exists q ix sy, data_at s form = Some (DVec [gen; q; ix]) /\ data_at s q = Some (DVec [sy; res]) /\
    data_at s sy = Some (DSym (asc "quote")) /\ data_at s ix = Some (DInt (wrap32 (Z.of_nat i))).
Inductive call_rounds (env gen res : ref) (n : nat) : nat -> data -> list event -> data -> Prop :=
| call_end d : call_rounds env gen res n n d [] d
| call_next i d form s x s' p d1 evs d2 : i < n -> data_at s res = Some d -> calls_with gen res i s form ->
    before p = s' -> appends res x p d1 -> call_rounds env gen res n (S i) d1 evs d2 ->
    call_rounds env gen res n i d (SpecTrace.Eval form env s (Some x) s' :: p :: evs) d2.

(** (generate kind of count generator).  [k0]: the event of the first evaluation. *)
Inductive generate_of (env : ref) : list ref -> list event -> ref -> option data -> Prop :=
| gen_kind k w n g e t d r de : gives e k env t d -> (forall d0, ~ starts d d0) -> is_err de -> generate_of env [k; w; n; g] [e] r (Some de)
| gen_word k w n g e t d d0 r de : gives e k env t d -> starts d d0 -> data_at (after e) w <> Some (DSym (asc "of")) -> is_err de ->
    generate_of env [k; w; n; g] [e] r (Some de)
| gen_count k w n g e t d d0 e1 m dm r de : gives e k env t d -> starts d d0 -> data_at (after e) w = Some (DSym (asc "of")) ->
    gives e1 n env m dm -> no_count dm -> is_err de -> generate_of env [k; w; n; g] [e; e1] r (Some de)
| gen_same k w n g e t d d0 e1 m dm c e2 x dx evs res d1 : gives e k env t d -> starts d d0 -> data_at (after e) w = Some (DSym (asc "of")) ->
    gives e1 n env m dm -> counts dm c -> gives e2 g env x dx -> ~ operator dx -> data_at (after e) res = None ->
    same_rounds res x c d0 evs d1 -> generate_of env [k; w; n; g] (e :: e1 :: e2 :: evs) res (Some d1)
| gen_calls k w n g e t d d0 e1 m dm c e2 x dx evs res d1 : gives e k env t d -> starts d d0 -> data_at (after e) w = Some (DSym (asc "of")) ->
    gives e1 n env m dm -> counts dm c -> gives e2 g env x dx -> operator dx -> data_at (after e) res = None ->
    call_rounds env g res c 0 d0 evs d1 -> generate_of env [k; w; n; g] (e :: e1 :: e2 :: evs) res (Some d1).

(** The vectors after the word on: the forms [xs] are vectors and their values
    [vs] are; the greatest length is [m].  [None]: some form is not a vector. *)
Inductive vectors_run (env : ref) : vm -> list ref -> nat -> list event -> option (list ref * nat) -> Prop :=
| vectors_end s m : vectors_run env s [] m [] (Some ([], m))
| vectors_bad s x xs m : (forall l, data_at s x <> Some (DVec l)) -> vectors_run env s (x :: xs) m [] None
| vectors_next s x xs m l e v lv evs vs m' : data_at s x = Some (DVec l) -> gives e x env v (DVec lv) ->
    vectors_run env (after e) xs (Nat.max m (List.length lv)) evs (Some (vs, m')) ->
    vectors_run env s (x :: xs) m (e :: evs) (Some (v :: vs, m'))
| vectors_next_bad s x xs m l e v lv evs : data_at s x = Some (DVec l) -> gives e x env v (DVec lv) ->
    vectors_run env (after e) xs (Nat.max m (List.length lv)) evs None -> vectors_run env s (x :: xs) m (e :: evs) None.
(** The calls number [i] to [n - 1]: the form evaluated is the function followed
    by the element [i] of every vector. *)
Definition has_element (s : vm) (i : nat) (v x : ref) : Prop := exists l, data_at s v = Some (DVec l) /\ nth_error l i = Some x.
Inductive map_rounds (env f : ref) (vs : list ref) (n : nat) : nat -> list event -> list ref -> Prop :=
| map_end : map_rounds env f vs n n [] []
| map_next i xs form s x s' evs out : i < n -> data_at s form = Some (DVec (f :: xs)) -> Forall2 (has_element s i) vs xs ->
    map_rounds env f vs n (S i) evs out ->
    map_rounds env f vs n i (SpecTrace.Eval form env s (Some x) s' :: evs) (x :: out).
(** (generate kind mapping function on vector ...) *)
Inductive generate_map (env : ref) : list ref -> list event -> ref -> option data -> Prop :=
| gmap_kind k w f w2 xs e t d r de : gives e k env t d -> (forall d0, ~ starts d d0) -> is_err de -> generate_map env (k :: w :: f :: w2 :: xs) [e] r (Some de)
| gmap_word k w f w2 xs e t d d0 r de : gives e k env t d -> starts d d0 -> data_at (after e) w <> Some (DSym (asc "mapping")) -> is_err de ->
    generate_map env (k :: w :: f :: w2 :: xs) [e] r (Some de)
| gmap_function k w f w2 xs e t d d0 e1 g dg r de : gives e k env t d -> starts d d0 -> data_at (after e) w = Some (DSym (asc "mapping")) ->
    gives e1 f env g dg -> ~ operator dg -> is_err de -> generate_map env (k :: w :: f :: w2 :: xs) [e; e1] r (Some de)
| gmap_word2 k w f w2 xs e t d d0 e1 g dg r de : gives e k env t d -> starts d d0 -> data_at (after e) w = Some (DSym (asc "mapping")) ->
    gives e1 f env g dg -> operator dg -> data_at (after e1) w2 <> Some (DSym (asc "on")) -> is_err de ->
    generate_map env (k :: w :: f :: w2 :: xs) [e; e1] r (Some de)
| gmap_vectors k w f w2 xs e t d d0 e1 g dg evs r de : gives e k env t d -> starts d d0 -> data_at (after e) w = Some (DSym (asc "mapping")) ->
    gives e1 f env g dg -> operator dg -> data_at (after e1) w2 = Some (DSym (asc "on")) -> vectors_run env (after e1) xs 0 evs None -> is_err de ->
    generate_map env (k :: w :: f :: w2 :: xs) (e :: e1 :: evs) r (Some de)
| gmap_empty k w f w2 xs e t d d0 e1 g dg evs vs res : gives e k env t d -> starts d d0 -> data_at (after e) w = Some (DSym (asc "mapping")) ->
    gives e1 f env g dg -> operator dg -> data_at (after e1) w2 = Some (DSym (asc "on")) -> vectors_run env (after e1) xs 0 evs (Some (vs, 0)) ->
    data_at (after e) res = None -> generate_map env (k :: w :: f :: w2 :: xs) (e :: e1 :: evs) res (Some d0)
| gmap_calls k w f w2 xs e t d e1 g dg evs vs m evs' res out : gives e k env t d -> starts d (DVec []) -> data_at (after e) w = Some (DSym (asc "mapping")) ->
    gives e1 f env g dg -> operator dg -> data_at (after e1) w2 = Some (DSym (asc "on")) -> vectors_run env (after e1) xs 0 evs (Some (vs, m)) -> 0 < m ->
    data_at (after e) res = None -> map_rounds env g vs m 0 evs' out ->
    generate_map env (k :: w :: f :: w2 :: xs) (e :: e1 :: evs ++ evs') res (Some (DVec out)).

Inductive generate_run (env : ref) (l : list ref) : list event -> ref -> option data -> Prop :=
| generate_arity r d : List.length l < 4 -> is_err d -> generate_run env l [] r (Some d)
| generate_elements evs r od : List.length l = 4 -> generate_of env l evs r od -> generate_run env l evs r od
| generate_mapping evs r od : List.length l > 4 -> generate_map env l evs r od -> generate_run env l evs r od.

(** Calls that leave the result being built alone. *)
Definition spares (res : ref) (e : event) : Prop :=
  match e with SpecTrace.Eval _ _ s _ s' => data_at s' res = data_at s res | _ => True end.
(** The values of the evaluations among the events, in order. *)
Fixpoint values (evs : list event) : list ref :=
  match evs with
  | [] => []
  | SpecTrace.Eval _ _ _ (Some x) _ :: t => x :: values t
  | _ :: t => values t
  end.
