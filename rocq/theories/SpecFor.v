(** What (for ...) does, as a relation like those of SpecSpecial.v. *)
From Coq Require Import String List NArith ZArith Bool.
From Verif Require Import Base HMap Heap Env SpecTrace SpecSpecial SpecDefine.
Local Open Scope string_scope.
Local Open Scope list_scope.
Import ListNotations.

(** The optional step: [rest] are the forms from the place of the word "step" on.
    [forms] are the forms of the body (with a step, the number itself is one of
    them). *)
Inductive step_is (s : vm) : list ref -> N -> list ref -> Prop :=
| step_one x l : ~ is_symbol s x "step" -> step_is s (x :: l) 1 (x :: l)
| step_given x y l z : is_symbol s x "step" -> data_at s y = Some (DInt z) -> (0 < z)%Z -> step_is s (x :: y :: l) (Z.to_N z) (y :: l).
Inductive step_bad (s : vm) : list ref -> Prop :=
| step_missing x : is_symbol s x "step" -> step_bad s [x]
| step_wrong x y l : is_symbol s x "step" -> (forall z, data_at s y = Some (DInt z) -> (z <= 0)%Z) -> step_bad s (x :: y :: l).

(** The rounds of a loop over the numbers [i], [i] + [step], ... below [n]; [c]
    rounds were made before; [m]: the machine before.  In each round the iterator
    [k] is bound in [ext] to an item ([item m i x s]: [x] is the item number [i]
    in [s], made since [m]), then the body is evaluated in [ext]. *)
Inductive rounds (item : vm -> N -> ref -> vm -> Prop) (ext k : ref) (body : list ref) (n step : N) : vm -> N -> Z -> list event -> ref -> option data -> Prop :=
| rounds_end m i c r : (n <= i)%N -> rounds item ext k body n step m i c [] r (Some (DInt c))
| rounds_next m i c x s s' evs evs' r od : (i < n)%N -> item m i x s -> data_at s ext = data_at m ext -> body_run ext body evs None ->
    rounds item ext k body n step (last_after s' evs) (i + step) (c + 1) evs' r od ->
    rounds item ext k body n step m i c (Bind ext k x s s' :: evs ++ evs') r od
| rounds_stop m i c x s s' evs r od : (i < n)%N -> item m i x s -> data_at s ext = data_at m ext -> body_run ext body evs (Some (r, od)) ->
    rounds item ext k body n step m i c (Bind ext k x s s' :: evs) r od.
Definition new_in (m : vm) (x : ref) : Prop := lookup (all m) x = None.
(** [ext], new since [m], is an empty environment inside [env]. *)
Definition new_env (m : vm) (ext env : ref) (s : vm) : Prop := new_in m ext /\ data_at s ext = Some (DEnv [] (Some env)).

(** Items of a collection: the elements of a vector, queue or list, a new
    character of a string, a new pair of key and value of a hash map. *)
Inductive item_of (c : ref) (m : vm) (i : N) (x : ref) (s : vm) : Prop :=
| item_seq d l : data_at s c = Some d -> d = DVec l \/ d = DList l \/ (exists q, d = DQueue l q) -> nth_error l (N.to_nat i) = Some x -> item_of c m i x s
| item_char t ch : data_at s c = Some (DStr t) -> ((Z.of_N i < 2 ^ 63)%Z -> nth_error t (N.to_nat i) = Some ch) -> new_in m x -> data_at s x = Some (DChar [ch]) -> item_of c m i x s
| item_pair h e v : data_at s c = Some (DMap h) -> nth_error (List.concat (buckets h)) (N.to_nat i) = Some e -> evals e = [v] ->
    new_in m x -> data_at s x = Some (DVec [ekey e; v]) -> item_of c m i x s.
Inductive size_of : data -> N -> Prop :=
| size_str t : size_of (DStr t) (N.of_nat (List.length t))
| size_vec l : size_of (DVec l) (N.of_nat (List.length l))
| size_list l : size_of (DList l) (N.of_nat (List.length l))
| size_queue l q : size_of (DQueue l q) (N.of_nat (List.length l))
| size_map h : size_of (DMap h) (N.of_nat (numElements h)).
(** Counting: a new integer, as far from the value of [from] as the round says. *)
Definition count_item (from : ref) (up : bool) (m : vm) (i : N) (x : ref) (s : vm) : Prop :=
  new_in m x /\ forall z, data_at m from = Some (DInt z) -> data_at s x = Some (DInt (wrap32 (if up then z + Z.of_N i else z - Z.of_N i))).

(** [l]: the forms after the word in; [s]: the machine when the container has been
    evaluated to [c], holding [d]. *)
Inductive loop_in (env k c : ref) (d : data) (s : vm) (l : list ref) : list event -> ref -> option data -> Prop :=
| in_not_collection r d' : (forall n, ~ size_of d n) -> ~ is_environment d -> is_err d' -> loop_in env k c d s l [] r (Some d')
| in_bad_step r n d' : size_of d n -> step_bad s l -> is_err d' -> loop_in env k c d s l [] r (Some d')
| in_rounds n step body ext m evs r od : size_of d n -> step_is s l step body -> new_env s ext env m ->
    rounds (item_of c) ext k body n step m 0 0 evs r od -> loop_in env k c d s l evs r od.
(** [l]: the forms after the last number; [s]: the machine when the numbers have
    been evaluated to [p] and [q]. *)
Inductive loop_from (env k p q : ref) (s : vm) (l : list ref) : list event -> ref -> option data -> Prop :=
| from_not_int r d d' dq : data_at s p = Some d -> data_at s q = Some dq -> tag d <> tag dq -> is_err d' -> loop_from env k p q s l [] r (Some d')
| from_bad_step r d' : step_bad s l -> is_err d' -> loop_from env k p q s l [] r (Some d')
| from_rounds z z' step body ext m evs r od : data_at s p = Some (DInt z) -> data_at s q = Some (DInt z') -> step_is s l step body -> new_env s ext env m ->
    data_at m p = Some (DInt z) -> rounds (count_item p (z <=? z')%Z) ext k body (Z.abs_N (z' - z) + 1) step m 0 0 evs r od -> loop_from env k p q s l evs r od.
Definition is_int (d : data) : Prop := match d with DInt _ => True | _ => False end.
Inductive for_run (env : ref) (s : vm) (l : list ref) : list event -> ref -> option data -> Prop :=
| for_arity r d : List.length l < 4 -> is_err d -> for_run env s l [] r (Some d)
| for_iterator k l' dk r d : l = k :: l' -> data_at s k = Some dk -> ~ is_sym dk -> is_err d -> for_run env s l [] r (Some d)
| for_word k w l' t dw r d : l = k :: w :: l' -> data_at s k = Some (DSym t) -> data_at s w = Some dw -> ~ is_sym dw -> is_err d -> for_run env s l [] r (Some d)
| for_in_form k t w x l' e c d evs r od : l = k :: w :: x :: l' -> data_at s k = Some (DSym t) -> is_symbol s w "in" ->
    gives e x env c d -> loop_in env k c d (after e) l' evs r od -> for_run env s l (e :: evs) r od
| for_from_first k t w x l' e p d r d' : l = k :: w :: x :: l' -> data_at s k = Some (DSym t) -> is_symbol s w "from" ->
    gives e x env p d -> ~ is_int d -> is_err d' -> for_run env s l [e] r (Some d')
| for_from_form k t w x y1 y l' e p z e' q d' evs r od : l = k :: w :: x :: y1 :: y :: l' -> data_at s k = Some (DSym t) -> is_symbol s w "from" ->
    gives e x env p (DInt z) -> gives e' y env q d' -> loop_from env k p q (after e') l' evs r od -> for_run env s l (e :: e' :: evs) r od.

(** *** Loops over known items *)

(** The numbers 0, [step], 2 [step], ... below [n]. *)
Definition indices (n step : N) : list N := map (fun j => N.of_nat j * step)%N (seq 0 (N.to_nat ((n + step - 1) / step))).
(** The body is evaluated once for each of the indices [is], in this order, with
    the iterator [k] bound to a value [x] for which [holds i x s]; then the result
    is their number plus [c]; a body that does not end normally ends the loop. *)
Inductive turns (holds : N -> ref -> vm -> Prop) (ext k : ref) (body : list ref) : list N -> Z -> list event -> ref -> option data -> Prop :=
| turns_end c r : turns holds ext k body [] c [] r (Some (DInt c))
| turns_next i is c x s s' evs evs' r od : holds i x s -> body_run ext body evs None -> turns holds ext k body is (c + 1) evs' r od ->
    turns holds ext k body (i :: is) c (Bind ext k x s s' :: evs ++ evs') r od
| turns_stop i is c x s s' evs r od : holds i x s -> body_run ext body evs (Some (r, od)) ->
    turns holds ext k body (i :: is) c (Bind ext k x s s' :: evs) r od.
(** The value [x] holds [d] all the time. *)
Definition unchanged (x : ref) (d : data) (evs : list event) : Prop :=
  forall e, In e evs -> data_at (before e) x = Some d /\ data_at (after e) x = Some d.
(** Item [i] of a collection that holds [d]. *)
Inductive nth_item : data -> N -> ref -> vm -> Prop :=
| nth_vec l i x s : nth_error l (N.to_nat i) = Some x -> nth_item (DVec l) i x s
| nth_list l i x s : nth_error l (N.to_nat i) = Some x -> nth_item (DList l) i x s
| nth_queue l q i x s : nth_error l (N.to_nat i) = Some x -> nth_item (DQueue l q) i x s
| nth_str t i ch x s : ((Z.of_N i < 2 ^ 63)%Z -> nth_error t (N.to_nat i) = Some ch) -> data_at s x = Some (DChar [ch]) -> nth_item (DStr t) i x s
| nth_map h i e v x s : nth_error (List.concat (buckets h)) (N.to_nat i) = Some e -> evals e = [v] -> data_at s x = Some (DVec [ekey e; v]) -> nth_item (DMap h) i x s.
