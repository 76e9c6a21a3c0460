(** What (define ...) does, as a relation like those of SpecSpecial.v. *)
From Coq Require Import String List NArith ZArith Bool.
From Verif Require Import Base Utf8 HMap Heap Env SpecText SpecTrace SpecSpecial.
Local Open Scope string_scope.
Local Open Scope list_scope.
Import ListNotations.

Definition is_symbol (s : vm) (x : ref) (name : string) : Prop := data_at s x = Some (DSym (asc name)).
(** Values that are copied when they are bound. *)
Definition atomic (d : data) : Prop :=
  match d with DNil | DBool _ | DInt _ | DReal _ | DStr _ | DChar _ | DSym _ | DErr _ _ => True | _ => False end.
(** [w] is what a definition binds when its value, in [s], is [v]: a new value
    that holds the same (seen in [s']) when it is an atom, [v] itself otherwise. *)
Inductive defined (s : vm) (v w : ref) (s' : vm) : Prop :=
| def_copy d : data_at s v = Some d -> atomic d -> lookup (all s) w = None -> data_at s' w = Some d -> defined s v w s'
| def_same d : data_at s v = Some d -> ~ atomic d -> w = v -> data_at s' w = Some d -> defined s v w s'.

(** The name: a symbol, or a form whose value is a symbol. *)
Inductive name_run (env : ref) (s : vm) : ref -> list event -> ref -> Prop :=
| name_symbol k t : data_at s k = Some (DSym t) -> name_run env s k [] k
| name_form k l e n t : data_at s k = Some (DVec l) -> gives e k env n (DSym t) -> name_run env s k [e] n.
(** ... or not. *)
Definition is_vec (d : data) : Prop := match d with DVec _ => True | _ => False end.
Definition is_sym (d : data) : Prop := match d with DSym _ => True | _ => False end.
Inductive name_fails (env : ref) (s : vm) : ref -> list event -> ref -> data -> Prop :=
| name_error k l e t d : data_at s k = Some (DVec l) -> gives e k env t d -> is_err d -> name_fails env s k [e] t d
| name_not_symbol k l e t d r d' : data_at s k = Some (DVec l) -> gives e k env t d -> ~ is_err d -> ~ is_sym d -> is_err d' -> name_fails env s k [e] r d'
| name_not_form k d r d' : data_at s k = Some d -> ~ is_vec d -> ~ is_sym d -> is_err d' -> name_fails env s k [] r d'.

(** The value [v] gets the documentation string [doc] (and keeps its documentation
    vector) and is bound to the name [n] in the environment [e]. *)
Inductive bind_run (s : vm) (e n v doc : ref) : list event -> Prop :=
| bind_both w dv c s1 s2 s3 : defined s v w s1 -> lookup (all s1) w = Some c -> dv = cdocvec c -> data_at s1 n = data_at s n ->
    bind_run s e n v doc [Doc w doc dv s1 s2; Bind e n w s2 s3].

(** ** Functions *)

(** The documentation vector [l] documents the formal [name]: the first of its
    entries (symbol, string, symbol, string ...) for [name] has a string; for
    "..." it is "varargs". *)
Definition documents (s : vm) (l : list ref) (name : text) : Prop :=
  exists i x y u, nth_error l (2 * i) = Some x /\ nth_error l (2 * i + 1) = Some y /\
    data_at s x = Some (DSym name) /\ data_at s y = Some (DStr u) /\ (name = asc "..." -> u = asc "varargs") /\
    forall j, j < i -> exists z t, nth_error l (2 * j) = Some z /\ data_at s z = Some (DSym t) /\ t <> name.
Definition all_documented (s : vm) (formals dv : ref) (b : bool) : Prop :=
  exists fs l, data_at s formals = Some (DVec fs) /\ data_at s dv = Some (DVec l) /\
    (b = true <-> forall f, In f fs -> exists name, data_at s f = Some (DSym name) /\ documents s l name).

(** A text that was copied as a C string: it ends before the first NUL. *)
Fixpoint before_nul (t : text) : text :=
  match t with
  | [] => []
  | c :: t' => if (c =? 0)%N then [] else c :: before_nul t'
  end.
Definition through_c (t t' : text) : Prop := Forall scalar t -> t' = before_nul t.
Definition newline : text := [10%N].
(** The text [t] of the documentation string [doc] is extended by a line for each
    documented argument; the result is [t']. *)
Inductive doc_lines (doc : ref) : text -> list ref -> list event -> text -> Prop :=
| lines_end t : doc_lines doc t [] [] t
| lines_next t x y l a a' u u' s s' evs t' : data_at s x = Some (DSym a) -> data_at s y = Some (DStr u) -> through_c a a' -> through_c u u' ->
    doc_lines doc (t ++ newline ++ a' ++ asc " -> " ++ u') l evs t' ->
    doc_lines doc t (x :: y :: l) (Put doc (DStr (t ++ newline ++ a' ++ asc " -> " ++ u')) s s' :: evs) t'.
(** [d'] is the function or macro [d] with a name, a documentation text and the
    permission to be found by howto. *)
Inductive named (name docs : text) (ok : bool) : data -> data -> Prop :=
| named_fun f : named name docs ok (DFun f) (DFun (mkFunc name docs ok (fformals f) (fbody f) (fenv f)))
| named_mac f : named name docs ok (DMac f) (DMac (mkFunc name docs ok (fformals f) (fbody f) (fenv f))).
Definition formals_of (d : data) (r : ref) : Prop := match d with DFun f | DMac f => r = fformals f | _ => False end.
(** The function [v] is documented by the string [doc] and the vector [dv], and
    bound to [n] in [e]; [s]: the machine after the last evaluation. *)
Inductive fun_run (s : vm) (ok : bool) (e n v doc dv : ref) : list event -> ref -> option data -> Prop :=
| fun_undocumented d fm r d' : data_at s v = Some d -> formals_of d fm -> all_documented s fm dv false -> is_err d' ->
    fun_run s ok e n v doc dv [] r (Some d')
| fun_bound d fm t l s1 s2 evs t' dw name name' docs s3 s4 s5 s6 r :
    data_at s v = Some d -> formals_of d fm -> all_documented s fm dv true ->
    data_at s doc = Some (DStr t) -> data_at s dv = Some (DVec l) ->
    doc_lines doc (t ++ newline ++ asc "Arguments are:") l evs t' ->
    data_at s3 v = Some d -> data_at s n = Some (DSym name) -> data_at s3 n = Some (DSym name) -> data_at s3 doc = Some (DStr t') ->
    through_c name name' -> through_c t' docs -> named name' docs ok d dw ->
    fun_run s ok e n v doc dv
      (Put doc (DStr (t ++ newline ++ asc "Arguments are:")) s1 s2 :: evs ++ [Doc v doc (Some dv) s3 s4; Put v dw s4 s5; Bind e n v s5 s6])
      r (Some (DBool true)).

(** ** The rest of the form: [l] are the forms after the name, without the form
    of the value, which was evaluated to [v], holding [d], in [s]. *)
Definition is_string (d : data) : Prop := match d with DStr _ => True | _ => False end.
Definition is_environment (d : data) : Prop := match d with DEnv _ _ => True | _ => False end.
Definition is_function (d : data) : Prop := match d with DFun _ | DMac _ => True | _ => False end.
Definition howto (s : vm) (h : ref) (ok : bool) : Prop := is_symbol s h (if ok then "howto-ok" else "howto-no").
(** The forms [l] are evaluated in order; each gives a value of the kind beside
    it, up to the last: [r] is not of its kind. *)
Inductive kinds_run (env : ref) : list (ref * (data -> Prop)) -> list event -> list ref -> Prop :=
| kinds_end : kinds_run env [] [] []
| kinds_next x (K : data -> Prop) l e r d evs rs : gives e x env r d -> K d -> kinds_run env l evs rs -> kinds_run env ((x, K) :: l) (e :: evs) (r :: rs).
Inductive kinds_fail (env : ref) : list (ref * (data -> Prop)) -> list event -> Prop :=
| kinds_wrong x (K : data -> Prop) l e r d : gives e x env r d -> ~ K d -> kinds_fail env ((x, K) :: l) [e]
| kinds_later x (K : data -> Prop) l e r d evs : gives e x env r d -> K d -> kinds_fail env l evs -> kinds_fail env ((x, K) :: l) (e :: evs).
Definition last_after (s : vm) (evs : list event) : vm := List.last (map after evs) s.

(** The keywords [ks] (form and word), the forms [l] to be evaluated in that
    order with the kinds of their values, and what is then done with the values. *)
Inductive clause (env : ref) (s : vm) (ks : Prop) (l : list (ref * (data -> Prop))) (act : vm -> list ref -> list event -> ref -> option data -> Prop) :
  list event -> ref -> option data -> Prop :=
| clause_syntax r d : ~ ks -> is_err d -> clause env s ks l act [] r (Some d)
| clause_kind evs r d : ks -> kinds_fail env l evs -> is_err d -> clause env s ks l act evs r (Some d)
| clause_done evs rs evs' r od : ks -> kinds_run env l evs rs -> act (last_after s evs) rs evs' r od -> clause env s ks l act (evs ++ evs') r od.
Definition bound_true (env : ref) (n v : ref) (in_env : bool) (s : vm) (rs : list ref) (evs : list event) (r : ref) (od : option data) : Prop :=
  od = Some (DBool true) /\
  match in_env, rs with
  | false, [doc] => bind_run s env n v doc evs
  | true, [doc; e] => bind_run s e n v doc evs
  | _, _ => False
  end.
Inductive rest_run (env : ref) (s : vm) (n v : ref) (d : data) : list ref -> list event -> ref -> option data -> Prop :=
(* name as value doc *)
| rest_var k1 dc evs r od :
    clause env s (is_symbol s k1 "as") [(dc, is_string)] (bound_true env n v false) evs r od ->
    rest_run env s n v d [k1; dc] evs r od
(* name as value doc in environment *)
| rest_var_in k1 dc k2 ef evs r od : ~ is_function d ->
    clause env s (is_symbol s k1 "as" /\ is_symbol s k2 "in") [(dc, is_string); (ef, is_environment)] (bound_true env n v true) evs r od ->
    rest_run env s n v d [k1; dc; k2; ef] evs r od
(* name as function doc docvec howto *)
| rest_fun k1 dc dvf h evs r od : is_function d ->
    clause env s (is_symbol s k1 "as" /\ exists ok, howto s h ok) [(dc, is_string); (dvf, is_vec)]
      (fun s' rs evs r od => match rs with [doc; dv] => exists ok, howto s h ok /\ fun_run s' ok env n v doc dv evs r od | _ => False end) evs r od ->
    rest_run env s n v d [k1; dc; dvf; h] evs r od
(* name as function doc docvec in environment howto *)
| rest_fun_in k1 dc dvf k2 ef h evs r od :
    clause env s (is_symbol s k1 "as" /\ is_symbol s k2 "in" /\ exists ok, howto s h ok) [(dc, is_string); (ef, is_environment); (dvf, is_vec)]
      (fun s' rs evs r od => match rs with [doc; e; dv] => exists ok, howto s h ok /\ fun_run s' ok e n v doc dv evs r od | _ => False end) evs r od ->
    rest_run env s n v d [k1; dc; dvf; k2; ef; h] evs r od.

Definition define_arity (n : nat) : Prop := n = 4 \/ n = 6 \/ n = 8.
Inductive define_run (env : ref) (s : vm) (l : list ref) : list event -> ref -> option data -> Prop :=
| define_bad_arity r d : ~ define_arity (List.length l) -> is_err d -> define_run env s l [] r (Some d)
| define_bad_name k l' evs r d : define_arity (List.length l) -> l = k :: l' -> name_fails env s k evs r d -> define_run env s l evs r (Some d)
| define_bad_value k k1 x l' evs n e t d : define_arity (List.length l) -> l = k :: k1 :: x :: l' -> name_run env s k evs n ->
    gives e x env t d -> is_err d -> define_run env s l (evs ++ [e]) t (Some d)
| define_value k k1 x l' evs n e v d evs' r od : define_arity (List.length l) -> l = k :: k1 :: x :: l' -> name_run env s k evs n ->
    gives e x env v d -> ~ is_err d -> rest_run env (after e) n v d (k1 :: l') evs' r od ->
    define_run env s l (evs ++ e :: evs') r od.
