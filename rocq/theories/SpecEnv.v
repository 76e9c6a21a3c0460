(** What a name denotes in an environment, independently of how it is looked
    up. *)
From Coq Require Import List NArith ZArith Bool.
From Verif Require Import Base HMap Heap.
Import ListNotations.

(** [r] is an environment with the bindings [b] and the enclosing environment
    [enc]. *)
Definition is_env (h : heap) (r : ref) (b : list (text * (ref * ref))) (enc : option ref) : Prop :=
  exists c, lookup h r = Some c /\ cdata c = DEnv b enc.
(** The name [t] is bound to [v] in the bindings. *)
Definition bound (b : list (text * (ref * ref))) (t : text) (v : ref) : Prop := exists sym, In (t, (sym, v)) b.

(** A name denotes what the innermost environment that binds it binds it to. *)
Inductive denotes (h : heap) : ref -> text -> ref -> Prop :=
| den_here e b enc t v : is_env h e b enc -> bound b t v -> denotes h e t v
| den_outer e b e' t v : is_env h e b (Some e') -> (forall x, ~ bound b t x) -> denotes h e' t v -> denotes h e t v.
Inductive unbound (h : heap) : ref -> text -> Prop :=
| unb_global e b t : is_env h e b None -> (forall x, ~ bound b t x) -> unbound h e t
| unb_outer e b e' t : is_env h e b (Some e') -> (forall x, ~ bound b t x) -> unbound h e' t -> unbound h e t.

(** [e'] is [e] or one of the environments enclosing it. *)
Inductive encloses (h : heap) : ref -> ref -> Prop :=
| enc_self e : encloses h e e
| enc_step e b e1 e' : is_env h e b (Some e1) -> encloses h e1 e' -> encloses h e e'.

(** No environment binds a name twice. *)
Definition names_unique (h : heap) : Prop := forall e b enc, is_env h e b enc -> NoDup (map fst b).

(** [r] holds the vector [l]; [r] is the symbol [t]; [r] is an error. *)
Definition vector_at (h : heap) (r : ref) (l : list ref) : Prop := exists c, lookup h r = Some c /\ cdata c = DVec l.
Definition symbol_at (h : heap) (r : ref) (t : text) : Prop := exists c, lookup h r = Some c /\ cdata c = DSym t.
Definition error_at (h : heap) (r : ref) : Prop := exists c m n, lookup h r = Some c /\ cdata c = DErr m n.

(** The lists of formals a function can have: plain ones, or plain ones followed
    by a name for the remaining arguments and "...". *)
Definition ellipsis : text := [46; 46; 46]%N.
Definition plain (names : list text) : Prop := ~ In ellipsis names.
Definition with_rest (names pre : list text) (rest : text) : Prop :=
  names = pre ++ [rest; ellipsis] /\ plain (pre ++ [rest]).
(** [n] arguments can be given to a function with these formals. *)
Definition accepts (names : list text) (n : nat) : Prop :=
  (plain names /\ n = length names) \/ (exists pre rest, with_rest names pre rest /\ length pre <= n).
