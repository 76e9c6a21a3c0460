(** What an evaluation consists of: a sequence of visible events (evaluations of
    parts, bindings of names, changes of documentation) between which nothing
    the program can reach changes.  Used to state which parts a form evaluates,
    in which order, and what it makes of the results. *)
From Coq Require Import List NArith ZArith Bool.
From Verif Require Import Base HMap Heap SpecHeap Env Builtins.
Import ListNotations.

(** The texts of error messages may be extended. *)
Definition is_err (d : data) : Prop := match d with DErr _ _ => True | _ => False end.
Definition alike (c c' : cell) : Prop :=
  c' = c \/ (is_err (cdata c) /\ is_err (cdata c') /\ cdoc c' = cdoc c /\ cdocvec c' = cdocvec c).
(** Nothing reachable from [base] differs in [s'], nor do the registers of the
    machine. *)
Definition keeps (base : list ref) (s s' : vm) : Prop :=
  (forall x c, reachable (all s) base x -> lookup (all s) x = Some c -> exists c', lookup (all s') x = Some c' /\ alike c c')
  /\ genv s' = genv s /\ fret s' = fret s /\ quit s' = quit s /\ exitCode s' = exitCode s /\ readably s' = readably s /\ output s' = output s.

(** [Eval]: the form, the environment, the machine before, the result (None:
    NULL) and the machine after.  [Bind]: a name (a symbol) is bound to a value
    in an environment.  [Doc]: a value is given a documentation string.
    [Builtin]: a builtin is called with a vector of arguments.  [Extend]: the
    formals of a function are bound to a vector of arguments (the result: an
    error, or None).  [Pend]: the value of a (return ...) begins (Some) or ceases
    to wait for its function to end.  [Put]: a value is changed.
    [Renew]: what a value holds is replaced.  [Docs]: its documentation is replaced. *)
Inductive event :=
| Eval (form env : ref) (before : vm) (result : option ref) (after : vm)
| Bind (env name value : ref) (before after : vm)
| Doc (value doc : ref) (docvec : option ref) (before after : vm)
| Builtin (p : builtin) (args env : ref) (before : vm) (result : ref) (after : vm)
| Extend (env formals args : ref) (before : vm) (result : option ref) (after : vm)
| Pend (o : option ref) (before after : vm)
| Put (value : ref) (d : data) (before after : vm)
| Renew (value : ref) (d : data) (before after : vm)
| Docs (value : ref) (doc docvec : option ref) (before after : vm).
Definition after (e : event) : vm := match e with Eval _ _ _ _ s | Bind _ _ _ _ s | Doc _ _ _ _ s | Builtin _ _ _ _ _ s | Extend _ _ _ _ _ s | Pend _ _ s | Put _ _ _ s | Renew _ _ _ s | Docs _ _ _ _ s => s end.
Definition before (e : event) : vm := match e with Eval _ _ s _ _ | Bind _ _ _ s _ | Doc _ _ _ s _ | Builtin _ _ _ s _ _ | Extend _ _ _ s _ _ | Pend _ s _ | Put _ _ s _ | Renew _ _ s _ | Docs _ _ _ s _ => s end.
(** [ev] evaluates forms. *)
Definition happens (ev : ref -> ref -> M (option ref)) (e : event) : Prop :=
  match e with
  | Eval x env s o s' => ev x env s = Ret (o, s')
  | Bind env k x s s' => env_set env k x s = Ret (tt, s')
  | Doc x d dv s s' => set_docs x (Some d) dv s = Ret (tt, s')
  | Builtin p a env s r s' => exists fuel, builtin_call fuel ev p a env s = Ret (r, s')
  | Extend e formals args s o s' => env_extend e formals args s = Ret (o, s')
  | Pend o s s' => set_fret o s = Ret (tt, s')
  | Put x d s s' => put x d s = Ret (tt, s')
  | Renew x d s s' => put_fresh x d s = Ret (tt, s')
  | Docs x d dv s s' => set_docs x d dv s = Ret (tt, s')
  end.
Inductive trace (ev : ref -> ref -> M (option ref)) (base : list ref) : vm -> list event -> vm -> Prop :=
| t_done s s' : keeps base s s' -> trace ev base s [] s'
| t_event s e evs s' : keeps base s (before e) -> happens ev e -> trace ev base (after e) evs s' -> trace ev base s (e :: evs) s'.

(** What a value holds. *)
Definition data_at (s : vm) (r : ref) : option data := option_map cdata (lookup (all s) r).
(** [x] was evaluated in [env]; the result was [r], holding [d]. *)
Definition gives (e : event) (x env r : ref) (d : data) : Prop :=
  exists s s', e = Eval x env s (Some r) s' /\ data_at s' r = Some d.
(** The value of a (return ...) that waits for its function to end. *)
Definition pending (e : event) : option ref := fret (after e).

(** The machine between two operations: identities are unique and nothing refers
    to a value that has not been made yet. *)
Record sane (s : vm) : Prop := {
  sane_tidy : tidy (all s);
  sane_ids : forall r c, In (r, c) (all s) -> (r < nextId s)%N;
  sane_refs : forall r c x, lookup (all s) r = Some c -> refers c x \/ cdocvec c = Some x -> (x < nextId s)%N;
  sane_roots : forall x, In x (stack s) \/ x = genv s \/ fret s = Some x -> (x < nextId s)%N
}.
