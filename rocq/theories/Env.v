(** Small steps shared by the evaluator and the library, and environments:
    octaspire_dern_environment.c, parts of octaspire_dern_vm.c and _value.c. *)
From Coq Require Import List NArith ZArith Bool Lia Ascii String.
From Verif Require Import Base OString HMap Heap ValueOps.
Import ListNotations.
Local Open Scope N_scope.

(** A C string literal of the source, as text. *)
Definition asc (s : string) : text := map N_of_ascii (list_ascii_of_string s).
Definition text_eqb (a b : text) : bool := if list_eq_dec N.eq_dec a b then true else false.

(** Code that is not modelled: nothing is claimed about runs that reach it. *)
Definition unmodelled {X} : M X := nofuel.
(** A pointer the C code uses without, or with, a check that it is not NULL;
    NULL gives [Undef] in both cases. *)
Definition need (o : option ref) : M ref := match o with Some r => ret r | None => undef end.
Definition heap_op {X} (f : heap -> outcome X) : M X := fun s => obind (no_stack (f (all s))) (fun x => Ret (x, s)).
Definition read {X} (f : vm -> X) : M X := fun s => Ret (f s, s).

Fixpoint mapM {X Y} (f : X -> M Y) (l : list X) : M (list Y) :=
  match l with
  | [] => ret []
  | x :: t => y <- f x ;; ys <- mapM f t ;; ret (y :: ys)
  end.
Fixpoint iterM {X} (f : X -> M unit) (l : list X) : M unit :=
  match l with
  | [] => ret tt
  | x :: t => f x ;;; iterM f t
  end.

(** octaspire_dern_vm_create_new_value_error and its variants, vm:2333-2380. *)
Definition new_error : M ref := maybe_gc ;;; (fun s => fresh (DErr (msgs s (nextAddr s)) 0) s).
(** "At form: ..." appended to the message of an error in place, as in
    vm:3790-3803, if the value is an error. *)
Definition annotate (r : ref) : M unit :=
  c <- get_cell r ;;
  match cdata c with
  | DErr _ line => fun s =>
      (put_cell r (mkCell (DErr (msgs s (nextAddr s)) line) (cdoc c) (cdocvec c) (cmark c) (caddr c)))
        (with_nextAddr s (nextAddr s + 1))
  | _ => ret tt
  end.
Definition is_error_data (d : data) : bool := match d with DErr _ _ => true | _ => false end.
Definition is_error (r : ref) : M bool := d <- get r ;; ret (is_error_data d).

(** Replacing what the union holds by a newly allocated structure. *)
Definition put_fresh (r : ref) (d : data) : M unit :=
  c <- get_cell r ;;
  fun s => put_cell r (mkCell d (cdoc c) (cdocvec c) (cmark c) (addrs s (nextAddr s)))
                    (with_nextAddr s (nextAddr s + 1)).
(** What a value holds, read through a pointer to the structure held when its
    address was [a]; if the structure has been replaced since then, the pointer
    is no longer valid. *)
Definition get_at (r : ref) (a : N) : M data :=
  c <- get_cell r ;; if caddr c =? a then ret (cdata c) else undef.

(** octaspire_dern_value_as_vector_get_length, _get_element_at,
    _push_back_element, value:3890-4010, which verify the type. *)
Definition vec_of (r : ref) : M (list ref) :=
  d <- get r ;; match d with DVec l => ret l | _ => abort end.
Definition arg (a : ref) (i : nat) : M ref := l <- vec_of a ;; need (nth_error l i).
Definition nargs (a : ref) : M nat := l <- vec_of a ;; ret (List.length l).
Definition vec_push (v x : ref) : M unit :=
  d <- get v ;; match d with DVec l => put v (DVec (l ++ [x])) | _ => abort end.
Definition sym_of (r : ref) : M (option text) :=
  d <- get r ;; match d with DSym t => ret (Some t) | _ => ret None end.

(** ** Environments *)

(** octaspire_dern_environment_get, env:353-374: this environment, then the
    enclosing ones.  Simplification: symbols used as keys are taken not to be
    mutated after the binding, so a binding is found by the text of its symbol. *)
Fixpoint env_find (fuel : nat) (h : heap) (e : ref) (k : text) : outcome (option ref) :=
  match fuel with
  | O => NoFuel
  | S f =>
      match lookup h e with
      | None => Dangling
      | Some c =>
          match cdata c with
          | DEnv b enc =>
              match find_binding k b with
              | Some (_, v) => Ret (Some v)
              | None => match enc with
                        | None => Ret None
                        | Some e' => env_find f h e' k
                        end
              end
          | _ => Undef
          end
      end
  end.
Definition env_get (e : ref) (k : text) : M (option ref) :=
  heap_op (fun h => env_find (S (List.length h)) h e k).
(** octaspire_dern_environment_set, env:376-386: remove, then put.  Keys that
    are not symbols are not modelled. *)
Definition rebind (k : text) (kv : ref * ref) (b : list (text * (ref * ref))) : list (text * (ref * ref)) :=
  filter (fun x => negb (text_eqb (fst x) k)) b ++ [(k, kv)].
Definition env_set (e k v : ref) : M unit :=
  kd <- get k ;;
  match kd with
  | DSym t =>
      d <- get e ;;
      match d with
      | DEnv b enc => put e (DEnv (rebind t (k, v) b) enc)
      | _ => undef
      end
  | _ => unmodelled
  end.

(** octaspire_dern_environment_extend, env:165-351; [None] = success. *)
Definition dots : text := asc "...".
Fixpoint count_formals (l : list text) (nd nn na : nat) : nat * nat * nat :=
  match l with
  | [] => (nd, nn, na)
  | t :: r => if text_eqb t dots then count_formals r (S nd) nn na
              else match nd with
                   | O => count_formals r nd (S nn) na
                   | _ => count_formals r nd nn (S na)
                   end
  end.
Fixpoint bind_each (e : ref) (fs xs : list ref) : M unit :=
  match fs, xs with
  | f :: fs', x :: xs' => env_set e f x ;;; bind_each e fs' xs'
  | _, _ => ret tt
  end.
Definition formal_name (r : ref) : M text :=
  d <- get r ;; match d with DSym t => ret t | _ => abort end.
Definition env_extend (e formals args : ref) : M (option ref) :=
  fs <- vec_of formals ;; xs <- vec_of args ;;
  names <- mapM formal_name fs ;;
  let fail := (r <- new_error ;; ret (Some r)) in
  let '(nd, nn, na) := count_formals names 0 0 0 in
  if Nat.ltb 1 nd then fail
  else if Nat.ltb 0 na then fail
  else if Nat.ltb 0 nd && Nat.eqb nn 0 then abort
  else
    let nn := if Nat.ltb 0 nd then (nn - 1)%nat else nn in
    if Nat.eqb nd 0 && negb (Nat.eqb nn (List.length fs)) then fail
    else if Nat.ltb (List.length xs) (List.length fs - (if Nat.ltb 0 nd then 2 else 0))%nat then fail
    else
      bind_each e (firstn nn fs) (firstn nn xs) ;;;
      match skipn nn xs with
      | [] => if Nat.ltb 0 nd then
                f <- need (nth_error fs (List.length fs - 2)) ;; v <- alloc (DVec []) ;;
                env_set e f v ;;; ret None
              else ret None
      | rest => if negb (Nat.eqb nd 1) then fail
                else f <- need (nth_error fs (List.length fs - 2)) ;; v <- alloc (DVec rest) ;;
                     env_set e f v ;;; ret None
      end.
