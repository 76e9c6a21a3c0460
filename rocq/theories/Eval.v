(** The evaluator: octaspire_dern_vm_private_eval_impl, octaspire_dern_vm_eval and
    the loop that reads and evaluates a whole input (octaspire_dern_vm.c). *)
From Coq Require Import NArith ZArith Bool Lia String List.
From Verif Require Import Base HMap Heap ValueOps Env Copy Builtins Specials.
Import ListNotations.
Local Open Scope N_scope.

(** The elements of the vector being evaluated, through the pointer [vec] of the
    C code (vm:3793). *)
Definition form_at (v : ref) (addr : N) : M (list ref) :=
  d <- get_at v addr ;; match d with DVec l => ret l | _ => undef end.

(** The unevaluated arguments of a special, vm:3843-3858: [Some]: an element that
    is an error. [k] bounds the number of elements, which do not change. *)
Fixpoint raw_args (a : ref) (l : list ref) : M (option ref) :=
  match l with
  | [] => ret None
  | x :: t => e <- is_error x ;; if (e : bool) then ret (Some x) else vec_push a x ;;; raw_args a t
  end.

(** The arguments of a builtin or function, evaluated in order, vm:3905-3945 and
    4022-4057; the vector is read anew for each argument. *)
Fixpoint eval_args (f : nat) (ev : evaluator) (v : ref) (addr : N) (env a : ref) (i : nat) : M (option ref) :=
  match f with
  | O => nofuel
  | S f' =>
      l <- form_at v addr ;;
      match nth_error l i with
      | None => ret None
      | Some x =>
          o <- ev x env ;; r <- need o ;; e <- is_error r ;;
          if (e : bool) then annotate r ;;; ret (Some r)
          else vec_push a r ;;; eval_args f' ev v addr env a (S i)
      end
  end.

(** The call of a special, vm:3829-3893. *)
Definition call_special (fuel : nat) (ev : evaluator) (v : ref) (addr : N) (p : special) (env : ref) : M ref :=
  a <- alloc (DVec []) ;; push a ;;;
  l <- form_at v addr ;;
  o <- raw_args a (tl l) ;;
  r <- match o with
       | Some x => ret x
       | None => r <- special_call fuel ev p a env ;; annotate r ;;; ret r
       end ;;
  pop a ;;; ret r.

(** The call of a builtin, vm:3895-3984. *)
Definition builtin_of (f : ref) : M builtin :=
  d <- get f ;; match d with DBuiltin p => ret p | _ => undef end.
Definition is_return (p : builtin) : bool := match p with BiReturn => true | _ => false end.
Definition call_builtin (fuel : nat) (ev : evaluator) (v : ref) (addr : N) (f env : ref) : M ref :=
  a <- alloc (DVec []) ;; push a ;;;
  o <- eval_args fuel ev v addr env a 1 ;;
  r <- match o with
       | Some x => ret x
       | None =>
           p <- builtin_of f ;;
           r <- builtin_call fuel ev p a env ;; annotate r ;;;
           p <- builtin_of f ;;
           (if is_return p then set_fret (Some r) else ret tt) ;;;
           ret r
       end ;;
  pop a ;;; ret r.

(** The body of a function, vm:4103-4157: the form at index [i] on; [last] is the
    value of the form before. *)
Definition func_at (f : ref) (addr : N) : M func :=
  d <- get_at f addr ;; match d with DFun g | DMac g => ret g | _ => undef end.
Fixpoint run_body (k : nat) (ev : evaluator) (f : ref) (addr : N) (ext : ref) (i : nat) (last : option ref)
  : M (option ref) :=
  match k with
  | O => nofuel
  | S k' =>
      g <- func_at f addr ;; l <- vec_of (fbody g) ;;
      match nth_error l i with
      | None => ret last
      | Some x =>
          push x ;;;
          o <- ev x ext ;; r <- need o ;; e <- is_error r ;;
          if (e : bool) then annotate r ;;; pop x ;;; ret (Some r)
          else
            pop x ;;;
            q <- read fret ;;
            match q with
            | Some y => set_fret None ;;; ret (Some y)
            | None => run_body k' ev f addr ext (S i) (Some r)
            end
      end
  end.
Fixpoint push_all (a : ref) (l : list ref) : M unit :=
  match l with [] => ret tt | x :: t => vec_push a x ;;; push_all a t end.
(** The call of a function or macro, vm:3986-4196; [was] is *wasMacroCall. *)
Definition call_function (fuel : nat) (ev : evaluator) (v : ref) (addr : N) (f env : ref) (macro was : bool)
  : M (option ref) :=
  a <- alloc (DVec []) ;; push a ;;;
  o <- (if macro then l <- form_at v addr ;; push_all a (tl l) ;;; ret None
        else eval_args fuel ev v addr env a 1) ;;
  match o with
  | Some x => pop a ;;; ret (Some x)
  | None =>
      c <- get_cell f ;;
      g <- func_at f (caddr c) ;;
      ext <- alloc (DEnv [] (Some (fenv g))) ;; push ext ;;;
      o <- env_extend ext (fformals g) a ;;
      r <- match o with
           | Some e => ret (Some e)
           | None =>
               r <- run_body fuel ev f (caddr c) ext 0 None ;;
               if was then
                 r <- need r ;; push r ;;; o <- ev r ext ;; pop r ;;; ret o
               else ret r
           end ;;
      pops [ext; a] ;;; ret r
  end.

(** octaspire_dern_vm_private_eval_impl, vm:3591-4256.  The result is the value
    (NULL = [None]) and the new *wasMacroCall. *)
Definition eval_form (fuel : nat) (ev : evaluator) (v : ref) (l : list ref) (addr : N) (env : ref) (was : bool)
  : M (option ref * bool) :=
  match l with
  | [] => pops [env; v] ;;; r <- new_error ;; ret (Some r, was)
  | x :: _ =>
      o <- ev x env ;;
      match o with
      | None => pops [env; v] ;;; ret (None, was)
      | Some f =>
          push f ;;;
          d <- get f ;;
          r <- match d with
               | DSpecial p => r <- call_special fuel ev v addr p env ;; ret (Some r, was)
               | DBuiltin _ => r <- call_builtin fuel ev v addr f env ;; ret (Some r, was)
               | DFun _ => r <- call_function fuel ev v addr f env false was ;; ret (r, was)
               | DMac _ => r <- call_function fuel ev v addr f env true true ;; ret (r, true)
               | _ => r <- new_error ;; ret (Some r, was)
               end ;;
          pops [f; env; v] ;;; ret r
      end
  end.
Definition eval_impl (fuel : nat) (ev : evaluator) (v env : ref) (was : bool) : M (option ref * bool) :=
  qt <- read quit ;;
  if (qt : bool) then r <- alloc DNil ;; ret (Some r, was)
  else
    ed <- get env ;;
    match ed with
    | DEnv _ _ =>
        push v ;;; push env ;;;
        c <- get_cell v ;;
        match cdata c with
        | DNil | DBool _ | DInt _ | DReal _ | DStr _ | DChar _ | DErr _ _ | DSemver _
        | DBuiltin _ | DSpecial _ | DFun _ | DMac _ => pops [env; v] ;;; ret (Some v, was)
        | DSym t =>
            o <- env_get env t ;;
            r <- match o with Some r => ret r | None => new_error end ;;
            pops [env; v] ;;; ret (Some r, was)
        | DVec l => eval_form fuel ev v l (caddr c) env was
        | DMap _ | DQueue _ _ | DList _ | DEnv _ _ =>
            r <- new_error ;; pops [env; v] ;;; ret (Some r, was)
        end
    | _ => abort
    end.

(** octaspire_dern_vm_eval, vm:4258-4313, for a value that is not NULL; [f] bounds
    the number of expansions. *)
Fixpoint eval_loop (f fuel : nat) (ev : evaluator) (v env : ref) (was : bool) : M (option ref) :=
  match f with
  | O => nofuel
  | S f' =>
      p <- eval_impl fuel ev v env was ;;
      let (o, was) := (p : option ref * bool) in
      if negb was then ret o
      else
        r <- need o ;; d <- get r ;;
        match d with
        | DVec (x :: _) =>
            push r ;;;
            p <- eval_impl fuel ev x env was ;;
            let (o, _) := (p : option ref * bool) in
            op <- need o ;; pop r ;;;
            d <- get op ;;
            match d with
            | DMac _ => eval_loop f' fuel ev r env true
            | _ => ret (Some r)
            end
        | _ => ret (Some r)
        end
  end.
(** The evaluator with at most [fuel] nested calls (and rounds of a loop). *)
Fixpoint eval (fuel : nat) (v env : ref) : M (option ref) :=
  match fuel with
  | O => nofuel
  | S f => eval_loop f f (eval f) v env false
  end.
(** octaspire_dern_vm_eval_in_global_environment, vm:3478-3483. *)
Definition eval_global (fuel : nat) (v : ref) : M (option ref) := g <- read genv ;; eval fuel v g.
