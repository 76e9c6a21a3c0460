(** The special forms of octaspire_dern_stdlib.c.  A special gets the vector [a]
    of its unevaluated arguments, which is on the stack, and the environment. *)
From Coq Require Import NArith ZArith Bool Lia String List.
From Coq Require Import Floats.SpecFloat.
From Verif Require Import Base OString HMap Heap ValueOps Env Copy Builtins.
Import ListNotations.
Local Open Scope N_scope.

Definition sym_is (r : ref) (s : string) : M bool :=
  d <- get r ;; match d with DSym t => ret (text_eqb t (asc s)) | _ => ret false end.

(** ** define *)

(** octaspire_dern_vm_special_private_define_var_no_env, stdlib:280-394; the
    binding status is always true. *)
Definition define_var (fuel : nat) (ev : evaluator) (k v a env : ref) : M ref :=
  push a ;;;
  x1 <- arg a 1 ;; ok <- sym_is x1 "as" ;;
  if negb ok then (r <- new_error ;; pop a ;;; ret r)
  else
    x3 <- arg a 3 ;; o <- ev x3 env ;; doc <- need o ;; push doc ;;;
    d <- get doc ;;
    match d with
    | DStr _ =>
        v <- copy_atom fuel v ;; push v ;;;
        c <- get_cell v ;; set_docs v (Some doc) (cdocvec c) ;;;
        env_set env k v ;;;
        pops [v; doc; a] ;;; alloc (DBool true)
    | _ => r <- new_error ;; pops [doc; a] ;;; ret r
    end.
(** octaspire_dern_vm_special_private_define_var_in_env, stdlib:100-278. *)
Definition define_var_in (fuel : nat) (ev : evaluator) (k v a env : ref) : M ref :=
  push a ;;;
  x1 <- arg a 1 ;; ok1 <- sym_is x1 "as" ;;
  if negb ok1 then (r <- new_error ;; pop a ;;; ret r)
  else
    x4 <- arg a 4 ;; ok4 <- sym_is x4 "in" ;;
    if negb ok4 then (r <- new_error ;; pop a ;;; ret r)
    else
      x3 <- arg a 3 ;; o <- ev x3 env ;; doc <- need o ;; push doc ;;;
      d <- get doc ;;
      match d with
      | DStr _ =>
          x5 <- arg a 5 ;; o <- ev x5 env ;; e <- need o ;; push e ;;;
          d <- get e ;;
          match d with
          | DEnv _ _ =>
              v <- copy_atom fuel v ;; push v ;;;
              c <- get_cell v ;; set_docs v (Some doc) (cdocvec c) ;;;
              env_set e k v ;;;
              pops [v; e; doc; a] ;;; alloc (DBool true)
          | _ => r <- new_error ;; pops [e; doc; a] ;;; ret r
          end
      | _ => r <- new_error ;; pops [doc; a] ;;; ret r
      end.

(** octaspire_dern_function_private_is_string_in_vector, value:285-345: is the
    formal documented by the vector (symbol, string, symbol, string, ...)? *)
Fixpoint mentioned (name : text) (dv : list ref) : M bool :=
  match dv with
  | [] => ret false
  | s :: rest =>
      d <- get s ;;
      match d with
      | DSym t =>
          if text_eqb t name then
            match rest with
            | [] => ret false
            | x :: _ =>
                e <- get x ;;
                match e with
                | DStr u => ret (negb (text_eqb name dots) || text_eqb u (asc "varargs"))
                | _ => ret false
                end
            end
          else match rest with [] => ret false | _ :: rest' => mentioned name rest' end
      | _ => abort
      end
  end.
(** octaspire_dern_function_are_all_formals_mentioned_in_docvec, value:347-440. *)
Definition all_mentioned (formals docvec : ref) : M bool :=
  fs <- vec_of formals ;; dv <- vec_of docvec ;;
  oks <- mapM (fun f => t <- formal_name f ;; mentioned t dv) fs ;;
  ret (forallb id oks).
(** The documentation of the arguments appended to the documentation string
    itself, stdlib:941-985. *)
Fixpoint append_docs (doc : ref) (dv : list ref) : M unit :=
  match dv with
  | [] => ret tt
  | k :: rest =>
      d <- get k ;;
      match d, rest with
      | DSym t, x :: rest' =>
          e <- get x ;; s <- get doc ;;
          match e, s with
          | DStr u, DStr s =>
              if x =? doc then undef
              else
                t' <- lift (c_string_copy t) ;; u' <- lift (c_string_copy u) ;;
                put doc (DStr (s ++ asc "
" ++ t' ++ asc " -> " ++ u')) ;;; append_docs doc rest'
          | _, _ => abort
          end
      | _, _ => abort
      end
  end.
Definition set_howto (f : func) (name doc : text) (ok : bool) : func :=
  mkFunc name doc ok (fformals f) (fbody f) (fenv f).
(** The common end of defining a function in the current or in a given
    environment [e], stdlib:655-759 and 956-1058: every formal must be
    documented; the documentation of the arguments is appended to the
    documentation string itself; the function gets its documentation and its name
    and is bound to the name.  [used]: the values to be popped.  With a value
    that is not a function or macro (possible only with eight arguments) the
    union is read through the wrong member. *)
Definition finish_fun (yes : bool) (k v e doc dv : ref) (used : list ref) : M ref :=
  fd <- get v ;;
  match fd with
  | DFun f | DMac f =>
      ok <- all_mentioned (fformals f) dv ;;
      if negb ok then pops used ;;; new_error
      else
        s <- get doc ;;
        match s with
        | DStr s => put doc (DStr (s ++ asc "
Arguments are:"))
        | _ => undef
        end ;;;
        l <- vec_of dv ;; append_docs doc l ;;;
        push v ;;; set_docs v (Some doc) (Some dv) ;;;
        kd <- get k ;; sd <- get doc ;; fd <- get v ;;
        match kd, sd with
        | DSym t, DStr s =>
            t' <- lift (c_string_copy t) ;; s' <- lift (c_string_copy s) ;;
            match fd with
            | DFun f => put v (DFun (set_howto f t' s' yes))
            | DMac f => put v (DMac (set_howto f t' s' yes))
            | _ => undef
            end ;;;
            env_set e k v ;;;
            pops (v :: used) ;;; alloc (DBool true)
        | _, _ => undef
        end
  | _ => undef
  end.
(** octaspire_dern_vm_special_private_define_fun_no_env, stdlib:761-1059. *)
Definition define_fun (ev : evaluator) (k v a env : ref) : M ref :=
  push a ;;;
  x1 <- arg a 1 ;; ok <- sym_is x1 "as" ;;
  if negb ok then (r <- new_error ;; pop a ;;; ret r)
  else
    x5 <- arg a 5 ;; yes <- sym_is x5 "howto-ok" ;; no <- sym_is x5 "howto-no" ;;
    if negb (yes || no) then (r <- new_error ;; pop a ;;; ret r)
    else
      x3 <- arg a 3 ;; o <- ev x3 env ;; doc <- need o ;; push doc ;;;
      d <- get doc ;;
      match d with
      | DStr _ =>
          x4 <- arg a 4 ;; o <- ev x4 env ;; dv <- need o ;; push dv ;;;
          d <- get dv ;;
          match d with
          | DVec _ => finish_fun yes k v env doc dv [dv; doc; a]
          | _ => r <- new_error ;; pops [dv; doc; a] ;;; ret r
          end
      | _ => r <- new_error ;; pops [doc; a] ;;; ret r
      end.
(** octaspire_dern_vm_special_private_define_fun_in_env, stdlib:397-760. *)
Definition define_fun_in (ev : evaluator) (k v a env : ref) : M ref :=
  push a ;;;
  x1 <- arg a 1 ;; ok <- sym_is x1 "as" ;;
  if negb ok then (r <- new_error ;; pop a ;;; ret r)
  else
    x5 <- arg a 5 ;; ok5 <- sym_is x5 "in" ;;
    if negb ok5 then (r <- new_error ;; pop a ;;; ret r)
    else
      x7 <- arg a 7 ;; yes <- sym_is x7 "howto-ok" ;; no <- sym_is x7 "howto-no" ;;
      if negb (yes || no) then (r <- new_error ;; pop a ;;; ret r)
      else
        x3 <- arg a 3 ;; o <- ev x3 env ;; doc <- need o ;; push doc ;;;
        d <- get doc ;;
        match d with
        | DStr _ =>
            x6 <- arg a 6 ;; o <- ev x6 env ;; e <- need o ;; push e ;;;
            d <- get e ;;
            match d with
            | DEnv _ _ =>
                x4 <- arg a 4 ;; o <- ev x4 env ;; dv <- need o ;; push dv ;;;
                d <- get dv ;;
                match d with
                | DVec _ => finish_fun yes k v e doc dv [dv; e; doc; a]
                | _ => r <- new_error ;; pops [dv; e; doc; a] ;;; ret r
                end
            | _ => r <- new_error ;; pops [e; doc; a] ;;; ret r
            end
        | _ => r <- new_error ;; pops [doc; a] ;;; ret r
        end.
(** octaspire_dern_vm_special_define, stdlib:1062-1210. *)
Definition s_define (fuel : nat) (ev : evaluator) (a env : ref) : M ref :=
  n <- nargs a ;;
  if negb (Nat.eqb n 4 || Nat.eqb n 6 || Nat.eqb n 8) then new_error
  else
    k <- arg a 0 ;; d <- get k ;;
    o <- match d with
         | DVec _ => o <- ev k env ;; k <- need o ;; e <- is_error k ;; ret (if (e : bool) then inr k else inl k)
         | _ => ret (inl k)
         end ;;
    match o with
    | inr e => ret e
    | inl k =>
        d <- get k ;;
        match d with
        | DSym _ =>
            push k ;;;
            x2 <- arg a 2 ;; o <- ev x2 env ;; v <- need o ;;
            e <- is_error v ;;
            if (e : bool) then pop k ;;; ret v
            else
              push v ;;;
              d <- get v ;;
              r <- (if Nat.eqb n 4 then define_var fuel ev k v a env
                    else if Nat.eqb n 6 then
                      match d with
                      | DFun _ | DMac _ => define_fun ev k v a env
                      | _ => define_var_in fuel ev k v a env
                      end
                    else define_fun_in ev k v a env) ;;
              pops [v; k] ;;; ret r
        | _ => new_error
        end
    end.

(** ** eval *)

(** octaspire_dern_vm_private_special_eval_helper_apply, stdlib:1225-1330. *)
Definition is_callable (d : data) : bool :=
  match d with DFun _ | DMac _ | DSpecial _ | DBuiltin _ => true | _ => false end.
Fixpoint apply_args (k : nat) (ev : evaluator) (a env v : ref) (i : nat) : M unit :=
  match k with
  | O => ret tt
  | S k' =>
      x <- arg a i ;; o <- ev x env ;;
      match o with
      | None => ret tt
      | Some r =>
          d <- get r ;;
          match d with
          | DVec l => if r =? v then unmodelled else iterM (vec_push v) l
          | _ => vec_push v r
          end
      end ;;;
      apply_args k' ev a env v (S i)
  end.
Definition s_apply (ev : evaluator) (a env : ref) (n : nat) : M ref :=
  x0 <- arg a 0 ;; o <- ev x0 env ;; f <- need o ;; push f ;;;
  d <- get f ;;
  if negb (is_callable d) then pop f ;;; new_error
  else
    x1 <- arg a 1 ;; o <- ev x1 env ;; e <- need o ;; push e ;;;
    d <- get e ;;
    match d with
    | DEnv _ _ =>
        v <- alloc (DVec []) ;; push v ;;; vec_push v f ;;;
        apply_args (n - 2) ev a env v 2 ;;;
        o <- ev v e ;; r <- need o ;;
        pops [v; e; f] ;;; ret r
    | _ => pops [e; f] ;;; new_error
    end.
(** octaspire_dern_vm_private_special_eval_helper_eval, stdlib:1332-1506, and
    octaspire_dern_vm_special_eval, stdlib:1508-1550. *)
Definition eval_twice (ev : evaluator) (x env : ref) : M ref :=
  o <- ev x env ;; r <- need o ;; push r ;;;
  o <- ev r env ;; t <- need o ;; pop r ;;; ret t.
Definition s_eval (ev : evaluator) (a env : ref) : M ref :=
  n <- nargs a ;;
  match n with
  | O => new_error
  | 1%nat => x <- arg a 0 ;; push a ;;; r <- eval_twice ev x env ;; pop a ;;; ret r
  | 2%nat =>
      x <- arg a 0 ;; push a ;;; e <- arg a 1 ;; d <- get e ;;
      match d with
      | DEnv _ _ => r <- eval_twice ev x e ;; pop a ;;; ret r
      | _ =>
          o <- ev e env ;; e <- need o ;; d <- get e ;;
          match d with
          | DErr _ _ => pop a ;;; ret e
          | DEnv _ _ => push e ;;; r <- eval_twice ev x e ;; pops [e; a] ;;; ret r
          | _ => pop a ;;; new_error
          end
      end
  | _ => s_apply ev a env n
  end.

(** octaspire_dern_vm_special_quote, stdlib:2181-2208. *)
Definition s_quote (a : ref) : M ref :=
  n <- nargs a ;; if negb (Nat.eqb n 1) then new_error else arg a 0.

(** ** Conditionals and loops *)

(** octaspire_dern_vm_special_select, stdlib:2210-2332. *)
Fixpoint select_loop (k : nat) (ev : evaluator) (a env : ref) (i : nat) : M ref :=
  match k with
  | O => pop a ;;; alloc DNil
  | S k' =>
      x <- arg a i ;; def <- sym_is x "default" ;;
      if (def : bool) then
        match k' with
        | O => y <- arg a (S i) ;; o <- ev y env ;; r <- need o ;; pop a ;;; ret r
        | S _ => pop a ;;; new_error
        end
      else
        o <- ev x env ;; t <- need o ;; d <- get t ;;
        match d with
        | DBool true => y <- arg a (S i) ;; o <- ev y env ;; r <- need o ;; pop a ;;; ret r
        | DBool false => select_loop k' ev a env (S (S i))
        | DErr _ _ => pop a ;;; ret t
        | _ => pop a ;;; new_error
        end
  end.
Definition s_select (ev : evaluator) (a env : ref) : M ref :=
  n <- nargs a ;;
  if Nat.ltb n 2 || Nat.odd n then new_error
  else push a ;;; select_loop (Nat.div2 n) ev a env 0.

(** octaspire_dern_vm_special_if, stdlib:2334-2441. *)
Definition s_if (ev : evaluator) (a env : ref) : M ref :=
  n <- nargs a ;;
  if negb (Nat.eqb n 2 || Nat.eqb n 3) then new_error
  else
    push a ;;;
    x <- arg a 0 ;; o <- ev x env ;; t <- need o ;; push t ;;;
    d <- get t ;;
    t <- match d with
         | DFun _ =>
             w <- alloc (DVec []) ;; push w ;;; vec_push w t ;;;
             o <- ev w env ;; pops [w; t] ;;; need o
         | _ => pop t ;;; ret t
         end ;;
    d <- get t ;;
    match d with
    | DBool b =>
        r <- (if Nat.eqb n 2 then
                if b then x <- arg a 1 ;; o <- ev x env ;; need o else value_nil
              else x <- arg a (if b then 1 else 2)%nat ;; o <- ev x env ;; need o) ;;
        pop a ;;; ret r
    | DErr _ _ => pop a ;;; ret t
    | _ => pop a ;;; new_error
    end.

(** The evaluation of the [k] forms of a body, from argument [j] on: [Some]: the
    loop has to return this value, an error or the value of (return ...). *)
Fixpoint run_forms (k : nat) (ev : evaluator) (a env : ref) (j : nat) : M (option ref) :=
  match k with
  | O => ret None
  | S k' =>
      x <- arg a j ;; o <- ev x env ;; r <- need o ;;
      e <- is_error r ;;
      if (e : bool) then ret (Some r)
      else
        q <- read fret ;;
        match q with
        | Some v => ret (Some v)
        | None => run_forms k' ev a env (S j)
        end
  end.

(** octaspire_dern_vm_special_while, stdlib:2443-2546. *)
Fixpoint while_loop (f : nat) (ev : evaluator) (a env : ref) (n : nat) (c : Z) : M ref :=
  match f with
  | O => nofuel
  | S f' =>
      x <- arg a 0 ;; o <- ev x env ;; t <- need o ;; d <- get t ;;
      match d with
      | DBool true =>
          o <- run_forms (n - 1) ev a env 1 ;;
          match o with
          | Some v => pop a ;;; ret v
          | None => c' <- lift (int32_op (c + 1)) ;; while_loop f' ev a env n c'
          end
      | DBool false => pop a ;;; alloc (DInt c)
      | DErr _ _ => pop a ;;; ret t
      | _ => pop a ;;; new_error
      end
  end.
Definition s_while (fuel : nat) (ev : evaluator) (a env : ref) : M ref :=
  n <- nargs a ;;
  if Nat.ltb n 2 then new_error else push a ;;; while_loop fuel ev a env n 0.

(** The loops of octaspire_dern_vm_special_for: for (i; i < n; i += step), the
    iterator [item i] bound to the symbol [k] in [ext]; [inl]: a value to return
    at once, [inr]: the number of rounds. *)
Fixpoint for_loop (f : nat) (ev : evaluator) (a ext k : ref) (item : N -> M ref)
         (i n step : N) (j cnt : nat) (c : Z) : M (ref + Z) :=
  match f with
  | O => nofuel
  | S f' =>
      if n <=? i then ret (inr c)
      else
        x <- item i ;; env_set ext k x ;;;
        o <- run_forms cnt ev a ext j ;;
        match o with
        | Some v => ret (inl v)
        | None => c' <- lift (int32_op (c + 1)) ;; for_loop f' ev a ext k item (i + step) n step j cnt c'
        end
  end.
Definition for_result (o : ref + Z) (l : list ref) : M ref :=
  pops l ;;; match o with inl v => ret v | inr c => alloc (DInt c) end.
(** The optional step, stdlib:2680-2745, 3386-3455: [None]: an error. *)
Inductive step_spec := StepBad (r : option ref) | StepOk (step : N) (j : nat).
Definition for_step (a : ref) (i n : nat) : M step_spec :=
  x <- arg a i ;; b <- sym_is x "step" ;;
  if (b : bool) then
    if Nat.ltb n (i + 2) then ret (StepBad None)
    else
      y <- arg a (S i) ;; d <- get y ;;
      match d with
      | DInt z => if (z <=? 0)%Z then r <- new_error ;; ret (StepBad (Some r))
                  else ret (StepOk (Z.to_N z) (S i))
      | _ => r <- new_error ;; ret (StepBad (Some r))
      end
  else ret (StepOk 1 i).
Definition step_fail (o : option ref) (l : list ref) : M ref :=
  pops l ;;; match o with Some r => ret r | None => new_error end.

(** What the iterator is bound to, stdlib:2760-3140. *)
Definition for_item (fuel : nat) (c : ref) (addr : N) (i : N) : M ref :=
  d <- get_at c addr ;;
  match d with
  | DStr s => x <- lift (str_get (text_str s) (Z.of_N i)) ;; alloc (DChar [x])
  | DVec l | DQueue l _ => need (nth_error l (N.to_nat i))
  | DList l => match nth_error l (N.to_nat i) with Some x => ret x | None => abort end
  | DMap m => match map_get_at_index m (Z.of_N i) with
              | None => undef
              | Some e => v <- lift (single e) ;; alloc (DVec [ekey e; v])
              end
  | _ => unmodelled
  end.
Definition for_length (d : data) : option N :=
  match d with
  | DStr s => Some (N.of_nat (List.length s))
  | DVec l | DQueue l _ | DList l => Some (N.of_nat (List.length l))
  | DMap m => Some (N.of_nat (numElements m))
  | _ => None
  end.
Definition for_in (fuel : nat) (ev : evaluator) (a env k : ref) (n : nat) : M ref :=
  x <- arg a 2 ;; o <- ev x env ;; c <- need o ;; push c ;;;
  cc <- get_cell c ;;
  match for_length (cdata cc) with
  | None => match cdata cc with
            | DEnv _ _ => unmodelled
            | _ => r <- new_error ;; pops [c; a] ;;; ret r
            end
  | Some len =>
      o <- for_step a 3 n ;;
      match o with
      | StepBad r => step_fail r [c; a]
      | StepOk step j =>
          ext <- alloc (DEnv [] (Some env)) ;; push ext ;;;
          cc <- get_cell c ;;
          o <- for_loop fuel ev a ext k (for_item fuel c (caddr cc)) 0 len step j (n - j) 0 ;;
          for_result o [ext; c; a]
      end
  end.

(** The numeric form, stdlib:3290-3553. *)
Definition int_of (r : ref) : M Z := d <- get r ;; match d with DInt z => ret z | _ => undef end.
Definition from_item (fuel : nat) (from : ref) (sign : Z) (i : N) : M ref :=
  x <- copy fuel from ;; z <- int_of x ;; put x (DInt (wrap32 (z + sign * Z.of_N i))) ;;; ret x.
Definition for_from (fuel : nat) (ev : evaluator) (a env k : ref) (n : nat) : M ref :=
  x <- arg a 2 ;; o <- ev x env ;; from <- need o ;; push from ;;;
  d <- get from ;;
  match d with
  | DInt _ =>
      x <- arg a 4 ;; o <- ev x env ;; to <- need o ;; push to ;;;
      d <- get from ;; e <- get to ;;
      if negb (tag d =? tag e)%Z then r <- new_error ;; pops [to; from; a] ;;; ret r
      else
        o <- for_step a 5 n ;;
        match o with
        | StepBad r => step_fail r [to; from; a]
        | StepOk step j =>
            ext <- alloc (DEnv [] (Some env)) ;; push ext ;;;
            up <- heap_op (fun h => vless_eq fuel h from to) ;;
            p <- int_of from ;; q <- int_of to ;;
            m <- lift (int32_op (if (up : bool) then q - p else p - q)) ;;
            o <- for_loop fuel ev a ext k (from_item fuel from (if up then 1 else -1))
                          0 (Z.to_N m + 1) step j (n - j) 0 ;;
            for_result o [ext; to; from; a]
        end
  | _ => r <- new_error ;; pops [from; a] ;;; ret r
  end.
(** octaspire_dern_vm_special_for, stdlib:2548-3555: with another symbol than
    in/from it returns NULL, which the caller dereferences. *)
Definition s_for (fuel : nat) (ev : evaluator) (a env : ref) : M ref :=
  push a ;;;
  n <- nargs a ;;
  if Nat.ltb n 4 then pop a ;;; new_error
  else
    k <- arg a 0 ;; d <- get k ;;
    match d with
    | DSym _ =>
        m <- arg a 1 ;; d <- get m ;;
        match d with
        | DSym t => if text_eqb t (asc "in") then for_in fuel ev a env k n
                    else if text_eqb t (asc "from") then for_from fuel ev a env k n
                    else undef
        | _ => pop a ;;; new_error
        end
    | _ => pop a ;;; new_error
    end.

(** ** Comparison *)

(** octaspire_dern_vm_special_equals_equals and _equals_equals_equals,
    stdlib:3689-3860. *)
Fixpoint equal_loop (k : nat) (ev : evaluator) (eq : ref -> ref -> M bool) (a env x : ref) (i : nat) : M ref :=
  match k with
  | O => pops [x; a] ;;; value_true
  | S k' =>
      y <- arg a i ;; o <- ev y env ;; y <- need o ;; push y ;;;
      b <- eq x y ;;
      if (b : bool) then pop y ;;; equal_loop k' ev eq a env x (S i)
      else pops [y; x; a] ;;; value_false
  end.
Definition equal_with (ev : evaluator) (eq : ref -> ref -> M bool) (a env : ref) : M ref :=
  n <- nargs a ;;
  if Nat.ltb n 2 then new_error
  else
    push a ;;; x <- arg a 0 ;; o <- ev x env ;; x <- need o ;; push x ;;;
    equal_loop (n - 1) ev eq a env x 1.
Definition by_value (cmp : heap -> ref -> ref -> outcome bool) (x y : ref) : M bool :=
  heap_op (fun h => cmp h x y).
Definition by_uid (x y : ref) : M bool :=
  get_cell x ;;; get_cell y ;;; ret (x =? y).
Definition s_equal (fuel : nat) (ev : evaluator) (a env : ref) : M ref :=
  equal_with ev (by_value (vequal fuel)) a env.
Definition s_identical (ev : evaluator) (a env : ref) : M ref := equal_with ev by_uid a env.
(** octaspire_dern_vm_special_exclamation_equals, stdlib:3862-3884. *)
Definition s_not_equal (fuel : nat) (ev : evaluator) (a env : ref) : M ref :=
  r <- s_equal fuel ev a env ;; d <- get r ;;
  match d with
  | DErr _ _ => ret r
  | DBool b => alloc (DBool (negb b))
  | _ => abort
  end.
(** octaspire_dern_vm_special_less_than_or_equal, _less_than, _greater_than,
    _greater_than_or_equal, stdlib:3886-4130: the second value is not on the
    stack while it is compared. *)
Fixpoint order_loop (k : nat) (ev : evaluator) (cmp : heap -> ref -> ref -> outcome bool)
         (a env x : ref) (i : nat) : M ref :=
  match k with
  | O => pops [x; a] ;;; value_true
  | S k' =>
      y <- arg a i ;; o <- ev y env ;; y <- need o ;;
      b <- by_value cmp x y ;;
      if (b : bool) then order_loop k' ev cmp a env x (S i)
      else pops [x; a] ;;; value_false
  end.
Definition s_order (ev : evaluator) (cmp : heap -> ref -> ref -> outcome bool) (a env : ref) : M ref :=
  n <- nargs a ;;
  if Nat.ltb n 2 then new_error
  else
    push a ;;; x <- arg a 0 ;; o <- ev x env ;; x <- need o ;; push x ;;;
    order_loop (n - 1) ev cmp a env x 1.

(** ** fn and macro *)

(** octaspire_dern_stdlib_private_validate_function, stdlib:4444-4542: [true] =
    valid.  (The check at 4530 never fails.) *)
Fixpoint count_dots (l : list text) (nd after : nat) : nat * nat :=
  match l with
  | [] => (nd, after)
  | t :: r => if text_eqb t (asc ".") then count_dots r (S nd) after
              else count_dots r nd (match nd with O => after | _ => S after end)
  end.
Fixpoint formal_texts (l : list ref) : M (option (list text)) :=
  match l with
  | [] => ret (Some [])
  | f :: t =>
      o <- sym_of f ;;
      match o with
      | None => ret None
      | Some n => o <- formal_texts t ;; ret (option_map (cons n) o)
      end
  end.
Definition valid_formals (formals : ref) : M bool :=
  fs <- vec_of formals ;; o <- formal_texts fs ;;
  match o with
  | None => ret false
  | Some l => let (nd, after) := count_dots l 0 0 in ret (Nat.leb nd 1 && Nat.leb after 1)
  end.
(** The forms of the body, up to one that is an error. *)
Fixpoint body_forms (k : nat) (a body : ref) (i : nat) : M (option ref) :=
  match k with
  | O => ret None
  | S k' =>
      x <- arg a i ;; e <- is_error x ;;
      if (e : bool) then ret (Some x) else vec_push body x ;;; body_forms k' a body (S i)
  end.
(** octaspire_dern_vm_special_fn and _macro, stdlib:4544-4791, and
    octaspire_dern_vm_create_new_value_function, vm:2645-2700. *)
Definition s_fn (mk : func -> data) (a env : ref) : M ref :=
  push a ;;; push env ;;;
  n <- nargs a ;;
  if Nat.ltb n 2 then pops [env; a] ;;; new_error
  else
    formals <- arg a 0 ;; d <- get formals ;;
    match d with
    | DVec _ =>
        body <- alloc (DVec []) ;; push body ;;;
        o <- body_forms (n - 1) a body 1 ;;
        match o with
        | Some x => pops [body; env; a] ;;; ret x
        | None =>
            ok <- valid_formals formals ;;
            if negb ok then r <- new_error ;; pops [body; env; a] ;;; ret r
            else
              r <- alloc (mk (mkFunc [] [] false formals body env)) ;; push r ;;;
              doc <- alloc (DStr []) ;; set_docs r (Some doc) None ;;; pop r ;;;
              pops [body; env; a] ;;; ret r
        end
    | _ => pops [env; a] ;;; new_error
    end.

(** ** and, or, do *)

(** octaspire_dern_vm_special_and and _or, stdlib:5767-5870. *)
Fixpoint logic_loop (k : nat) (ev : evaluator) (stop : bool) (a env : ref) (i : nat) (last : option ref) : M ref :=
  match k with
  | O => need last
  | S k' =>
      x <- arg a i ;; o <- ev x env ;;
      q <- read fret ;;
      match q with
      | Some v => ret v
      | None =>
          r <- need o ;; d <- get r ;;
          match d with
          | DBool b => if Bool.eqb b stop then ret r else logic_loop k' ev stop a env (S i) (Some r)
          | _ => logic_loop k' ev stop a env (S i) (Some r)
          end
      end
  end.
Definition s_logic (ev : evaluator) (stop : bool) (a env : ref) : M ref :=
  n <- nargs a ;;
  match n with
  | O => alloc (DBool (negb stop))
  | _ => logic_loop n ev stop a env 0 None
  end.
(** octaspire_dern_vm_special_do, stdlib:5872-5920. *)
Fixpoint do_loop (k : nat) (ev : evaluator) (a env : ref) (i : nat) (last : option ref) : M ref :=
  match k with
  | O => need last
  | S k' =>
      x <- arg a i ;; o <- ev x env ;;
      q <- read fret ;;
      match q with
      | Some v => ret v
      | None =>
          r <- need o ;; e <- is_error r ;;
          if (e : bool) then annotate r ;;; ret r else do_loop k' ev a env (S i) (Some r)
      end
  end.
Definition s_do (ev : evaluator) (a env : ref) : M ref :=
  n <- nargs a ;;
  match n with
  | O => new_error
  | _ => do_loop n ev a env 0 None
  end.

(** ** generate *)

(** The result to start from, by the name of its type, stdlib:1609-1645. *)
Definition generated_kind (d : data) : option data :=
  match d with
  | DSym t => if text_eqb t (asc "vector") then Some (DVec [])
              else if text_eqb t (asc "string") then Some (DStr []) else None
  | _ => None
  end.
(** octaspire_dern_value_as_collection_push_back_element and
    _as_text_push_back_character, value:3627-3680; the caller aborts when they
    fail.  Appending to a symbol is not modelled. *)
Definition collect (r x : ref) : M unit :=
  d <- get r ;;
  match d with
  | DVec _ => vec_push r x
  | DStr s => e <- get x ;; match e with DChar (c :: _) => put r (DStr (s ++ [c])) | _ => abort end
  | DSym _ => unmodelled
  | _ => abort
  end.
(** The rounds with a function, stdlib:1722-1808: each evaluates the form
    (generator (quote result) index). *)
Fixpoint generate_calls (k : nat) (ev : evaluator) (env gen res : ref) (i : nat) : M unit :=
  match k with
  | O => ret tt
  | S k' =>
      ix <- alloc (DInt (wrap32 (Z.of_nat i))) ;; push ix ;;;
      q <- alloc (DVec []) ;; push q ;;;
      sy <- alloc (DSym (asc "quote")) ;; vec_push q sy ;;; vec_push q res ;;;
      form <- alloc (DVec [gen; q; ix]) ;; push form ;;;
      o <- ev form env ;; e <- need o ;; collect res e ;;;
      pops [form; q; ix] ;;; generate_calls k' ev env gen res (S i)
  end.
Fixpoint generate_same (k : nat) (res x : ref) : M unit :=
  match k with O => ret tt | S k' => collect res x ;;; generate_same k' res x end.
(** octaspire_dern_value_is_callable, value:1846-1872. *)
Definition callable (d : data) : bool :=
  match d with DFun _ | DMac _ | DBuiltin _ | DSpecial _ => true | _ => false end.
(** The number of elements: a negative number is refused; the conversion of a
    double to size_t is undefined when it does not fit, stdlib:1663-1711. *)
Definition element_count (d : data) : outcome (option (option nat)) :=
  match d with
  | DInt z => Ret (Some (if (z <? 0)%Z then None else Some (Z.to_nat z)))
  | DReal f =>
      match f with
      | S754_zero _ => Ret (Some (Some O))
      | S754_finite true _ _ | S754_infinity true => Ret (Some None)
      | _ => match sf_int f with
             | Some z => if (z <? 2 ^ 64)%Z then Ret (Some (Some (Z.to_nat z))) else Undef
             | None => Undef
             end
      end
  | _ => Ret None
  end.
(** octaspire_dern_vm_private_special_generate_helper_generate,
    stdlib:1551-1837, called with four arguments. *)
Definition s_generate_of (ev : evaluator) (a env : ref) : M ref :=
  x <- arg a 0 ;; o <- ev x env ;; t <- need o ;; push t ;;;
  d <- get t ;;
  match generated_kind d with
  | None => pop t ;;; new_error
  | Some d =>
      res <- alloc d ;; push res ;;;
      w <- arg a 1 ;; ok <- sym_is w "of" ;;
      if negb ok then r <- new_error ;; pops [res; t] ;;; ret r
      else
        x <- arg a 2 ;; o <- ev x env ;;
        match o with
        | None => undef
        | Some n =>
            d <- get n ;; c <- lift (element_count d) ;;
            match c with
            | None => r <- new_error ;; pops [res; t] ;;; ret r
            | Some None => push n ;;; pops [n; res; t] ;;; new_error
            | Some (Some k) =>
                push n ;;;
                gen <- arg a 3 ;; o <- ev gen env ;; g <- need o ;; push g ;;;
                d <- get g ;;
                (if callable d then generate_calls k ev env gen res 0 else generate_same k res g) ;;;
                pops [g; n; res; t] ;;; ret res
            end
        end
  end.
(** The vectors after on, stdlib:1990-2032: each argument has to be a vector
    before it is evaluated; the greatest of the lengths. *)
Fixpoint mapped_vectors (k : nat) (ev : evaluator) (a env vs : ref) (i m : nat) : M (ref + nat) :=
  match k with
  | O => ret (inr m)
  | S k' =>
      x <- arg a i ;; d <- get x ;;
      match d with
      | DVec _ =>
          o <- ev x env ;;
          match o with
          | None => undef
          | Some v => vec_push vs v ;;; l <- vec_of v ;; mapped_vectors k' ev a env vs (S i) (Nat.max m (List.length l))
          end
      | _ => r <- new_error ;; ret (inl r)
      end
  end.
(** The calls, stdlib:2034-2085: the form is the function and the i-th element of
    each of the vectors; a vector that is too short aborts. *)
Definition push_elements (form vs : ref) (i : nat) : M unit :=
  l <- vec_of vs ;; iterM (fun v => x <- arg v i ;; vec_push form x) l.
Fixpoint generate_mapped (k : nat) (ev : evaluator) (env f vs res : ref) (i : nat) : M unit :=
  match k with
  | O => ret tt
  | S k' =>
      form <- alloc (DVec []) ;; push form ;;; vec_push form f ;;;
      push_elements form vs i ;;;
      o <- ev form env ;; e <- need o ;; vec_push res e ;;;
      pop form ;;; generate_mapped k' ev env f vs res (S i)
  end.
(** octaspire_dern_vm_private_special_generate_helper_map, stdlib:1839-2132,
    called with five arguments or more. *)
Definition s_generate_map (n : nat) (ev : evaluator) (a env : ref) : M ref :=
  x <- arg a 0 ;; o <- ev x env ;; t <- need o ;; push t ;;;
  d <- get t ;;
  match generated_kind d with
  | None => pop t ;;; new_error
  | Some d =>
      res <- alloc d ;; push res ;;;
      w <- arg a 1 ;; ok <- sym_is w "mapping" ;;
      if negb ok then r <- new_error ;; pops [res; t] ;;; ret r
      else
        x <- arg a 2 ;; o <- ev x env ;; f <- need o ;; d <- get f ;;
        if negb (callable d) then r <- new_error ;; pops [res; t] ;;; ret r
        else
          push f ;;;
          w <- arg a 3 ;; ok <- sym_is w "on" ;;
          if negb ok then r <- new_error ;; pops [f; res; t] ;;; ret r
          else
            vs <- alloc (DVec []) ;; push vs ;;;
            c <- mapped_vectors (n - 4) ev a env vs 4 0 ;;
            match c with
            | inl r => pops [vs; f; res; t] ;;; ret r
            | inr k => generate_mapped k ev env f vs res 0 ;;; pops [vs; f; res; t] ;;; ret res
            end
  end.
(** octaspire_dern_vm_special_generate, stdlib:2134-2178. *)
Definition s_generate (ev : evaluator) (a env : ref) : M ref :=
  n <- nargs a ;;
  if Nat.ltb n 4 then new_error
  else if Nat.eqb n 4 then s_generate_of ev a env
  else s_generate_map n ev a env.

(** ** template *)

(** Adding to the result so far; without a result yet the value is the result. *)
Definition insert (res : option ref) (x : ref) : M (option ref) :=
  match res with
  | None => ret (Some x)
  | Some r => vec_push r x ;;; ret (Some r)
  end.
(** ,@ followed by a form, stdlib:4177-4224.  The result is new and the program
    cannot reach it, so that [x] is another vector. *)
Definition splice (res : option ref) (x : ref) : M (option ref) :=
  d <- get x ;;
  match d, res with
  | DVec l, Some r => iterM (vec_push r) l ;;; ret res
  | _, _ => insert res x
  end.
(** while (true) { item; if (index >= n) break; } *)
Fixpoint template_loop (k : nat) (item : nat -> option ref -> M (option ref * nat)) (n i : nat) (res : option ref) : M (option ref) :=
  match k with
  | O => nofuel
  | S k' =>
      q <- item i res ;;
      if Nat.leb n (snd q) then ret (fst q) else template_loop k' item n (snd q) (fst q)
  end.
(** octaspire_dern_vm_private_template_helper, stdlib:4045-4370: the element [i]
    of the vector [v]; the result so far and the index of the next element. *)
Fixpoint template_item (f : nat) (ev : evaluator) (env v : ref) (i : nat) (res : option ref) : M (option ref * nat) :=
  match f with
  | O => nofuel
  | S f' =>
      n <- nargs v ;; x <- arg v i ;; d <- get x ;;
      match d with
      | DSym t =>
          if text_eqb t (asc ",") || text_eqb t (asc ",@") then
            if Nat.eqb (S i) n then
              e <- new_error ;; push e ;;; r <- insert res e ;; pop e ;;; ret (r, S i)
            else
              y <- arg v (S i) ;; o <- ev y env ;; w <- need o ;; push w ;;;
              r <- (if text_eqb t (asc ",") then insert res w else splice res w) ;;
              pop w ;;; ret (r, S (S i))
          else if text_eqb (firstn 1 t) (asc ",") then
            t' <- lift (c_string_copy t) ;;
            k <- alloc (DSym (tl t')) ;; push k ;;;
            o <- ev k env ;; w <- need o ;; push w ;;;
            r <- insert res w ;; pops [w; k] ;;; ret (r, S i)
          else r <- insert res x ;; ret (r, S i)
      | DVec l =>
          b <- alloc (DVec []) ;; push b ;;;
          c <- template_loop (S (List.length l)) (template_item f' ev env x) (List.length l) 0 (Some b) ;;
          r <- insert res b ;; pop b ;;; ret (r, S i)
      | _ => r <- insert res x ;; ret (r, S i)
      end
  end.
(** octaspire_dern_vm_special_template, stdlib:4372-4442. *)
Definition s_template (fuel : nat) (ev : evaluator) (a env : ref) : M ref :=
  n <- nargs a ;;
  push a ;;;
  if Nat.ltb 1 n then
    r <- alloc (DVec []) ;; push r ;;;
    o <- template_loop (S n) (template_item fuel ev env a) n 0 (Some r) ;;
    pops [r; a] ;;; ret r
  else
    o <- template_loop (S n) (template_item fuel ev env a) n 0 None ;;
    pop a ;;; need o.

(** The call of the C function of a special. *)
Definition special_call (fuel : nat) (ev : evaluator) (p : special) (a env : ref) : M ref :=
  match p with
  | SpDefine => s_define fuel ev a env
  | SpEval => s_eval ev a env
  | SpQuote => s_quote a
  | SpSelect => s_select ev a env
  | SpIf => s_if ev a env
  | SpWhile => s_while fuel ev a env
  | SpFor => s_for fuel ev a env
  | SpEqual => s_equal fuel ev a env
  | SpIdentical => s_identical ev a env
  | SpNotEqual => s_not_equal fuel ev a env
  | SpLess => s_order ev (vless fuel) a env
  | SpGreater => s_order ev (vgreater fuel) a env
  | SpLessEq => s_order ev (vless_eq fuel) a env
  | SpGreaterEq => s_order ev (vgreater_eq fuel) a env
  | SpFn => s_fn DFun a env
  | SpMacro => s_fn DMac a env
  | SpAnd => s_logic ev false a env
  | SpOr => s_logic ev true a env
  | SpDo => s_do ev a env
  | SpGenerate => s_generate ev a env
  | SpTemplate => s_template fuel ev a env
  | SpOther => unmodelled
  end.
