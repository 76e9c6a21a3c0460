(** The builtins of octaspire_dern_stdlib.c and the mutators of
    octaspire_dern_value.c they use.  A builtin gets the vector [a] of its
    evaluated arguments, which is on the stack. *)
From Coq Require Import NArith ZArith Bool Lia String List.
From Coq Require Import Floats.SpecFloat.
From Verif Require Import Base Vec OString Semver HMap Heap ValueOps Env Copy Leven Input.
From Verif Require Export Reader RealText ToText.
From Verif Require Printer Strtod.
Import ListNotations.
Local Open Scope N_scope.

Definition set_fret (o : option ref) : M unit := fun s => Ret (tt, with_fret s o).

(** octaspire_dern_vm_builtin_not, stdlib:5647-5686. *)
Definition b_not (a : ref) : M ref :=
  n <- nargs a ;;
  if negb (Nat.eqb n 1) then new_error
  else
    push a ;;; x <- arg a 0 ;; d <- get x ;; pop a ;;;
    match d with DBool b => alloc (DBool (negb b)) | _ => new_error end.

(** octaspire_dern_vm_builtin_return, stdlib:5688-5733. *)
Definition b_return (a : ref) : M ref :=
  n <- nargs a ;;
  if Nat.ltb 1 n then new_error
  else
    x <- (if Nat.eqb n 1 then arg a 0 else alloc DNil) ;;
    o <- read fret ;;
    match o with
    | Some _ => abort
    | None => set_fret (Some x) ;;; ret x
    end.

(** octaspire_dern_vm_builtin_vector, stdlib:5735-5766. *)
Definition b_vector (fuel : nat) (a : ref) : M ref :=
  x <- alloc (DVec []) ;; push x ;;;
  l <- vec_of a ;;
  iterM (fun y => y <- copy_atom fuel y ;; vec_push x y) l ;;;
  pop x ;;; ret x.

(** octaspire_dern_vm_builtin_exit, stdlib:5923-5964. *)
Definition set_quit (c : Z) : M unit := fun s => Ret (tt, with_quit s true c).
Definition b_exit (a : ref) : M ref :=
  l <- vec_of a ;;
  match l with
  | [] => c <- read exitCode ;; set_quit c ;;; value_true
  | [x] => d <- get x ;;
           match d with
           | DInt z => set_quit z ;;; value_true
           | _ => new_error
           end
  | _ => new_error
  end.

(** octaspire_dern_vm_builtin_doc, stdlib:5966-6033. *)
Definition doc_of (x : ref) : M ref :=
  c <- get_cell x ;; match cdoc c with Some d => ret d | None => value_nil end.
Definition b_doc (a : ref) : M ref :=
  l <- vec_of a ;;
  match l with
  | [] => new_error
  | [x] => doc_of x
  | _ => r <- alloc (DVec []) ;; push r ;;;
         iterM (fun x => d <- doc_of x ;; vec_push r d) l ;;;
         pop r ;;; ret r
  end.

(** octaspire_dern_function_get_number_of_required_arguments, value:249-280. *)
Fixpoint required_formals (l : list text) : nat :=
  match l with
  | [] => O
  | t :: r => if text_eqb t (asc ".") then O else S (required_formals r)
  end.
(** The number of required arguments given when specials and builtins are
    registered, vm:325-1700. *)
Definition special_required (p : special) : option Z :=
  match p with
  | SpDefine | SpFor => Some 3
  | SpAnd | SpOr => Some 0
  | SpIdentical | SpWhile | SpFn | SpMacro => Some 2
  | SpOther => None
  | _ => Some 1
  end%Z.
Definition builtin_required (p : builtin) : option Z :=
  match p with
  | BiExit | BiHashMap | BiQueue | BiQueueMax | BiList | BiEnvNew | BiEnvCurrent | BiEnvGlobal | BiHostArguments | BiHostVariables => Some 0
  | BiUid | BiLnAt | BiCpAt | BiDistance | BiMax | BiMin | BiFind | BiSplit => Some 2
  | BiOther => None
  | _ => Some 1
  end%Z.
(** octaspire_dern_value_get_length, value:4643-4730. *)
Definition value_length (x : ref) : M Z :=
  d <- get x ;;
  match d with
  | DNil => ret 0%Z
  | DBool _ | DInt _ | DReal _ | DChar _ => ret 1%Z
  | DStr t | DSym t | DErr t _ => ret (Z.of_nat (List.length t))
  | DVec l | DQueue l _ | DList l => ret (Z.of_nat (List.length l))
  | DMap m => ret (Z.of_nat (numElements m))
  | DEnv b _ => ret (Z.of_nat (List.length b))
  | DFun f | DMac f =>
      fs <- vec_of (fformals f) ;; names <- mapM formal_name fs ;;
      ret (Z.of_nat (required_formals names))
  | DSpecial p => match special_required p with Some z => ret z | None => unmodelled end
  | DBuiltin p => match builtin_required p with Some z => ret z | None => unmodelled end
  | DSemver v => ret (3 + Z.of_nat (List.length (pre v)) + Z.of_nat (List.length (build v)))%Z
  end.
(** octaspire_dern_vm_builtin_len, stdlib:6035-6090. *)
Definition b_len (a : ref) : M ref :=
  l <- vec_of a ;;
  match l with
  | [] => new_error
  | [x] => n <- value_length x ;; alloc (DInt (wrap32 n))
  | _ => r <- alloc (DVec []) ;; push r ;;;
         iterM (fun x => n <- value_length x ;; v <- alloc (DInt (wrap32 n)) ;; vec_push r v) l ;;;
         pop r ;;; ret r
  end.

(** octaspire_dern_vm_builtin_uid, stdlib:4793-4836: the identity of a value is
    its name in the model's heap. *)
Definition b_uid (a env : ref) : M ref :=
  push a ;;; push env ;;;
  l <- vec_of a ;;
  match l with
  | [x] => if (INT32_MAX <? Z.of_N x)%Z then abort
           else r <- alloc (DInt (Z.of_N x)) ;; pop env ;;; pop a ;;; ret r
  | _ => pop env ;;; pop a ;;; new_error
  end.

(** ** Mutation *)

(** octaspire_dern_vm_builtin_equals ("="), stdlib:3619-3690.  Assigning to a
    symbol is not modelled. *)
Definition b_set (fuel : nat) (a : ref) : M ref :=
  n <- nargs a ;;
  if Nat.ltb n 2 || Nat.ltb 3 n then new_error
  else
    push a ;;; x <- arg a 0 ;; d <- get x ;;
    match d with
    | DSym _ => unmodelled
    | _ =>
        if Nat.eqb n 2 then
          y <- arg a 1 ;; value_set fuel x y ;;; pop a ;;; ret x
        else
          k <- arg a 1 ;; v <- arg a 2 ;;
          ok <- set_collection fuel x k v ;; pop a ;;;
          if (ok : bool) then ret x else new_error
    end.

(** strtoimax with base 10 on a C string: white space, a sign, digits; values
    that do not fit are clamped. *)
Fixpoint skip_spaces (l : list N) : list N :=
  match l with
  | c :: t => if (c =? 32) || ((9 <=? c) && (c <=? 13)) then skip_spaces t else l
  | [] => []
  end.
Fixpoint digits_value (acc : Z) (l : list N) : Z :=
  match l with
  | c :: t => if (48 <=? c) && (c <=? 57) then digits_value (10 * acc + Z.of_N (c - 48))%Z t else acc
  | [] => acc
  end.
Definition strtoimax (l : list N) : Z :=
  let v := match skip_spaces l with
           | 45 :: t => (- digits_value 0 t)%Z
           | 43 :: t => digits_value 0 t
           | l => digits_value 0 l
           end in
  Z.max (- 2 ^ 63) (Z.min (2 ^ 63 - 1) v).
(** The strings that are added to and subtracted from numbers, value:2380-2412:
    [None] when there is a character other than these, which is not an error; with
    a point octaspire_dern_helpers_atof (helpers:76-97) gives the number of a token
    that is none.  atol reads as strtoimax does; the text is its own C string. *)
Definition number_char (c : N) : bool := (c =? 45) || (c =? 46) || ((48 <=? c) && (c <=? 57)).
Definition text_number (t : text) : outcome (option Z) :=
  if forallb number_char t then if existsb (N.eqb 46) t then Undef else Ret (Some (strtoimax t))
  else Ret None.
(** An int32_t plus or minus a long: computed in long (overflow is undefined) and
    then cut to 32 bits. *)
Definition long_op (z : Z) : outcome Z := if ((- 2 ^ 63 <=? z) && (z <? 2 ^ 63))%Z then Ret (wrap32 z) else Undef.
(** octaspire_dern_value_as_integer_add and _as_real_add, value:2367-2463,
    2644-2745. *)
Definition sf_add := SFadd 53 1024.
Definition sf_sub := SFsub 53 1024.
Definition sf_mul := SFmul 53 1024.
Definition sf_div := SFdiv 53 1024.
Fixpoint integer_add (fuel : nat) (self other : ref) : M unit :=
  match fuel with
  | O => nofuel
  | S f =>
      d <- get self ;; e <- get other ;;
      match d with
      | DInt x =>
          match e with
          | DInt y => z <- lift (int32_op (x + y)) ;; put self (DInt z)
          | DReal y => put self (DReal (sf_add (sf_of_Z x) y))
          | DStr t => o <- lift (text_number t) ;;
                      match o with Some y => z <- lift (long_op (x + y)) ;; put self (DInt z) | None => ret tt end
          | DVec l => iterM (integer_add f self) l
          | _ => ret tt
          end
      | _ => abort
      end
  end.
Fixpoint real_add (fuel : nat) (self other : ref) : M unit :=
  match fuel with
  | O => nofuel
  | S f =>
      d <- get self ;; e <- get other ;;
      match d with
      | DReal x =>
          match e with
          | DInt y => put self (DReal (sf_add x (sf_of_Z y)))
          | DReal y => put self (DReal (sf_add x y))
          | DStr t => o <- lift (text_number t) ;;
                      match o with Some y => put self (DReal (sf_add x (sf_of_Z y))) | None => ret tt end
          | DVec l => iterM (real_add f self) l
          | _ => ret tt
          end
      | _ => abort
      end
  end.
(** octaspire_dern_value_as_string_push_back, value:2855-2935; other values are
    printed first (ToText.v); appending a string to itself reads memory that has
    been freed. *)
Fixpoint string_push (fuel : nat) (self other : ref) : M unit :=
  match fuel with
  | O => nofuel
  | S f =>
      d <- get self ;; e <- get other ;;
      match d with
      | DStr x =>
          match e with
          | DStr y => if self =? other then undef else put self (DStr (x ++ y))
          | DSym y | DChar y => put self (DStr (x ++ y))
          | DVec l => iterM (string_push f self) l
          | _ => rd <- read readably ;; t <- heap_op (fun h => to_text rd false f h other) ;; put self (DStr (x ++ t))
          end
      | _ => abort
      end
  end.
(** octaspire_dern_value_as_hash_map_put, value:4538-4546. *)
Definition hash_map_put (fuel : nat) (self k v : ref) : M unit :=
  hk <- hash_of k ;; m <- map_of self ;; m' <- vmap_put fuel m hk k v ;; put self (DMap m').
Fixpoint put_pairs (fuel : nat) (self : ref) (l : list ref) : M bool :=
  match l with
  | [] => ret true
  | [_] => ret false
  | k :: v :: t => hash_map_put fuel self k v ;;; put_pairs fuel self t
  end.
(** octaspire_map_add_hash_map on maps keyed by values, A:7967-7977. *)
Definition put_elements (fuel : nat) (self : ref) (es : list (element ref ref)) : M unit :=
  iterM (fun e : element ref ref =>
           iterM (fun v => m <- map_of self ;; m' <- vmap_put fuel m (ehash e) (ekey e) v ;; put self (DMap m'))
                 (evals e)) es.
(** octaspire_dern_value_as_hash_map_add, value:2047-2149. *)
Definition hash_map_add (fuel : nat) (self x : ref) (y : option ref) : M bool :=
  d <- get x ;;
  match d with
  | DMap m =>
      match y with
      | Some _ => abort
      | None => if self =? x then unmodelled
                else put_elements fuel self (List.concat (buckets m)) ;;; ret true
      end
  | DVec l =>
      match y with
      | Some _ => abort
      | None => if Nat.even (List.length l) then put_pairs fuel self l else ret false
      end
  | _ =>
      match y with
      | None => ret false
      | Some v => hash_map_put fuel self x v ;;; ret true
      end
  end.
(** octaspire_dern_value_as_queue_push and _as_list_push_back, value:2151-2200. *)
Definition seq_push_atom (fuel : nat) (self x : ref) : M unit :=
  x <- copy_atom fuel x ;; seq_push self x.

(** octaspire_dern_value_as_character_add, value:2216-2287: the code of the
    character plus the integer; with another character the value becomes a string.
    The character itself is freed before it is read again. *)
Definition code_shift (t : text) (f : Z -> Z) : M text :=
  match t with
  | [] => abort
  | c :: _ => z <- lift (int32_op (f (wrap32 (Z.of_N c)))) ;; ret [Z.to_N (z mod 2 ^ 32)%Z]
  end.
Definition character_add (x y : ref) : M unit :=
  d <- get x ;; e <- get y ;;
  match d, e with
  | DChar t, DInt z => u <- code_shift t (fun c => c + z)%Z ;; put x (DChar u)
  | DChar t, DChar u => if x =? y then undef else put x (DStr (t ++ u))
  | DChar _, _ => ret tt
  | _, _ => abort
  end.
(** octaspire_dern_value_as_semver_add_or_subtract, value:2580-2642: [false] when
    it is refused, but what was done before stays done.  With a version and itself
    the loop over the identifiers of the pre-release (A:9803-9856) is over a list
    that is changed: an addition with an identifier never ends. *)
Fixpoint remove_own (n i : nat) (l : list ident) : list ident :=
  match n with
  | O => l
  | S k => match nth_error l i with
           | None => l
           | Some x => match remove_ident x l with Some l' => remove_own k (S i) l' | None => l end
           end
  end.
Definition version_change (add : bool) (x y : ref) : M bool :=
  d <- get x ;; e <- get y ;;
  match d, e with
  | DSemver v, DSemver w =>
      if x =? y then
        let q := semver_add_or_subtract v (mkSemver (major v) (minor v) (patch v) [] []) add in
        let v' := fst q in
        if negb (snd q) then put x (DSemver v') ;;; ret false
        else if add then match pre v with [] => put x (DSemver v') ;;; ret true | _ => nofuel end
        else put x (DSemver (mkSemver (major v') (minor v') (patch v') (remove_own (List.length (pre v)) 0 (pre v)) (build v))) ;;; ret true
      else let q := semver_add_or_subtract v w add in put x (DSemver (fst q)) ;;; ret (snd q)
  | DSemver _, _ => ret false
  | _, _ => abort
  end.
(** octaspire_dern_vm_builtin_plus_equals, stdlib:8036-8308; symbols as first
    argument are not modelled. *)
Definition b_plus_eq (fuel : nat) (a : ref) : M ref :=
  l <- vec_of a ;;
  match l with
  | [] => new_error
  | x :: t =>
      d <- get x ;;
      match d with
      | DReal _ => iterM (real_add fuel x) t ;;; ret x
      | DInt _ => iterM (integer_add fuel x) t ;;; ret x
      | DVec _ => iterM (vec_push x) t ;;; ret x
      | DList _ | DQueue _ _ => iterM (seq_push_atom fuel x) t ;;; ret x
      | DStr _ => iterM (string_push fuel x) t ;;; ret x
      | DMap _ =>
          match t with
          | [k] => ok <- hash_map_add fuel x k None ;; if (ok : bool) then ret x else new_error
          | [k; v] => ok <- hash_map_add fuel x k (Some v) ;; if (ok : bool) then ret x else new_error
          | _ => new_error
          end
      | DErr _ _ => ret x
      | DChar _ => match t with [] => ret x | y :: t' => character_add x y ;;; iterM (string_push fuel x) t' ;;; ret x end
      | DSemver _ => iterM (fun y => version_change true x y ;;; ret tt) t ;;; ret x
      | DSym _ => unmodelled
      | DNil | DBool _ | DEnv _ _ | DFun _ | DMac _ | DSpecial _ | DBuiltin _ => new_error
      end
  end.

(** octaspire_dern_vm_builtin_plus_plus, stdlib:8310-8358. *)
Definition one : spec_float := sf_of_Z 1.
Fixpoint incr_each (l : list ref) (last : ref) : M ref :=
  match l with
  | [] => ret last
  | x :: t =>
      d <- get x ;;
      match d with
      | DInt z => z' <- lift (int32_op (z + 1)) ;; put x (DInt z') ;;; incr_each t x
      | DReal f => put x (DReal (sf_add f one)) ;;; incr_each t x
      | _ => new_error
      end
  end.
Definition b_incr (a : ref) : M ref :=
  l <- vec_of a ;; match l with [] => new_error | x :: _ => incr_each l x end.

(** octaspire_dern_vm_builtin_minus_minus, stdlib:8360-8459. *)
Fixpoint decr_each (l : list ref) (last : ref) : M ref :=
  match l with
  | [] => ret last
  | x :: t =>
      d <- get x ;;
      match d with
      | DInt z => z' <- lift (int32_op (z - 1)) ;; put x (DInt z') ;;; decr_each t x
      | DReal f => put x (DReal (sf_sub f one)) ;;; decr_each t x
      | DQueue q max => put x (DQueue (tl q) max) ;;; decr_each t x
      | DList q => put x (DList (removelast q)) ;;; decr_each t x
      | DVec q => match q with
                  | [] => new_error
                  | _ => put x (DVec (removelast q)) ;;; decr_each t x
                  end
      | DStr s => match s with
                  | [] => new_error
                  | _ => put x (DStr (removelast s)) ;;; decr_each t x
                  end
      | _ => new_error
      end
  end.
Definition b_decr (a : ref) : M ref :=
  l <- vec_of a ;; match l with [] => new_error | x :: _ => decr_each l x end.

(** octaspire_semver_pop_back and _pop_front, A:9862-9892. *)
Definition version_pop (pop : forall X, list X -> list X) (v : semver) : semver :=
  match build v, pre v with
  | _ :: _, _ => mkSemver (major v) (minor v) (patch v) (pre v) (pop _ (build v))
  | [], _ => mkSemver (major v) (minor v) (patch v) (pop _ (pre v)) []
  end.
(** octaspire_dern_vm_builtin_pop_back and _pop_front, stdlib:7115-7320; symbols
    are not modelled. *)
Definition b_pop_back (a : ref) : M ref :=
  l <- vec_of a ;;
  match l with
  | [x] =>
      d <- get x ;;
      match d with
      | DVec q => put x (DVec (removelast q)) ;;; ret x
      | DList q => put x (DList (removelast q)) ;;; ret x
      | DQueue q max => put x (DQueue (tl q) max) ;;; ret x
      | DStr s => put x (DStr (removelast s)) ;;; ret x
      | DErr _ _ => ret x
      | DSemver v => put x (DSemver (version_pop removelast v)) ;;; ret x
      | DSym _ => unmodelled
      | _ => new_error
      end
  | _ => new_error
  end.
Definition b_pop_front (a : ref) : M ref :=
  l <- vec_of a ;;
  match l with
  | [x] =>
      d <- get x ;;
      match d with
      | DVec q => put x (DVec (tl q)) ;;; ret x
      | DList q => put x (DList (tl q)) ;;; ret x
      | DStr s => put x (DStr (tl s)) ;;; ret x
      | DErr _ _ => ret x
      | DSemver v => put x (DSemver (version_pop tl v)) ;;; ret x
      | DSym _ => unmodelled
      | _ => new_error
      end
  | _ => new_error
  end.

(** ** Arithmetic *)

(** octaspire_dern_vm_builtin_mod, stdlib:8461-8532: the remainder of C; the one
    case in which it overflows (INT32_MIN % -1) is undefined behaviour. *)
Definition b_mod (a : ref) : M ref :=
  l <- vec_of a ;;
  match l with
  | [x; y] =>
      d <- get x ;;
      match d with
      | DErr _ _ => ret x
      | DInt p =>
          e <- get y ;;
          match e with
          | DErr _ _ => ret y
          | DInt q => if (q =? 0)%Z then new_error
                      else if ((p =? INT32_MIN) && (q =? -1))%Z then undef
                      else alloc (DInt (Z.rem p q))
          | _ => new_error
          end
      | _ => new_error
      end
  | _ => new_error
  end.

(** octaspire_dern_vm_builtin_slash, stdlib:8534-8744. *)
Definition is_zero (f : spec_float) : bool := match f with S754_zero _ => true | _ => false end.
Fixpoint div_each (l : list ref) (acc : spec_float) : M ref :=
  match l with
  | [] => alloc (DReal acc)
  | x :: t =>
      d <- get x ;;
      match as_double d with
      | Some f => if is_zero f then new_error else div_each t (sf_div acc f)
      | None => if is_error_data d then ret x else new_error
      end
  end.
Definition b_div (a : ref) : M ref :=
  l <- vec_of a ;;
  match l with
  | [] => new_error
  | [x] => div_each [x] one
  | x :: t =>
      d <- get x ;;
      match as_double d with
      | Some f => div_each t f
      | None => if is_error_data d then ret x else new_error
      end
  end.

(** (int32_t)real: undefined behaviour when the value does not fit. *)
Definition sf_trunc (f : spec_float) : outcome Z :=
  match f with
  | S754_zero _ => Ret 0%Z
  | S754_finite s m e =>
      let v := match e with
               | Zneg p => (Zpos m / 2 ^ Zpos p)%Z
               | _ => (Zpos m * 2 ^ e)%Z
               end in
      int32_op (if s then (- v)%Z else v)
  | _ => Undef
  end.

(** The loop shared by octaspire_dern_vm_builtin_times (stdlib:8746-8842),
    _private_plus_numerical (8844-8940) and _private_minus_numerical
    (9619-9747): both an integer and a real result are accumulated. *)
Inductive arith := AAdd | ASub | AMul.
Definition z_arith (o : arith) : Z -> Z -> Z :=
  match o with AAdd => Z.add | ASub => Z.sub | AMul => Z.mul end.
Definition f_arith (o : arith) : spec_float -> spec_float -> spec_float :=
  match o with AAdd => sf_add | ASub => sf_sub | AMul => sf_mul end.
Fixpoint arith_each (o : arith) (l : list ref) (ints : bool) (zi : Z) (fr : spec_float) : M ref :=
  match l with
  | [] => alloc (if ints then DInt zi else DReal fr)
  | x :: t =>
      d <- get x ;;
      match d with
      | DInt z =>
          z' <- lift (int32_op (z_arith o zi z)) ;;
          arith_each o t ints z' (f_arith o fr (sf_of_Z z))
      | DReal f =>
          i <- lift (sf_trunc f) ;; z' <- lift (int32_op (z_arith o zi i)) ;;
          arith_each o t false z' (f_arith o fr f)
      | DErr _ _ => ret x
      | _ => new_error
      end
  end.
Definition b_times (a : ref) : M ref :=
  l <- vec_of a ;; arith_each AMul l true 1 one.
Definition plus_numerical (a : ref) : M ref :=
  l <- vec_of a ;; arith_each AAdd l true 0 (S754_zero false).
Definition minus_numerical (a : ref) : M ref :=
  l <- vec_of a ;;
  match l with
  | [] => alloc (DInt 0)
  | [x] =>
      d <- get x ;;
      match d with
      | DInt z => z' <- lift (int32_op (- z)) ;; alloc (DInt z')
      | DReal f => i <- lift (sf_trunc (SFopp f)) ;; alloc (DReal (SFopp f))
      | DErr _ _ => ret x
      | _ => new_error
      end
  | x :: t =>
      d <- get x ;;
      match d with
      | DInt z => arith_each ASub t true z (sf_of_Z z)
      | DReal f => i <- lift (sf_trunc f) ;; arith_each ASub t false i f
      | DErr _ _ => ret x
      | _ => new_error
      end
  end.

(** octaspire_dern_vm_builtin_private_plus_textual_string, _char and _symbol,
    stdlib:8942-9247: the first text is copied by way of its C string. *)
(** [false]: an argument of a wrong type. *)
Fixpoint append_texts (r : ref) (l : list ref) : M bool :=
  match l with
  | [] => ret true
  | x :: t =>
      d <- get x ;; e <- get r ;;
      match d, e with
      | DStr y, DStr s | DChar y, DStr s => put r (DStr (s ++ y)) ;;; append_texts r t
      | DStr y, DSym s | DChar y, DSym s | DSym y, DSym s => put r (DSym (s ++ y)) ;;; append_texts r t
      | _, _ => ret false
      end
  end.
Definition plus_text (a : ref) : M ref :=
  l <- vec_of a ;;
  match l with
  | [] => abort
  | x :: t =>
      d <- get x ;;
      d' <- match d with
            | DStr s | DChar s => s' <- lift (c_string_copy s) ;; ret (DStr s')
            | DSym s => s' <- lift (c_string_copy s) ;; ret (DSym s')
            | _ => abort
            end ;;
      r <- alloc d' ;; push r ;;;
      ok <- append_texts r t ;; pop r ;;;
      if (ok : bool) then ret r else new_error
  end.
(** octaspire_dern_vm_builtin_private_plus_semver and _minus_semver,
    stdlib:9249-9433: that an addition is refused is ignored.  [r] is new, none
    of the arguments. *)
Fixpoint change_versions (add : bool) (r : ref) (l : list ref) : M bool :=
  match l with
  | [] => ret true
  | x :: t =>
      d <- get x ;; e <- get r ;;
      match d, e with
      | DSemver w, DSemver v => put r (DSemver (fst (semver_add_or_subtract v w add))) ;;; change_versions add r t
      | _, _ => ret false
      end
  end.
Definition version_arith (add : bool) (a : ref) : M ref :=
  l <- vec_of a ;;
  match l with
  | [] => abort
  | x :: t =>
      d <- get x ;;
      match d with
      | DSemver v =>
          r <- alloc (DSemver v) ;; push r ;;;
          ok <- change_versions add r t ;; pop r ;;;
          if (ok : bool) then ret r else new_error
      | _ => abort
      end
  end.
(** octaspire_dern_vm_builtin_private_plus_vector, stdlib:9435-9513. *)
Definition plus_vector (fuel : nat) (a : ref) : M ref :=
  l <- vec_of a ;;
  match l with
  | [] => abort
  | x :: t =>
      r <- copy fuel x ;; push r ;;;
      iterM (fun y => y' <- copy fuel y ;; vec_push r y') t ;;;
      pop r ;;; ret r
  end.
(** octaspire_dern_vm_builtin_private_plus_hash_map, stdlib:9515-9617; a copy of a
    key that is a vector or a hash map ends the program. *)
Fixpoint add_copies (fuel : nat) (r : ref) (l : list ref) : M unit :=
  match l with
  | k :: v :: t =>
      k' <- copy fuel k ;; push k' ;;; v' <- copy fuel v ;; push v' ;;;
      ok <- hash_map_add fuel r k' (Some v') ;;
      if (ok : bool) then pop v' ;;; pop k' ;;; add_copies fuel r t else abort
  | _ => ret tt
  end.
Definition plus_map (fuel : nat) (a : ref) : M ref :=
  l <- vec_of a ;;
  match l with
  | [] => abort
  | x :: t =>
      if Nat.odd (List.length t) then new_error
      else r <- copy fuel x ;; push r ;;; add_copies fuel r t ;;; pop r ;;; ret r
  end.
(** octaspire_dern_vm_builtin_plus, stdlib:9838-9960. *)
Definition b_plus (fuel : nat) (a : ref) : M ref :=
  l <- vec_of a ;;
  match l with
  | [] => plus_numerical a
  | x :: _ =>
      d <- get x ;;
      match d with
      | DStr _ | DChar _ | DSym _ => plus_text a
      | DVec _ => plus_vector fuel a
      | DSemver _ => version_arith true a
      | DMap _ => plus_map fuel a
      | _ => plus_numerical a
      end
  end.

(** octaspire_dern_vm_builtin_private_minus_textual, stdlib:9749-9836 (the first
    argument may be removed from itself: its length was read before, A:5967): the
    substrings are removed from the first argument itself. *)
Fixpoint remove_texts (fuel : nat) (x : ref) (l : list ref) : M ref :=
  match l with
  | [] => ret x
  | y :: t =>
      d <- get x ;; e <- get y ;;
      match d, e with
      | DStr s, DStr u | DStr s, DChar u =>
          p <- lift (str_remove_all fuel (text_str s) u) ;;
          put x (DStr (ucs (fst p))) ;;; remove_texts fuel x t
      | _, _ => new_error
      end
  end.
(** octaspire_dern_vm_builtin_minus, stdlib:9963-10050. *)
Definition b_minus (fuel : nat) (a : ref) : M ref :=
  l <- vec_of a ;;
  match l with
  | [] => minus_numerical a
  | x :: t =>
      d <- get x ;;
      match d with
      | DStr _ => remove_texts fuel x t
      | DSemver _ => version_arith false a
      | _ => minus_numerical a
      end
  end.

(** ** Collections *)

(** octaspire_dern_vm_builtin_hash_map, stdlib:10238-10296. *)
Definition b_hash_map (fuel : nat) (a : ref) : M ref :=
  r <- alloc (DMap map_new) ;; push r ;;;
  l <- vec_of a ;; ok <- put_pairs fuel r l ;; pop r ;;;
  if (ok : bool) then ret r else new_error.
(** octaspire_dern_vm_builtin_queue, _queue_with_max_length and _list,
    stdlib:10298-10460. *)
Definition new_seq (fuel : nat) (d : data) (l : list ref) : M ref :=
  r <- alloc d ;; push r ;;; iterM (seq_push_atom fuel r) l ;;; pop r ;;; ret r.
Definition b_queue (fuel : nat) (a : ref) : M ref := l <- vec_of a ;; new_seq fuel (DQueue [] None) l.
Definition b_list (fuel : nat) (a : ref) : M ref := l <- vec_of a ;; new_seq fuel (DList []) l.
Definition b_queue_max (fuel : nat) (a : ref) : M ref :=
  l <- vec_of a ;;
  match l with
  | [] => new_error
  | x :: t =>
      d <- get x ;;
      match d with
      | DInt z => if (z <? 0)%Z then new_error
                  else new_seq fuel (DQueue [] (Some (Z.to_N z))) t
      | _ => new_error
      end
  end.

(** A hash map, the index or key [i] and the symbol [t]: the value ln@ and cp@
    look for; [None]: not found, or the arguments are wrong, stdlib:10862-10974
    (ln@) and 11405-11521 (cp@). *)
Definition map_at (fuel : nat) (m : hmap ref ref) (i t : ref) : M (option ref) :=
  d <- get t ;;
  match d with
  | DSym w =>
      if text_eqb w (asc "index") then
        e <- get i ;;
        match e with
        | DInt z => match map_get_at_index m z with
                    | Some e => v <- lift (single e) ;; ret (Some v)
                    | None => ret None
                    end
        | _ => ret None
        end
      else if text_eqb w (asc "hash") then
        hk <- hash_of i ;; o <- vmap_find fuel m hk i ;;
        match o with
        | Some e => v <- lift (single e) ;; ret (Some v)
        | None => ret None
        end
      else ret None
  | _ => ret None
  end.
(** octaspire_list_get_at (A:4700-4754) on the contents of a list (C16); outside
    it gives NULL, and the caller aborts or reads through it. *)
Definition list_at (l : list ref) (i : Z) : option ref :=
  if (i <? 0)%Z then nth_error (rev l) (Z.to_nat (- (i + 1))) else nth_error l (Z.to_nat i).
(** octaspire_dern_vm_builtin_ln_at_sign, stdlib:10765-11046. *)
Definition b_ln_at (fuel : nat) (a : ref) : M ref :=
  l <- vec_of a ;;
  match l with
  | x :: i :: t =>
      d <- get x ;;
      match d with
      | DVec q =>
          match t with
          | _ :: _ => new_error
          | [] =>
              e <- get i ;;
              match e with
              | DInt z => match norm_index (List.length q) z with
                          | Some k => match nth_error q k with Some r => ret r | None => new_error end
                          | None => new_error
                          end
              | _ => new_error
              end
          end
      | DMap m =>
          match t with
          | [w] => o <- map_at fuel m i w ;; match o with Some v => ret v | None => new_error end
          | _ => new_error
          end
      | DQueue _ _ => abort
      | DList q =>
          match t with
          | _ :: _ => new_error
          | [] =>
              e <- get i ;;
              match e with
              | DInt z => match list_at q z with Some r => ret r | None => abort end
              | _ => new_error
              end
          end
      | _ => new_error
      end
  | _ => new_error
  end.

(** The integer part of a real, if it is finite. *)
Definition sf_int (f : spec_float) : option Z :=
  match f with
  | S754_zero _ => Some 0%Z
  | S754_finite s m e =>
      let v := match e with
               | Zneg p => (Zpos m / 2 ^ Zpos p)%Z
               | _ => (Zpos m * 2 ^ e)%Z
               end in
      Some (if s then (- v)%Z else v)
  | _ => None
  end.
(** octaspire_dern_value_as_vector_get_element_at_as_number_or_unpushed_error_const
    (value:3852-3891) and the conversion of the double to a ptrdiff_t, undefined
    when it does not fit. *)
Definition number_index (d : data) : outcome (option Z) :=
  match d with
  | DInt z => Ret (Some z)
  | DReal f => match sf_int f with
               | Some z => if ((- 2 ^ 63 <=? z) && (z <? 2 ^ 63))%Z then Ret (Some z) else Undef
               | None => Undef
               end
  | _ => Ret None
  end.
(** The characters of cp@ with a range, stdlib:11209-11243: the vector [r] is not
    on the stack while the characters are allocated. *)
Fixpoint cp_chars (r : ref) (cs : list N) : M unit :=
  match cs with
  | [] => ret tt
  | c :: t => k <- alloc (DChar [c]) ;; vec_push r k ;;; cp_chars r t
  end.
(** The same for vectors, stdlib:11373-11398: the elements [n] of them from [i]
    on; past the end NULL is copied. *)
Fixpoint cp_elements (fuel : nat) (x r : ref) (n i : nat) : M unit :=
  match n with
  | O => ret tt
  | S k =>
      l <- vec_of x ;;
      match nth_error l i with
      | None => undef
      | Some y => y' <- copy fuel y ;; vec_push r y' ;;; cp_elements fuel x r k (S i)
      end
  end.
(** octaspire_dern_vm_value_as_semver_create_value_for_element_at, vm:2303-2408:
    the identifiers of the pre-release are all its first one; abs(INT32_MIN) is
    undefined. *)
Definition version_at (v : semver) (z : Z) : M ref :=
  let n := (3 + List.length (pre v) + List.length (build v))%nat in
  if (z =? INT32_MIN)%Z then undef
  else if (Z.of_nat n <=? Z.abs z)%Z then new_error
  else
    match Z.to_nat (if (z <? 0)%Z then Z.of_nat n + z else z)%Z with
    | 0%nat => alloc (DInt (wrap32 (Z.of_N (major v))))
    | 1%nat => alloc (DInt (wrap32 (Z.of_N (minor v))))
    | 2%nat => alloc (DInt (wrap32 (Z.of_N (patch v))))
    | S (S (S k)) =>
        if Nat.ltb k (List.length (pre v)) then
          match pre v with
          | INum m :: _ => alloc (DInt (wrap32 (Z.of_N m)))
          | ILex t :: _ => t' <- lift (c_string_copy t) ;; alloc (DStr t')
          | [] => abort
          end
        else match nth_error (build v) (k - List.length (pre v)) with
             | Some t => t' <- lift (c_string_copy t) ;; alloc (DStr t')
             | None => new_error
             end
    end.
(** octaspire_dern_vm_builtin_cp_at_sign, stdlib:11048-11700.  From a later to an earlier element of a vector the loop
    runs past the end of the vector. *)
Definition b_cp_at (fuel : nat) (a : ref) : M ref :=
  l <- vec_of a ;;
  match l with
  | x :: i :: t =>
      d <- get x ;;
      match d with
      | DStr s | DSym s =>
          match t with
          | _ :: _ :: _ => new_error
          | _ =>
              e <- get i ;; o <- lift (number_index e) ;;
              match o with
              | None => new_error
              | Some i1 =>
                  o <- match t with [] => ret (Some i1) | j :: _ => e <- get j ;; lift (number_index e) end ;;
                  match o with
                  | None => new_error
                  | Some i2 =>
                      match str_index (text_str s) i1, str_index (text_str s) i2 with
                      | (k1, true), (k2, true) =>
                          if (i1 =? i2)%Z then c <- lift (str_get (text_str s) i1) ;; alloc (DChar [c])
                          else
                            r <- alloc (DVec []) ;;
                            if (k2 <? k1)%Z then abort
                            else cp_chars r (firstn (Z.to_nat (k2 - k1) + 1) (skipn (Z.to_nat k1) s)) ;;; ret r
                      | _, _ => new_error
                      end
                  end
              end
          end
      | DVec q =>
          match t with
          | _ :: _ :: _ => new_error
          | _ =>
              e <- get i ;; o <- lift (number_index e) ;;
              match o with
              | None => new_error
              | Some i1 =>
                  match norm_index (List.length q) i1 with
                  | None => new_error
                  | Some k1 =>
                      o <- match t with [] => ret (Some i1) | j :: _ => e <- get j ;; lift (number_index e) end ;;
                      match o with
                      | None => new_error
                      | Some i2 =>
                          match norm_index (List.length q) i2 with
                          | None => new_error
                          | Some k2 =>
                              if (i1 =? i2)%Z then
                                match nth_error q k1 with Some y => copy fuel y | None => undef end
                              else
                                r <- alloc (DVec []) ;;
                                cp_elements fuel x r (if Nat.leb k1 k2 then S (k2 - k1) else S (List.length q)) k1 ;;; ret r
                          end
                      end
                  end
              end
          end
      | DMap m =>
          match t with
          | [w] => o <- map_at fuel m i w ;; match o with Some v => copy fuel v | None => new_error end
          | _ => new_error
          end
      | DQueue _ _ => abort
      | DList q =>
          match t with
          | _ :: _ => new_error
          | [] =>
              e <- get i ;;
              match e with
              | DInt z => match list_at q z with Some r => copy fuel r | None => undef end
              | _ => new_error
              end
          end
      | DNil => match t with [] => alloc DNil | _ => new_error end
      | DInt bits =>
          match t with
          | _ :: _ => new_error
          | [] =>
              e <- get i ;;
              match e with
              | DInt z =>
                  if ((z <? -32) || (31 <? z))%Z then new_error
                  else alloc (DInt (if Z.testbit (bits mod 2 ^ 32) (if (0 <=? z)%Z then z else 32 + z)%Z then 1 else 0)%Z)
              | _ => new_error
              end
          end
      | DSemver v =>
          match t with
          | _ :: _ => new_error
          | [] => e <- get i ;; match e with DInt z => version_at v z | _ => new_error end
          end
      | _ => new_error
      end
  | _ => new_error
  end.

(** ** Searching and measuring *)

(** The best of the arguments, octaspire_dern_vm_builtin_max (stdlib:7443-7496)
    and _min (7498-7551). *)
Fixpoint best_each (better : heap -> ref -> ref -> outcome bool) (best : ref) (l : list ref) : M ref :=
  match l with
  | [] => ret best
  | y :: t => b <- heap_op (fun h => better h y best) ;; best_each better (if (b : bool) then y else best) t
  end.
Definition b_max (fuel : nat) (a : ref) : M ref :=
  l <- vec_of a ;; match l with x :: y :: t => best_each (vgreater fuel) x (y :: t) | _ => new_error end.
Definition b_min (fuel : nat) (a : ref) : M ref :=
  l <- vec_of a ;; match l with x :: y :: t => best_each (vless fuel) x (y :: t) | _ => new_error end.

(** octaspire_dern_vm_builtin_starts_with_question_mark, stdlib:3560-3611. *)
Definition b_starts_with (a : ref) : M ref :=
  l <- vec_of a ;;
  match l with
  | [x; y] =>
      push a ;;; d <- get x ;; e <- get y ;;
      match d, e with
      | DStr s, DStr t => pop a ;;; alloc (DBool (str_starts_with s t))
      | _, _ => pop a ;;; value_false
      end
  | _ => new_error
  end.

(** octaspire_dern_vm_builtin_to_real, stdlib:6365-6454. *)
Definition b_to_real (a : ref) : M ref :=
  l <- vec_of a ;;
  match l with
  | [x] =>
      d <- get x ;;
      match as_double d with
      | Some f => alloc (DReal f)
      | None =>
          match d with
          | DChar s => alloc (DReal (match s with c :: _ => sf_of_Z (Z.of_N c) | [] => S754_zero false end))
          | DStr s | DSym s =>
              p <- lift (str_get_c_string (text_str s)) ;; alloc (DReal (Strtod.strtod (cstr (snd p))))
          | _ => new_error
          end
      end
  | _ => new_error
  end.

(** octaspire_dern_vm_builtin_to_integer, stdlib:6456-6540.  An integer is
    converted to double and back, which changes nothing. *)
Definition b_to_integer (a : ref) : M ref :=
  l <- vec_of a ;;
  match l with
  | [x] =>
      d <- get x ;;
      match d with
      | DInt z => alloc (DInt z)
      | DReal f => z <- lift (sf_trunc f) ;; alloc (DInt z)
      | DChar s => alloc (DInt (match s with c :: _ => wrap32 (Z.of_N c) | [] => 0%Z end))
      | DStr s | DSym s =>
          p <- lift (str_get_c_string (text_str s)) ;; alloc (DInt (wrap32 (strtoimax (cstr (snd p)))))
      | _ => new_error
      end
  | _ => new_error
  end.

(** octaspire_dern_vm_builtin_to_string, stdlib:6319-6363. *)
Definition b_to_string (fuel : nat) (a : ref) : M ref :=
  l <- vec_of a ;;
  match l with
  | [] => new_error
  | _ => rd <- read readably ;; ts <- heap_op (fun h => omap (to_text rd false fuel h) l) ;; alloc (DStr (List.concat ts))
  end.

(** The format strings of string-format, print and println, stdlib:6232-6312 and
    6617-6688: a character, or the text of an argument in the place of "{}".  A
    quote keeps the next "{" from being the start of "{}" unless it follows a
    quote itself; the quotes are characters of the result.  [prev]: prevChar,
    [k]: fmtValueIndex, [n]: the number of arguments; [false]: too few of them. *)
Inductive piece := PChar (c : N) | PArg (k : nat).
Definition add_piece (p : piece) (q : list piece * bool) : list piece * bool := (p :: fst q, snd q).
Fixpoint pieces (n k : nat) (prev : N) (l : text) : list piece * bool :=
  match l with
  | [] => ([], true)
  | c :: t =>
      if (c =? 39) && (prev =? 39) then add_piece (PChar 39) (pieces n k 0 t)
      else if (c =? 123) && negb (prev =? 39) then
        match t with
        | 125 :: t' => if Nat.leb n k then ([], false) else add_piece (PArg k) (pieces n (S k) c t')
        | _ => add_piece (PChar c) (pieces n k c t)
        end
      else add_piece (PChar c) (pieces n k c t)
  end.
(** octaspire_dern_vm_builtin_string_format, stdlib:6181-6318. *)
Definition piece_text (rd : bool) (fuel : nat) (h : heap) (l : list ref) (p : piece) : outcome text :=
  match p with
  | PChar c => Ret [c]
  | PArg k => match nth_error l k with Some x => to_text rd true fuel h x | None => Abort end
  end.
Definition b_string_format (fuel : nat) (a : ref) : M ref :=
  l <- vec_of a ;;
  match l with
  | [] => new_error
  | x :: t =>
      rd <- read readably ;;
      match t with
      | [] => u <- heap_op (fun h => to_text rd false fuel h x) ;; alloc (DStr u)
      | _ =>
          d <- get x ;;
          match d with
          | DStr s =>
              let q := pieces (List.length l) 1 0 s in
              ts <- heap_op (fun h => omap (piece_text rd fuel h l) (fst q)) ;;
              if snd q then alloc (DStr (List.concat ts)) else new_error
          | _ => new_error
          end
      end
  end.
(** printf("%s") of the C string of a text: its octets. *)
Definition octets_of (t : text) : outcome (list N) :=
  obind (str_get_c_string (text_str t)) (fun p => Ret (cstr (snd p))).
Definition write_out (o : list N) : M unit := fun s => Ret (tt, with_output s (output s ++ o)).
(** octaspire_dern_vm_builtin_print, stdlib:6591-6691; printf("%c", (char)c)
    writes the last octet of [c].  What has been printed before an argument is
    found to be missing stays printed. *)
Definition piece_octets (rd : bool) (fuel : nat) (h : heap) (l : list ref) (p : piece) : outcome (list N) :=
  match p with
  | PChar c => Ret [c mod 256]
  | PArg k => match nth_error l k with Some x => obind (to_text rd false fuel h x) octets_of | None => Abort end
  end.
Definition b_print (fuel : nat) (a : ref) : M ref :=
  l <- vec_of a ;;
  match l with
  | [] => new_error
  | x :: t =>
      d <- get x ;; rd <- read readably ;;
      match d, t with
      | DStr s, _ :: _ =>
          let q := pieces (List.length l) 1 0 s in
          o <- heap_op (fun h => omap (piece_octets rd fuel h l) (fst q)) ;;
          write_out (List.concat o) ;;;
          if snd q then value_true else new_error
      | _, _ => o <- heap_op (fun h => obind (to_text rd false fuel h x) octets_of) ;; write_out o ;;; value_true
      end
  end.
(** octaspire_dern_vm_builtin_println, stdlib:6693-6713. *)
Definition b_println (fuel : nat) (a : ref) : M ref :=
  l <- vec_of a ;;
  match l with
  | [] => write_out [10] ;;; value_true
  | _ => r <- b_print fuel a ;; write_out [10] ;;; ret r
  end.
(** octaspire_dern_vm_builtin_print_readably, stdlib:6542-6589. *)
Definition set_readably (b : bool) : M unit := fun s => Ret (tt, with_readably s b).
Definition b_print_readably (a : ref) : M ref :=
  l <- vec_of a ;;
  match l with
  | [] => rd <- read readably ;; alloc (DBool rd)
  | [x] =>
      push a ;;; d <- get x ;;
      match d with
      | DBool b => set_readably b ;;; pop a ;;; rd <- read readably ;; alloc (DBool rd)
      | _ => pop a ;;; new_error
      end
  | _ => new_error
  end.

(** octaspire_dern_value_is_text and _as_text_get_string_const, value:1767-1773,
    3416-3460. *)
Definition as_text (d : data) : option text :=
  match d with DStr s | DSym s | DChar s => Some s | _ => None end.
(** octaspire_dern_vm_builtin_distance, stdlib:7328-7441. *)
Definition b_distance (a : ref) : M ref :=
  l <- vec_of a ;;
  match l with
  | [x; y] =>
      d <- get x ;; e <- get y ;;
      match as_double d, as_double e with
      | Some f, Some g => alloc (DReal (SFabs (sf_sub f g)))
      | None, None =>
          match as_text d, as_text e with
          | Some s, Some t => alloc (DInt (wrap32 (Z.of_nat (levenshtein s t))))
          | _, _ => new_error
          end
      | _, _ => new_error
      end
  | _ => new_error
  end.

(** octaspire_dern_vm_builtin_sqrt, stdlib:7899-7963; sqrt is correctly rounded
    (IEEE 754). *)
Definition b_sqrt (a : ref) : M ref :=
  l <- vec_of a ;;
  match l with
  | [x] =>
      d <- get x ;;
      match as_double d with
      | Some f => if SFltb f (S754_zero false) then new_error else alloc (DReal (SFsqrt 53 1024 f))
      | None => new_error
      end
  | _ => new_error
  end.

(** octaspire_dern_vm_builtin_character, stdlib:11899-11998. *)
Definition b_character (a : ref) : M ref :=
  l <- vec_of a ;;
  match l with
  | [x] =>
      d <- get x ;;
      match d with
      | DInt z => if (z <? 0)%Z then new_error else alloc (DChar [Z.to_N z])
      | DReal f => z <- lift (sf_trunc f) ;; if (z <? 0)%Z then new_error else alloc (DChar [Z.to_N z])
      | DStr s | DSym s | DChar s =>
          if text_eqb s (asc "copyright sign") then alloc (DChar [169])
          else if text_eqb s (asc "greek small letter lambda") then alloc (DChar [955])
          else new_error
      | _ => new_error
      end
  | _ => new_error
  end.

(** octaspire_dern_vm_builtin_abort, stdlib:4838-4869: what it prints is not
    modelled. *)
Definition b_abort (a : ref) : M ref :=
  l <- vec_of a ;; match l with [_] => abort | _ => new_error end.

(** octaspire_dern_vm_helper_create_new_value_vector_of_integers_from_vector_of_size_t,
    vm:4693-4739. *)
Definition new_ints (l : list nat) : M ref :=
  r <- alloc (DVec []) ;; push r ;;;
  iterM (fun i => k <- alloc (DInt (wrap32 (Z.of_nat i))) ;; vec_push r k) l ;;;
  pop r ;;; ret r.
(** octaspire_string_find_string (A:6809-6856) and, for a single character,
    octaspire_string_find_char (A:6689-6725): the positions where [t] occurs;
    [None]: NULL. *)
Fixpoint positions_of (i : nat) (s t : text) : list nat :=
  match s with
  | [] => []
  | _ :: r => (if check_match s t then [i] else []) ++ positions_of (S i) r t
  end.
Definition find_string (s t : text) : option (list nat) :=
  match t with [] => None | _ => Some (positions_of 0 s t) end.
Definition find_char (s c : text) : option (list nat) :=
  match c with [] => None | x :: _ => Some (positions_of 0 s [x]) end.
Definition ints_or (o : option (list nat)) (none : M ref) : M ref :=
  match o with Some l => new_ints l | None => none end.
(** The indices of the elements of a vector equal to [k], vm:5032-5059. *)
Fixpoint find_elements (fuel : nat) (r k : ref) (i : nat) (l : list ref) : M unit :=
  match l with
  | [] => ret tt
  | y :: t =>
      b <- heap_op (fun h => vequal fuel h y k) ;;
      (if (b : bool) then n <- alloc (DInt (wrap32 (Z.of_nat i))) ;; vec_push r n else ret tt) ;;;
      find_elements fuel r k (S i) t
  end.
(** octaspire_dern_vm_find_from_value, vm:4741-5116.  Searching
    an environment for anything but a symbol is not modelled. *)
Definition find_from (fuel : nat) (x k : ref) : M ref :=
  d <- get x ;; e <- get k ;;
  match d with
  | DStr s =>
      match e with
      | DChar c => ints_or (find_char s c) abort
      | DStr t => ints_or (find_string s t) (alloc (DVec []))
      | DSym t => ints_or (find_string s t) abort
      | DInt z => ints_or (find_string s (signed_decimal z)) abort
      | DReal f => t <- lift (g_text f) ;; ints_or (find_string s t) abort
      | _ => new_error
      end
  | DSym s =>
      match e with
      | DChar c => ints_or (find_char s c) abort
      | DStr t | DSym t => ints_or (find_string s t) abort
      | DInt z => ints_or (find_string s (signed_decimal z)) abort
      | DReal f => t <- lift (g_text f) ;; ints_or (find_string s t) abort
      | _ => new_error
      end
  | DVec l => r <- alloc (DVec []) ;; push r ;;; find_elements fuel r k 0 l ;;; pop r ;;; ret r
  | DMap m =>
      hk <- hash_of k ;; o <- vmap_find fuel m hk k ;;
      match o with Some e => lift (single e) | None => value_nil end
  | DEnv _ _ =>
      match e with
      | DSym t => o <- env_get x t ;; match o with Some r => ret r | None => value_nil end
      | _ => unmodelled
      end
  | _ => new_error
  end.
(** octaspire_dern_vm_builtin_find, stdlib:10033-10107. *)
Definition b_find (fuel : nat) (a env : ref) : M ref :=
  push a ;;; push env ;;;
  l <- vec_of a ;;
  match l with
  | [x; k] => r <- find_from fuel x k ;; pop env ;;; pop a ;;; ret r
  | x :: k :: t =>
      r <- alloc (DVec []) ;; push r ;;;
      iterM (fun k => v <- find_from fuel x k ;; vec_push r v) (k :: t) ;;;
      pop r ;;; pop env ;;; pop a ;;; ret r
  | _ => pop env ;;; pop a ;;; new_error
  end.

(** octaspire_dern_vm_builtin_split, stdlib:10109-10236. *)
Definition b_split (a : ref) : M ref :=
  l <- vec_of a ;;
  match l with
  | [x; y] =>
      d <- get x ;; e <- get y ;;
      match d with
      | DStr s =>
          match e with
          | DChar c =>
              r <- alloc (DVec []) ;; push r ;;;
              delim <- lift (c_string_copy c) ;; ts <- lift (str_split (text_str s) delim) ;;
              iterM (fun t => k <- alloc (DStr t) ;; vec_push r k) ts ;;;
              pop r ;;; ret r
          | _ => new_error
          end
      | _ => new_error
      end
  | _ => new_error
  end.

(** ** Taking away in place *)

(** octaspire_dern_value_as_integer_subtract and _as_real_subtract,
    value:2474-2578, 2746-2845. *)
Fixpoint integer_sub (fuel : nat) (self other : ref) : M unit :=
  match fuel with
  | O => nofuel
  | S f =>
      d <- get self ;; e <- get other ;;
      match d with
      | DInt x =>
          match e with
          | DInt y => z <- lift (int32_op (x - y)) ;; put self (DInt z)
          | DReal y => put self (DReal (sf_sub (sf_of_Z x) y))
          | DStr t => o <- lift (text_number t) ;;
                      match o with Some y => z <- lift (long_op (x - y)) ;; put self (DInt z) | None => ret tt end
          | DVec l => iterM (integer_sub f self) l
          | _ => ret tt
          end
      | _ => abort
      end
  end.
Fixpoint real_sub (fuel : nat) (self other : ref) : M unit :=
  match fuel with
  | O => nofuel
  | S f =>
      d <- get self ;; e <- get other ;;
      match d with
      | DReal x =>
          match e with
          | DInt y => put self (DReal (sf_sub x (sf_of_Z y)))
          | DReal y => put self (DReal (sf_sub x y))
          | DStr t => o <- lift (text_number t) ;;
                      match o with Some y => put self (DReal (sf_sub x (sf_of_Z y))) | None => ret tt end
          | DVec l => iterM (real_sub f self) l
          | _ => ret tt
          end
      | _ => abort
      end
  end.
(** The inner loop of -= (stdlib:6903-6923) and -== (7082-7102) on the vector [x]
    from index [j] on; [n]: the number of rounds, which is the number of
    elements at the start. *)
Fixpoint remove_where (same : heap -> ref -> outcome bool) (x : ref) (n j : nat) : M unit :=
  match n with
  | O => ret tt
  | S n' =>
      l <- vec_of x ;;
      match nth_error l j with
      | None => ret tt
      | Some v =>
          b <- heap_op (fun h => same h v) ;;
          if (b : bool) then put x (DVec (firstn j l ++ skipn (S j) l)) ;;; remove_where same x n' j
          else remove_where same x n' (S j)
      end
  end.
(** The strings and characters [l] are removed from the string [x]; [false]: one
    is neither, stdlib:6928-6949.  [x] may be among them (A:5967). *)
Fixpoint remove_each_text (fuel : nat) (x : ref) (l : list ref) : M bool :=
  match l with
  | [] => ret true
  | y :: t =>
      d <- get x ;; e <- get y ;;
      match d with
      | DStr s =>
          match e with
          | DStr u | DChar u =>
              p <- lift (str_remove_all fuel (text_str s) u) ;;
              put x (DStr (ucs (fst p))) ;;; remove_each_text fuel x t
          | _ => ret false
          end
      | _ => abort
      end
  end.
(** The keys [l] are removed from the map [x]; [false]: one is not there. *)
Fixpoint remove_keys (fuel : nat) (x : ref) (l : list ref) : M bool :=
  match l with
  | [] => ret true
  | k :: t =>
      hk <- hash_of k ;; m <- map_of x ;; o <- vmap_find fuel m hk k ;;
      match o with
      | None => ret false
      | Some _ => m' <- vmap_remove fuel m hk k ;; put x (DMap m') ;;; remove_keys fuel x t
      end
  end.
(** octaspire_dern_value_as_character_subtract, value:2289-2365. *)
Definition character_sub (x y : ref) : M unit :=
  d <- get x ;; e <- get y ;;
  match d, e with
  | DChar t, DInt z => u <- code_shift t (fun c => c - z)%Z ;; put x (DChar u)
  | DChar (c :: _), DChar (c' :: _) => put x (DChar [Z.to_N ((Z.of_N c - Z.of_N c') mod 2 ^ 32)%Z])
  | DChar _, DChar _ => abort
  | DChar _, _ => ret tt
  | _, _ => abort
  end.
(** Subtracting versions until it is refused, stdlib:6964-6984. *)
Fixpoint subtract_versions (x : ref) (l : list ref) : M bool :=
  match l with
  | [] => ret true
  | y :: t => ok <- version_change false x y ;; if (ok : bool) then subtract_versions x t else ret false
  end.
(** octaspire_dern_vm_builtin_minus_equals, stdlib:6811-7016.  With a character
    and more than two arguments octaspire_dern_value_as_string_pop_back_ucs_character
    refuses the character and the program ends. *)
Definition b_minus_eq (fuel : nat) (a : ref) : M ref :=
  l <- vec_of a ;;
  match l with
  | [] => new_error
  | x :: t =>
      d <- get x ;;
      match d with
      | DReal _ => iterM (real_sub fuel x) t ;;; ret x
      | DInt _ => iterM (integer_sub fuel x) t ;;; ret x
      | DVec _ =>
          iterM (fun y => q <- vec_of x ;; remove_where (fun h v => vequal fuel h y v) x (List.length q) 0) t ;;; ret x
      | DStr _ => ok <- remove_each_text fuel x t ;; if (ok : bool) then ret x else new_error
      | DMap _ => ok <- remove_keys fuel x t ;; if (ok : bool) then ret x else new_error
      | DChar _ =>
          match t with
          | [] => ret x
          | [y] => character_sub x y ;;; ret x
          | y :: _ => character_sub x y ;;; abort
          end
      | DSemver _ => ok <- subtract_versions x t ;; if (ok : bool) then ret x else new_error
      | DErr _ _ => ret x
      | _ => new_error
      end
  end.
(** octaspire_dern_vm_builtin_minus_equals_equals, stdlib:7018-7113: identity is
    compared. *)
Definition b_minus_eq_eq (a : ref) : M ref :=
  l <- vec_of a ;;
  match l with
  | [] => new_error
  | x :: t =>
      d <- get x ;;
      match d with
      | DVec _ => iterM (fun y => q <- vec_of x ;; remove_where (fun _ v => Ret (y =? v)) x (List.length q) 0) t ;;; ret x
      | DErr _ _ => ret x
      | _ => new_error
      end
  end.

(** octaspire_dern_vm_builtin_env_new, _env_current, _env_global,
    stdlib:6722-6811. *)
Definition b_env_new (a : ref) : M ref :=
  l <- vec_of a ;;
  match l with
  | [] => alloc (DEnv [] None)
  | [x] => d <- get x ;;
           match d with DEnv _ _ => alloc (DEnv [] (Some x)) | _ => new_error end
  | _ => new_error
  end.
Definition b_env_current (a env : ref) : M ref :=
  l <- vec_of a ;; match l with [] => ret env | _ => new_error end.
Definition b_env_global (a : ref) : M ref :=
  l <- vec_of a ;; match l with [] => read genv | _ => new_error end.

(** The type predicates, stdlib:11759-12138. *)
Definition b_is (tags : list Z) (a : ref) : M ref :=
  l <- vec_of a ;;
  match l with
  | [x] => d <- get x ;; alloc (DBool (existsb (Z.eqb (tag d)) tags))
  | _ => new_error
  end.

(** octaspire_dern_vm_builtin_copy, stdlib:12140-12478 (C data is not modelled).
    The loops with a predicate read the vector or string being copied anew each
    time, through [collectionVal], whose contents the predicate may change. *)
Fixpoint copy_filtered (fuel : nat) (f : nat) (ev : evaluator) (env src res p : ref) (i : nat) : M bool :=
  match f with
  | O => nofuel
  | S f' =>
      l <- vec_of src ;;
      match nth_error l i with
      | None => ret true
      | Some x =>
          cv <- alloc (DVec []) ;; push cv ;;;
          vec_push cv p ;;; vec_push cv x ;;;
          k <- alloc (DInt (wrap32 (Z.of_nat i))) ;; vec_push cv k ;;;
          o <- ev cv env ;; r <- need o ;; pop cv ;;;
          d <- get r ;;
          match d with
          | DBool b =>
              (if b then x' <- copy fuel x ;; vec_push res x' else ret tt) ;;;
              copy_filtered fuel f' ev env src res p (S i)
          | _ => ret false
          end
      end
  end.
(** With a predicate, strings, stdlib:12283-12377: the string built so far is
    [acc]; [None]: the predicate did not give a boolean. *)
Fixpoint copy_filtered_str (f : nat) (ev : evaluator) (env src p : ref) (i : nat) (acc : text) : M (option text) :=
  match f with
  | O => nofuel
  | S f' =>
      d <- get src ;;
      match d with
      | DStr s =>
          match nth_error s i with
          | None => ret (Some acc)
          | Some c =>
              x <- alloc (DChar [c]) ;; push x ;;;
              cv <- alloc (DVec []) ;; push cv ;;;
              vec_push cv p ;;; vec_push cv x ;;;
              k <- alloc (DInt (wrap32 (Z.of_nat i))) ;; vec_push cv k ;;;
              o <- ev cv env ;; r <- need o ;; pop cv ;;;
              d <- get r ;;
              match d with
              | DBool b =>
                  pop x ;;;
                  if (b : bool) then
                    d <- get src ;;
                    match d with
                    | DStr s => c <- lift (str_get (text_str s) (Z.of_nat i)) ;;
                                copy_filtered_str f' ev env src p (S i) (ucs (str_push_back (text_str acc) c))
                    | _ => undef
                    end
                  else copy_filtered_str f' ev env src p (S i) acc
              | _ => pop x ;;; ret None
              end
          end
      | _ => undef
      end
  end.
Definition b_copy (fuel : nat) (ev : evaluator) (a env : ref) : M ref :=
  l <- vec_of a ;;
  match l with
  | [x] =>
      d <- get x ;;
      match d with
      | DVec _ =>
          r <- alloc (DVec []) ;; push r ;;;
          q <- vec_of x ;; iterM (fun y => y' <- copy fuel y ;; vec_push r y') q ;;;
          pop r ;;; ret r
      | DStr s => alloc (DStr s)
      | DInt z => alloc (DInt z)
      | _ => new_error
      end
  | [x; p] =>
      pd <- get p ;;
      match pd with
      | DFun _ =>
          d <- get x ;;
          match d with
          | DVec _ =>
              r <- alloc (DVec []) ;; push r ;;;
              o <- copy_filtered fuel fuel ev env x r p 0 ;; pop r ;;;
              if (o : bool) then ret r else new_error
          | DStr _ =>
              o <- copy_filtered_str fuel ev env x p 0 [] ;;
              match o with Some s => alloc (DStr s) | None => new_error end
          | _ => new_error
          end
      | _ => new_error
      end
  | _ => new_error
  end.

(** octaspire_dern_vm_builtin_read_and_eval_string, stdlib:6139-6181, and
    octaspire_dern_vm_read_from_c_string_and_eval_in_global_environment,
    vm:4377-4420: the C string of the argument is copied and then read.  That the
    result is not NULL is checked by the caller (vm:3960). *)
Definition b_read_eval_string (ev : evaluator) (a : ref) : M ref :=
  l <- vec_of a ;;
  match l with
  | [x] =>
      d <- get x ;;
      match d with
      | DStr s =>
          t <- lift (c_string_copy s) ;;
          o <- read_eval_by ev (input_new t) ;; need o
      | _ => new_error
      end
  | _ => new_error
  end.

(** octaspire_helpers_path_to_buffer, A:2170-2231: the file that is at the path
    when the function is called; without it, NULL. *)
Definition read_file (path : list N) : M (option (list N)) := read (fun s => o_files (outside s) (nextAddr s) path).
(** octaspire_dern_vm_builtin_read_and_eval_path, stdlib:6095-6137, and
    octaspire_dern_vm_read_from_path_and_eval_in_global_environment, vm:4422-4442:
    the path is the C string of the argument; no file, or an empty one, is an
    error ("No input").  That the result is not NULL is checked by the caller
    (vm:3960). *)
Definition b_read_eval_path (ev : evaluator) (a : ref) : M ref :=
  l <- vec_of a ;;
  match l with
  | [x] =>
      d <- get x ;;
      match d with
      | DStr s =>
          p <- lift (str_get_c_string (text_str s)) ;;
          f <- read_file (cstr (snd p)) ;;
          match f with
          | None | Some [] => new_error
          | Some b => t <- lift (octets_text b) ;; o <- read_eval_by ev (input_new t) ;; need o
          end
      | _ => new_error
      end
  | _ => new_error
  end.

(** octaspire_dern_vm_builtin_host_get_command_line_arguments and
    _get_environment_variables, stdlib:12480-12580: a new vector with a new string
    for each; [what] selects the vector of the machine. *)
Definition b_host_strings (what : outer -> list text) (a : ref) : M ref :=
  l <- vec_of a ;;
  match l with
  | [] =>
      v <- alloc (DVec []) ;; push v ;;;
      ts <- read (fun s => what (outside s)) ;;
      iterM (fun t => t <- lift (c_string_copy t) ;; y <- alloc (DStr t) ;; vec_push v y) ts ;;;
      pop v ;;; ret v
  | _ => new_error
  end.

(** The call of the C function of a builtin. *)
Definition builtin_call (fuel : nat) (ev : evaluator) (p : builtin) (a env : ref) : M ref :=
  match p with
  | BiSet => b_set fuel a | BiReturn => b_return a | BiNot => b_not a | BiVector => b_vector fuel a
  | BiExit => b_exit a | BiDoc => b_doc a | BiLen => b_len a | BiUid => b_uid a env
  | BiPlusEq => b_plus_eq fuel a | BiIncr => b_incr a | BiDecr => b_decr a
  | BiMod => b_mod a | BiDiv => b_div a | BiTimes => b_times a | BiPlus => b_plus fuel a | BiMinus => b_minus fuel a
  | BiHashMap => b_hash_map fuel a | BiQueue => b_queue fuel a | BiQueueMax => b_queue_max fuel a | BiList => b_list fuel a
  | BiCopy => b_copy fuel ev a env
  | BiEnvNew => b_env_new a | BiEnvCurrent => b_env_current a env | BiEnvGlobal => b_env_global a
  | BiLnAt => b_ln_at fuel a | BiPopBack => b_pop_back a | BiPopFront => b_pop_front a
  | BiIs tags => b_is tags a
  | BiMax => b_max fuel a | BiMin => b_min fuel a | BiStartsWith => b_starts_with a
  | BiToReal => b_to_real a | BiToInteger => b_to_integer a | BiToString => b_to_string fuel a
  | BiDistance => b_distance a | BiCharacter => b_character a | BiFind => b_find fuel a env | BiSplit => b_split a
  | BiCpAt => b_cp_at fuel a | BiSqrt => b_sqrt a | BiAbort => b_abort a
  | BiMinusEq => b_minus_eq fuel a | BiMinusEqEq => b_minus_eq_eq a
  | BiStringFormat => b_string_format fuel a | BiPrint => b_print fuel a | BiPrintln => b_println fuel a
  | BiPrintReadably => b_print_readably a
  | BiReadEvalString => b_read_eval_string ev a
  | BiReadEvalPath => b_read_eval_path ev a
  | BiHostArguments => b_host_strings o_arguments a | BiHostVariables => b_host_strings o_variables a
  | BiOther => unmodelled
  end.
