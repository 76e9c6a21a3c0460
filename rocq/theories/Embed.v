(** Model of the interface for programs that embed the machine: the functions of
    octaspire_dern_vm.h with which a host makes values, keeps them on the stack,
    evaluates and calls (/repo/dev/src/octaspire_dern_vm.c).  Simplifications:
    functions that make a value take its content (no octaspire_string_t, no
    printf formats); files are a function from paths to octets; ports, C data,
    host functions (create_and_register_new_builtin, _special), libraries and
    user data are not modelled. *)
From Coq Require Import NArith ZArith Bool Lia String List.
From Coq Require Import Floats.SpecFloat.
From Verif Require Import Base OString Input Lexer HMap Heap ValueOps Env Copy Builtins ToText Eval Read Repl Printer.
Import ListNotations.
Local Open Scope N_scope.

(** What the host asks for; each constructor stands for one function. *)
Inductive atom :=
| Nil | Boolean (b : bool) | Integer (z : Z) | Real (f : spec_float)
| String (t : text) | Character (t : text) | Symbol (t : text) | Error (t : text).
Inductive request :=
| New (a : atom)                              (* create_new_value_nil ... _error, vm:2215-2454 *)
| NewVector                                   (* create_new_value_vector, vm:2518-2527 *)
| VectorOf (l : list ref)                     (* create_new_value_vector_from_values, vm:2493-2516 *)
| NewList | NewQueue (max : option N)         (* vm:2577-2611 *)
| NewMap                                      (* create_new_value_hash_map, vm:2563-2577 *)
| NewEnvironment (enclosing : ref)            (* create_new_value_environment, vm:2613-2627 *)
| Copy (x : ref)                              (* create_new_value_copy, vm:1806-2143 *)
| VectorPush (v x : ref)                      (* octaspire_dern_value_as_vector_push_back_element, value:3617-3625 *)
| SequencePush (l x : ref)                    (* ..._as_list_push_back, _as_queue_push, value:2151-2193 *)
| Bind (e k v : ref)                          (* octaspire_dern_environment_set, env:376-386 *)
| Look (x : ref)                              (* the octaspire_dern_value_as_... functions that only read *)
| Push (x : ref) | Pop (x : ref) | Peek       (* vm:1719-1762 *)
| Collect                                     (* octaspire_dern_vm_gc, vm:2969-3020 *)
| PreventCollection (b : bool) | CollectEvery (n : N)  (* vm:5167-5175 *)
| Evaluate (x e : ref)                        (* octaspire_dern_vm_eval, vm:4258-4313 *)
| EvaluateGlobally (x : ref)                  (* vm:3478-3483 *)
| EvaluateString (b : octets)                 (* read_from_c_string_and_eval..., vm:4370-4386 *)
| EvaluateBuffer (b : octets)                 (* read_from_buffer_and_eval..., vm:4388-4418 *)
| EvaluateFile (path : octets)                (* read_from_path_and_eval..., vm:4420-4442 *)
| DefineInteger (name doc : text) (z : Z)     (* create_and_define_new_integer, vm:4601-4647 *)
| Call (f args : ref)                         (* call_lambda on the function of the value f, vm:3485-3589 *)
| Quit | SetExitCode (z : Z) | SetReadably (b : bool)  (* vm:4470-4496 and 4647-4660 *)
| IsQuit | ExitCode | StackLength | Global.   (* vm:4476-4496, 4670, 4750 *)
Inductive answer := Done | Value (o : option ref) | Contents (d : data) | Flag (b : bool) | Number (z : Z).

Definition atom_data (a : atom) : data :=
  match a with
  | Nil => DNil | Boolean b => DBool b | Integer z => DInt z | Real f => DReal f
  | String t => DStr t | Character t => DChar t | Symbol t => DSym t | Error t => DErr t 0
  end.

(** octaspire_dern_vm_call_lambda, vm:3485-3589.  Its loop over the forms of the
    body is the one of a call in a program (vm:4103-4157); there, an error of a
    form is annotated before the form is popped, as here.  A NULL value at the end
    (an empty body) ends in octaspire_helpers_verify_not_null. *)
Definition call_lambda (fuel : nat) (f args : ref) : M ref :=
  c <- get_cell f ;; g <- func_at f (caddr c) ;;
  ext <- alloc (DEnv [] (Some (fenv g))) ;; push ext ;;;
  o <- env_extend ext (fformals g) args ;;
  match o with
  | Some e => pop ext ;;; ret e
  | None =>
      o <- run_body fuel (eval fuel) f (caddr c) ext 0 None ;; pop ext ;;;
      match o with Some r => ret r | None => abort end
  end.

(** octaspire_dern_vm_read_from_buffer_and_eval_in_global_environment,
    vm:4388-4418: NULL and length 0 are an error ("No input"). *)
Definition evaluate_buffer (fuel : nat) (b : octets) : M (option ref) :=
  match b with
  | [] => r <- new_error ;; ret (Some r)
  | _ => t <- lift (octets_text b) ;; read_eval fuel (input_new t)
  end.
(** The octets strlen counts. *)
Fixpoint before_nul (b : octets) : octets :=
  match b with [] => [] | c :: t => if c =? 0 then [] else c :: before_nul t end.

(** The text create_and_define_new_integer evaluates, vm:4615-4620. *)
Definition define_integer_text (name doc : text) (z : Z) : text :=
  asc "(define " ++ name ++ asc " [" ++ doc ++ asc "] " ++ signed_decimal z ++ asc ")".

Definition set_prevent (b : bool) : M unit := fun s =>
  Ret (tt, mkVm (all s) (nextId s) (nextAddr s) (stack s) (genv s) (numAlloc s) (gcLimit s) b (fret s) (quit s) (exitCode s) (readably s) (output s) (addrs s) (msgs s) (outside s)).
Definition set_limit (n : N) : M unit := fun s =>
  Ret (tt, mkVm (all s) (nextId s) (nextAddr s) (stack s) (genv s) (numAlloc s) n (preventGc s) (fret s) (quit s) (exitCode s) (readably s) (output s) (addrs s) (msgs s) (outside s)).
Definition set_exit_code (b : bool) (z : Z) : M unit := fun s => Ret (tt, with_quit s b z).
Definition done (m : M unit) : M answer := m ;;; ret Done.
Definition value (m : M ref) : M answer := r <- m ;; ret (Value (Some r)).
Definition values (m : M (option ref)) : M answer := o <- m ;; ret (Value o).

Definition perform (fuel : nat) (files : octets -> option octets) (q : request) : M answer :=
  match q with
  | New a => value (alloc (atom_data a))
  | NewVector => value (alloc (DVec []))
  | VectorOf l => value (v <- alloc (DVec []) ;; push_all v l ;;; ret v)
  | NewList => value (alloc (DList []))
  | NewQueue max => value (alloc (DQueue [] max))
  | NewMap => value (alloc (DMap map_new))
  | NewEnvironment e => value (alloc (DEnv [] (Some e)))
  | Copy x => value (copy fuel x)
  | VectorPush v x => done (vec_push v x)
  | SequencePush l x =>
      d <- get l ;; match d with DList _ | DQueue _ _ => done (seq_push_atom fuel l x) | _ => abort end
  | Bind e k v => done (env_set e k v)
  | Look x => d <- get x ;; ret (Contents d)
  | Push x => done (push x)
  | Pop x => done (pop x)
  | Peek => st <- read stack ;; ret (Value (hd_error st))
  | Collect => done do_gc
  | PreventCollection b => done (set_prevent b)
  | CollectEvery n => done (set_limit n)
  | Evaluate x e => values (eval fuel x e)
  | EvaluateGlobally x => g <- read genv ;; values (eval fuel x g)
  | EvaluateString b => values (evaluate_buffer fuel (before_nul b))
  | EvaluateBuffer b => values (evaluate_buffer fuel b)
  | EvaluateFile path =>
      values (match files path with None => evaluate_buffer fuel [] | Some b => evaluate_buffer fuel b end)
  | DefineInteger name doc z =>
      match name, doc with
      | _ :: _, _ :: _ =>
          o <- read_eval fuel (input_new (define_integer_text name doc z)) ;;
          match o with
          | None => abort
          | Some r => d <- get r ;; ret (Flag (match d with DBool b => b | _ => false end))
          end
      | _, _ => abort
      end
  | Call f args => value (call_lambda fuel f args)
  | Quit => z <- read exitCode ;; done (set_exit_code true z)
  | SetExitCode z => q <- read quit ;; done (set_exit_code q z)
  | SetReadably b => done (set_readably b)
  | IsQuit => q <- read quit ;; ret (Flag q)
  | ExitCode => z <- read exitCode ;; ret (Number z)
  | StackLength => st <- read stack ;; ret (Number (Z.of_nat (List.length st)))
  | Global => g <- read genv ;; ret (Value (Some g))
  end.
