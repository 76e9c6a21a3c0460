(** The values of the virtual machine and its memory: octaspire_dern_value.c
    and octaspire_dern_vm.c.

    A value of the C program is a malloc'ed struct; here it is a cell of the
    heap, named by its uniqueId.  Pointers between values are ids; using the
    pointer of a freed value is [Dangling].  Simplifications: allocation never
    fails; ports and C data (plugins) are not modelled. *)
From Coq Require Import List NArith ZArith Bool Lia.
From Coq Require Import Floats.SpecFloat.
From Verif Require Import Base Semver HMap.
Import ListNotations.
Local Open Scope N_scope.

Definition ref := N.
Definition text := list N.

(** The C functions behind the modelled built-in names (registered in
    vm:325-1700); a value of type special or builtin holds one of them. [SpOther]
    and [BiOther] stand for every function that is not modelled. *)
Inductive special :=
| SpDefine | SpEval | SpQuote | SpSelect | SpIf | SpWhile | SpFor
| SpEqual | SpIdentical | SpNotEqual | SpLess | SpGreater | SpLessEq | SpGreaterEq
| SpFn | SpMacro | SpAnd | SpOr | SpDo | SpGenerate | SpTemplate | SpOther.
(** [BiIs tags]: the type predicates integer?, number?, ... *)
Inductive builtin :=
| BiSet | BiReturn | BiNot | BiVector | BiExit | BiDoc | BiLen | BiUid
| BiPlusEq | BiIncr | BiDecr | BiMod | BiDiv | BiTimes | BiPlus | BiMinus
| BiHashMap | BiQueue | BiQueueMax | BiList | BiCopy | BiEnvNew | BiEnvCurrent | BiEnvGlobal
| BiLnAt | BiPopBack | BiPopFront | BiIs (tags : list Z)
| BiMax | BiMin | BiStartsWith | BiToReal | BiToInteger | BiToString | BiDistance | BiCharacter | BiFind | BiSplit
| BiCpAt | BiSqrt | BiAbort | BiMinusEq | BiMinusEqEq
| BiStringFormat | BiPrint | BiPrintln | BiPrintReadably | BiReadEvalString | BiReadEvalPath | BiHostArguments | BiHostVariables | BiOther.

(** struct octaspire_dern_function_t. *)
Record func := mkFunc { fname : text; fdoc : text; fhowto : bool;
                        fformals : ref; fbody : ref; fenv : ref }.

(** The union of struct octaspire_dern_value_t with its typeTag.
    An environment is its bindings (symbol text, symbol value, bound value) and
    its enclosing environment; its hash table keyed by symbols is represented by
    the association list that C18 shows it to implement. *)
Inductive data :=
| DNil | DBool (b : bool) | DInt (z : Z) | DReal (f : spec_float)
| DStr (s : text) | DChar (s : text) | DSym (s : text) | DErr (msg : text) (line : N)
| DVec (l : list ref) | DMap (m : hmap ref ref) | DQueue (l : list ref) (max : option N) | DList (l : list ref)
| DEnv (b : list (text * (ref * ref))) (enclosing : option ref)
| DFun (f : func) | DMac (f : func) | DSpecial (p : special) | DBuiltin (p : builtin)
| DSemver (v : semver).

(** struct octaspire_dern_value_t; [caddr] is the address of the structure the
    union points to (for vectors, maps, functions, ...). *)
Record cell := mkCell { cdata : data; cdoc : option ref; cdocvec : option ref; cmark : bool; caddr : N }.

(** octaspire_dern_value_tag_t. *)
Definition tag (d : data) : Z :=
  match d with
  | DNil => 1 | DBool _ => 2 | DInt _ => 3 | DReal _ => 4 | DStr _ => 5 | DChar _ => 6
  | DSym _ => 7 | DErr _ _ => 8 | DVec _ => 9 | DMap _ => 10 | DQueue _ _ => 11 | DList _ => 12
  | DEnv _ _ => 13 | DFun _ => 14 | DMac _ => 15 | DSpecial _ => 16 | DBuiltin _ => 17
  | DSemver _ => 20
  end%Z.

(** vm->all: every value that has been allocated and not freed. *)
Definition heap := list (ref * cell).
Fixpoint lookup (h : heap) (r : ref) : option cell :=
  match h with
  | [] => None
  | (i, c) :: t => if i =? r then Some c else lookup t r
  end.
Fixpoint update (h : heap) (r : ref) (c : cell) : heap :=
  match h with
  | [] => []
  | (i, c0) :: t => if i =? r then (i, c) :: t else (i, c0) :: update t r c
  end.
Definition set_mark (c : cell) (b : bool) : cell := mkCell (cdata c) (cdoc c) (cdocvec c) b (caddr c).

(** ** Marking, value:4732-4857 and env:562-598 *)

(** The single value of a hash map element, asserted by
    octaspire_map_element_get_value (A:7300-7307). *)
Definition single (e : element ref ref) : outcome ref :=
  match evals e with [v] => Ret v | _ => Abort end.
Fixpoint map_children (es : list (element ref ref)) : outcome (list ref) :=
  match es with
  | [] => Ret []
  | e :: t => obind (single e) (fun v => obind (map_children t) (fun l => Ret (ekey e :: v :: l)))
  end.
(** The pointers followed by octaspire_dern_value_mark, in its order: the
    documentation string, then what the union holds; not the documentation
    vector. *)
Definition children (c : cell) : outcome (list ref) :=
  let doc := match cdoc c with Some d => [d] | None => [] end in
  obind (match cdata c with
         | DVec l | DQueue l _ | DList l => Ret l
         | DMap m => map_children (concat (buckets m))
         | DEnv b enc => Ret (flat_map (fun kv => [fst (snd kv); snd (snd kv)]) b
                              ++ match enc with Some e => [e] | None => [] end)
         | DFun f | DMac f => Ret [fformals f; fbody f; fenv f]
         | _ => Ret []
         end) (fun l => Ret (doc ++ l)).

(** octaspire_dern_value_mark, value:4732-4857; [fuel] bounds the depth of the
    recursion. *)
Fixpoint mark_each (m : heap -> ref -> outcome heap) (h : heap) (l : list ref) : outcome heap :=
  match l with
  | [] => Ret h
  | x :: t => obind (m h x) (fun h' => mark_each m h' t)
  end.
Fixpoint mark (fuel : nat) (h : heap) (r : ref) : outcome heap :=
  match fuel with
  | O => NoFuel
  | S f =>
      match lookup h r with
      | None => Dangling
      | Some c =>
          if cmark c then Ret h
          else obind (children c) (mark_each (mark f) (update h r (set_mark c true)))
      end
  end.

(** octaspire_dern_vm_private_sweep, vm:3028-3063. *)
Definition sweep (h : heap) : heap :=
  map (fun rc => (fst rc, set_mark (snd rc) false)) (filter (fun rc => cmark (snd rc)) h).

(** octaspire_dern_vm_gc and _mark_all, vm:2969-3020: the roots are the values
    on the stack, bottom first (marking done by plugins is not modelled). *)
Definition gc (h : heap) (stack : list ref) : outcome heap :=
  obind (mark_each (mark (S (length h))) h (rev stack)) (fun h' => Ret (sweep h')).

(** ** The machine *)

(** struct octaspire_dern_vm_t (vm.h); [stack] has its top first; [addrs] gives
    the addresses malloc will return for the structures the unions point to,
    [nextAddr] of which have been used.  The texts of error messages are not
    modelled: [msgs] gives the text of the message written at that point, and
    theorems hold for every such function.  [output] is what the program has
    written to standard output (octets).  [outside] is what the program can see of
    its host: [o_files n p], the contents of the file at the path [p] at the time
    when [n] addresses have been used (files may change at any time; theorems hold
    for every such function), and the vectors commandLineArguments and
    environmentVariables of the machine (vm:65-66). *)
Record outer := mkOuter { o_files : N -> list N -> option (list N); o_arguments : list text; o_variables : list text }.
Definition nothing_outside : outer := mkOuter (fun _ _ => None) [] [].
Record vm := mkVm { all : heap; nextId : N; nextAddr : N; stack : list ref; genv : ref;
                    numAlloc : N; gcLimit : N; preventGc : bool;
                    fret : option ref; quit : bool; exitCode : Z;
                    readably : bool; output : list N; addrs : N -> N; msgs : N -> text; outside : outer }.
Definition with_all (s : vm) (h : heap) := mkVm h (nextId s) (nextAddr s) (stack s) (genv s) (numAlloc s) (gcLimit s) (preventGc s) (fret s) (quit s) (exitCode s) (readably s) (output s) (addrs s) (msgs s) (outside s).
Definition with_stack (s : vm) (st : list ref) := mkVm (all s) (nextId s) (nextAddr s) st (genv s) (numAlloc s) (gcLimit s) (preventGc s) (fret s) (quit s) (exitCode s) (readably s) (output s) (addrs s) (msgs s) (outside s).
Definition with_numAlloc (s : vm) (n : N) := mkVm (all s) (nextId s) (nextAddr s) (stack s) (genv s) n (gcLimit s) (preventGc s) (fret s) (quit s) (exitCode s) (readably s) (output s) (addrs s) (msgs s) (outside s).
Definition with_nextId (s : vm) (n : N) := mkVm (all s) n (nextAddr s) (stack s) (genv s) (numAlloc s) (gcLimit s) (preventGc s) (fret s) (quit s) (exitCode s) (readably s) (output s) (addrs s) (msgs s) (outside s).
Definition with_nextAddr (s : vm) (n : N) := mkVm (all s) (nextId s) n (stack s) (genv s) (numAlloc s) (gcLimit s) (preventGc s) (fret s) (quit s) (exitCode s) (readably s) (output s) (addrs s) (msgs s) (outside s).
Definition with_fret (s : vm) (r : option ref) := mkVm (all s) (nextId s) (nextAddr s) (stack s) (genv s) (numAlloc s) (gcLimit s) (preventGc s) r (quit s) (exitCode s) (readably s) (output s) (addrs s) (msgs s) (outside s).
Definition with_quit (s : vm) (b : bool) (c : Z) := mkVm (all s) (nextId s) (nextAddr s) (stack s) (genv s) (numAlloc s) (gcLimit s) (preventGc s) (fret s) b c (readably s) (output s) (addrs s) (msgs s) (outside s).
Definition with_readably (s : vm) (b : bool) := mkVm (all s) (nextId s) (nextAddr s) (stack s) (genv s) (numAlloc s) (gcLimit s) (preventGc s) (fret s) (quit s) (exitCode s) b (output s) (addrs s) (msgs s) (outside s).
Definition with_output (s : vm) (o : list N) := mkVm (all s) (nextId s) (nextAddr s) (stack s) (genv s) (numAlloc s) (gcLimit s) (preventGc s) (fret s) (quit s) (exitCode s) (readably s) o (addrs s) (msgs s) (outside s).
Definition with_outside (s : vm) (o : outer) := mkVm (all s) (nextId s) (nextAddr s) (stack s) (genv s) (numAlloc s) (gcLimit s) (preventGc s) (fret s) (quit s) (exitCode s) (readably s) (output s) (addrs s) (msgs s) o.

(** Programs over the machine. *)
Definition M (X : Type) := vm -> outcome (X * vm).
Definition ret {X} (x : X) : M X := fun s => Ret (x, s).
Definition bind {X Y} (m : M X) (k : X -> M Y) : M Y :=
  fun s => obind (m s) (fun xs => k (fst xs) (snd xs)).
Definition abort {X} : M X := fun _ => Abort.
Definition dangling {X} : M X := fun _ => Dangling.
Definition undef {X} : M X := fun _ => Undef.
Definition nofuel {X} : M X := fun _ => NoFuel.
(** A computation on plain data; it has no stack, so it cannot find it
    unbalanced. *)
Definition no_stack {X} (o : outcome X) : outcome X := match o with Unbalanced => Abort | _ => o end.
Definition lift {X} (o : outcome X) : M X := fun s => obind (no_stack o) (fun x => Ret (x, s)).
Notation "x <- m ;; k" := (bind m (fun x => k)) (at level 61, m at next level, right associativity).
Notation "m ;;; k" := (bind m (fun _ => k)) (at level 61, right associativity).

(** octaspire_dern_vm_push_value and _pop_value, vm:1719-1750. *)
Definition push (r : ref) : M unit := fun s => Ret (tt, with_stack s (r :: stack s)).
Definition pop (r : ref) : M unit := fun s =>
  match stack s with
  | x :: t => if x =? r then Ret (tt, with_stack s t) else Unbalanced
  | [] => Unbalanced
  end.

(** Reading a value through its pointer. *)
Definition get_cell (r : ref) : M cell := fun s =>
  match lookup (all s) r with Some c => Ret (c, s) | None => Dangling end.
Definition get (r : ref) : M data := c <- get_cell r ;; ret (cdata c).
(** Changing the contents of a value in place. *)
Definition put_cell (r : ref) (c : cell) : M unit := fun s =>
  match lookup (all s) r with Some _ => Ret (tt, with_all s (update (all s) r c)) | None => Dangling end.
Definition put (r : ref) (d : data) : M unit :=
  c <- get_cell r ;; put_cell r (mkCell d (cdoc c) (cdocvec c) (cmark c) (caddr c)).
Definition set_docs (r : ref) (doc docvec : option ref) : M unit :=
  c <- get_cell r ;; put_cell r (mkCell (cdata c) doc docvec (cmark c) (caddr c)).

(** octaspire_dern_vm_gc. *)
Definition do_gc : M unit := fun s =>
  obind (gc (all s) (stack s)) (fun h => Ret (tt, with_all s h)).

(** octaspire_dern_vm_private_create_new_value_struct, vm:1763-1804: collect
    garbage when due, then add a fresh cell. *)
Definition maybe_gc : M unit := fun s =>
  if (gcLimit s <=? numAlloc s) && negb (preventGc s)
  then obind (do_gc s) (fun us => Ret (tt, with_numAlloc (snd us) 0))
  else Ret (tt, with_numAlloc s (numAlloc s + 1)).
Definition fresh (d : data) : M ref := fun s =>
  if nextId s =? two64 - 1 then Abort
  else Ret (nextId s,
            with_nextAddr (with_nextId (with_all s (all s ++ [(nextId s, mkCell d None None false (addrs s (nextAddr s)))]))
                        (nextId s + 1)) (nextAddr s + 1)).
Definition alloc (d : data) : M ref := maybe_gc ;;; fresh d.
