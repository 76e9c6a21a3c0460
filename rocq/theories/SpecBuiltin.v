(** What the builtins do with their arguments. *)
From Coq Require Import String List NArith ZArith Bool Permutation.
From Coq Require Import Floats.SpecFloat.
From Verif Require Import Base SpecSeq OString HMap Heap SpecHeap ValueOps Env Builtins Semver Eval SpecText SpecTrace SpecSpecial SpecCall SpecDefine SpecEval.
Local Open Scope string_scope.
Local Open Scope list_scope.
Import ListNotations.

(** [r] is a new value that holds [d]. *)
Definition makes (s s' : vm) (r : ref) (d : data) : Prop := (nextId s <= r)%N /\ data_at s' r = Some d.
(** [r] is a new error. *)
Definition complains (s s' : vm) (r : ref) : Prop := exists d, makes s s' r d /\ is_err d.

(** A builtin that changes nothing the program can reach.  [R]: the machine
    before, the environment, the arguments, the machine after and the result. *)
Definition reader (p : builtin) (R : vm -> ref -> list ref -> vm -> ref -> Prop) : Prop :=
  forall n m a env xs s r s', arguments s a env xs -> builtin_call n (Eval.eval m) p a env s = Ret (r, s') ->
  keeps (stack s) s s' /\ R s env xs s' r.
(** Any builtin. *)
Definition does (p : builtin) (R : vm -> ref -> list ref -> vm -> ref -> Prop) : Prop :=
  forall n m a env xs s r s', arguments s a env xs -> builtin_call n (Eval.eval m) p a env s = Ret (r, s') -> R s env xs s' r.
(** A builtin that changes values; the events are the changes, in their order. *)
Definition writer (p : builtin) (R : vm -> list ref -> list event -> vm -> ref -> Prop) : Prop :=
  forall n m a env xs s r s', arguments s a env xs -> builtin_call n (Eval.eval m) p a env s = Ret (r, s') ->
  exists evs, trace (Eval.eval m) (stack s) s evs s' /\ R s xs evs s' r.

(** ** not and the type predicates *)
Definition not_result (s : vm) (_ : ref) (xs : list ref) (s' : vm) (r : ref) : Prop :=
  match xs with
  | [x] => exists d, data_at s x = Some d /\
           match d with DBool b => makes s s' r (DBool (negb b)) | _ => complains s s' r end
  | _ => complains s s' r
  end.
Definition is_result (K : data -> Prop) (s : vm) (_ : ref) (xs : list ref) (s' : vm) (r : ref) : Prop :=
  match xs with
  | [x] => exists d b, data_at s x = Some d /\ makes s s' r (DBool b) /\ (b = true <-> K d)
  | _ => complains s s' r
  end.
Definition is_integer (d : data) : Prop := match d with DInt _ => True | _ => False end.
Definition is_real (d : data) : Prop := match d with DReal _ => True | _ => False end.
Definition is_number (d : data) : Prop := is_integer d \/ is_real d.
Definition is_nil (d : data) : Prop := match d with DNil => True | _ => False end.
Definition is_character (d : data) : Prop := match d with DChar _ => True | _ => False end.
Definition is_map (d : data) : Prop := match d with DMap _ => True | _ => False end.
Definition predicates : list (string * (data -> Prop)) :=
  [("integer?", is_integer); ("real?", is_real); ("number?", is_number); ("nil?", is_nil); ("boolean?", is_bool);
   ("character?", is_character); ("string?", is_string); ("symbol?", is_sym); ("vector?", is_vec); ("hash-map?", is_map)].

(** ** len *)

(** The names of the formals, and how many of them come before the marker ".". *)
Fixpoint before_dot (names : list text) : nat :=
  match names with
  | [] => 0
  | t :: l => if text_eqb t (asc ".") then 0 else S (before_dot l)
  end.
Inductive length_of (s : vm) : data -> Z -> Prop :=
| len_nil : length_of s DNil 0
| len_bool b : length_of s (DBool b) 1
| len_int z : length_of s (DInt z) 1
| len_real f : length_of s (DReal f) 1
| len_char t : length_of s (DChar t) 1
| len_string t : length_of s (DStr t) (Z.of_nat (List.length t))
| len_symbol t : length_of s (DSym t) (Z.of_nat (List.length t))
| len_vector l : length_of s (DVec l) (Z.of_nat (List.length l))
| len_list l : length_of s (DList l) (Z.of_nat (List.length l))
| len_queue l max : length_of s (DQueue l max) (Z.of_nat (List.length l))
| len_map m : length_of s (DMap m) (Z.of_nat (numElements m))
| len_env b e : length_of s (DEnv b e) (Z.of_nat (List.length b))
| len_function d f fs names : d = DFun f \/ d = DMac f -> data_at s (fformals f) = Some (DVec fs) ->
    Forall2 (fun x t => data_at s x = Some (DSym t)) fs names -> length_of s d (Z.of_nat (before_dot names))
| len_semver v : length_of s (DSemver v) (3 + Z.of_nat (List.length (pre v)) + Z.of_nat (List.length (build v))).
(** [w]: the length of [x] as an integer, when it fits one. *)
Definition is_length (s s' : vm) (x w : ref) : Prop :=
  exists d z, data_at s x = Some d /\ makes s s' w (DInt z) /\ forall n, length_of s d n -> fits n -> z = n.
Definition len_result (s : vm) (_ : ref) (xs : list ref) (s' : vm) (r : ref) : Prop :=
  match xs with
  | [] => complains s s' r
  | [x] => is_length s s' x r
  | _ => exists ws, makes s s' r (DVec ws) /\ Forall2 (is_length s s') xs ws
  end.

(** ** Making collections *)

(** [ws] are the arguments, atoms copied. *)
Definition made_of (s : vm) (xs : list ref) (s' : vm) (ws : list ref) : Prop := Forall2 (fun x w => defined s x w s') xs ws.
Definition vector_result (s : vm) (_ : ref) (xs : list ref) (s' : vm) (r : ref) : Prop := exists ws, makes s s' r (DVec ws) /\ made_of s xs s' ws.
Definition list_result (s : vm) (_ : ref) (xs : list ref) (s' : vm) (r : ref) : Prop := exists ws, makes s s' r (DList ws) /\ made_of s xs s' ws.
Definition queue_result (s : vm) (_ : ref) (xs : list ref) (s' : vm) (r : ref) : Prop := exists ws, makes s s' r (DQueue ws None) /\ made_of s xs s' ws.
(** The last [n] elements. *)
Definition last_of {X} (n : nat) (l : list X) : list X := skipn (List.length l - n) l.
Definition queue_max_result (s : vm) (_ : ref) (xs : list ref) (s' : vm) (r : ref) : Prop :=
  match xs with
  | [] => complains s s' r
  | x :: t => exists d, data_at s x = Some d /\
      match d with
      | DInt z => ((z < 0)%Z -> complains s s' r) /\
          ((0 <= z)%Z -> exists ws, makes s s' r (DQueue ws (Some (Z.to_N z))) /\ made_of s (last_of (Z.to_nat z) t) s' ws)
      | _ => complains s s' r
      end
  end.
(** Keys and values in turn; [None] when the last key has no value. *)
Fixpoint in_pairs (xs : list ref) : option (list (ref * ref)) :=
  match xs with
  | [] => Some []
  | k :: v :: t => option_map (cons (k, v)) (in_pairs t)
  | [_] => None
  end.
(** No key is equal to a key after it. *)
Definition distinct_keys (s : vm) (kvs : list (ref * ref)) : Prop :=
  ForallOrdPairs (fun p q => forall n, vcompare n (all s) (fst q) (fst p) <> Ret 0%Z) kvs.
Definition hash_map_result (s : vm) (_ : ref) (xs : list ref) (s' : vm) (r : ref) : Prop :=
  match in_pairs xs with
  | None => complains s s' r
  | Some kvs => exists m, makes s s' r (DMap m) /\
      (distinct_keys s kvs ->
       Permutation (map (fun e => (ekey e, evals e)) (List.concat (buckets m))) (map (fun p => (fst p, [snd p])) kvs) /\
       numElements m = List.length kvs /\
       forall e, In e (List.concat (buckets m)) -> vhash (all s) (ekey e) = Ret (ehash e))
  end.

(** ** Reading *)

(** The documentation of [x]: its string, or a new nil. *)
Definition is_doc (s s' : vm) (x w : ref) : Prop :=
  exists c, lookup (all s) x = Some c /\ match cdoc c with Some d => w = d | None => makes s s' w DNil end.
Definition doc_result (s : vm) (_ : ref) (xs : list ref) (s' : vm) (r : ref) : Prop :=
  match xs with
  | [] => complains s s' r
  | [x] => is_doc s s' x r
  | _ => exists ws, makes s s' r (DVec ws) /\ Forall2 (is_doc s s') xs ws
  end.
(** The integer is the identity. *)
Definition uid_result (s : vm) (_ : ref) (xs : list ref) (s' : vm) (r : ref) : Prop :=
  match xs with [x] => makes s s' r (DInt (Z.of_N x)) | _ => complains s s' r end.
(** The element with the index [z] of [l]; negative indices count from the end. *)
Definition at_index (l : list ref) (z : Z) : option ref :=
  match position (List.length l) z with Some k => nth_error l k | None => None end.
(** The entry with the index [z] of a map, if [o] is [Some]: in the order of the
    entries for [z] from zero on; negative indices count from the end in an
    order of their own. *)
Definition indexed (m : hmap ref ref) (z : Z) (o : option (element ref ref)) : Prop :=
  let l := List.concat (buckets m) in
  if (0 <=? z)%Z then o = nth_error l (Z.to_nat z)
  else match o with Some q => In q l | None => (Z.of_nat (List.length l) < - z)%Z end.
(** No key in the bucket of the hash of [k] is equal to [k]. *)
Definition absent (s : vm) (m : hmap ref ref) (k : ref) : Prop :=
  exists n hk, vhash (all s) k = Ret hk /\
    forall e, In e (nth (bucket_index hk (List.length (buckets m))) (buckets m) []) -> exists z, vcompare n (all s) k (ekey e) = Ret z /\ z <> 0%Z.
Definition equal_key (s : vm) (k : ref) (m : hmap ref ref) (e : element ref ref) : Prop :=
  In e (List.concat (buckets m)) /\ exists n, vcompare n (all s) k (ekey e) = Ret 0%Z.
(** What the map [m] holds at [i], which is an index or a key as the symbol [w]
    says; [None]: nothing, or the arguments are wrong. *)
Inductive map_value (s : vm) (m : hmap ref ref) (i w : ref) : option ref -> Prop :=
| mv_index z q v : data_at s w = Some (DSym (asc "index")) -> data_at s i = Some (DInt z) -> indexed m z (Some q) -> evals q = [v] -> map_value s m i w (Some v)
| mv_no_index z : data_at s w = Some (DSym (asc "index")) -> data_at s i = Some (DInt z) -> indexed m z None -> map_value s m i w None
| mv_not_int e : data_at s w = Some (DSym (asc "index")) -> data_at s i = Some e -> (forall z, e <> DInt z) -> map_value s m i w None
| mv_key q v : data_at s w = Some (DSym (asc "hash")) -> equal_key s i m q -> evals q = [v] -> map_value s m i w (Some v)
| mv_no_key : data_at s w = Some (DSym (asc "hash")) -> absent s m i -> map_value s m i w None
| mv_word d : data_at s w = Some d -> d <> DSym (asc "index") -> d <> DSym (asc "hash") -> map_value s m i w None.
(** [ln@] links; a queue aborts, and so does an index outside a list. *)
Definition ln_at_result (s : vm) (_ : ref) (xs : list ref) (s' : vm) (r : ref) : Prop :=
  match xs with
  | x :: i :: t => exists d, data_at s x = Some d /\
      match d, t with
      | DVec l, [] => exists e, data_at s i = Some e /\
          match e with
          | DInt z => fits z -> (Z.of_nat (List.length l) < 2 ^ 63)%Z ->
              match at_index l z with Some y => r = y | None => complains s s' r end
          | _ => complains s s' r
          end
      | DList l, [] => exists e, data_at s i = Some e /\
          match e with DInt z => at_index l z = Some r | _ => complains s s' r end
      | DMap m, [w] => exists o, map_value s m i w o /\ match o with Some v => r = v | None => complains s s' r end
      | DQueue _ _, _ => False
      | _, _ => complains s s' r
      end
  | _ => complains s s' r
  end.
Definition env_new_result (s : vm) (_ : ref) (xs : list ref) (s' : vm) (r : ref) : Prop :=
  match xs with
  | [] => makes s s' r (DEnv [] None)
  | [x] => exists d, data_at s x = Some d /\ match d with DEnv _ _ => makes s s' r (DEnv [] (Some x)) | _ => complains s s' r end
  | _ => complains s s' r
  end.
Definition env_current_result (s : vm) (env : ref) (xs : list ref) (s' : vm) (r : ref) : Prop :=
  match xs with [] => r = env | _ => complains s s' r end.
Definition env_global_result (s : vm) (env : ref) (xs : list ref) (s' : vm) (r : ref) : Prop :=
  match xs with [] => r = genv s | _ => complains s s' r end.
(** After exit nothing is evaluated (C57); the code is that of the argument. *)
Definition exit_result (s : vm) (_ : ref) (xs : list ref) (s' : vm) (r : ref) : Prop :=
  (exists c, (xs = [] /\ c = exitCode s \/ exists x, xs = [x] /\ data_at s x = Some (DInt c)) /\
     keeps (stack s) (with_quit s true c) s' /\ makes s s' r (DBool true)) \/
  (xs <> [] /\ (forall x z, xs = [x] -> data_at s x <> Some (DInt z)) /\ keeps (stack s) s s' /\ complains s s' r).
