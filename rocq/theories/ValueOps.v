(** Comparison and hashing of values: octaspire_dern_value_compare, _is_equal,
    _get_hash (value.c), octaspire_dern_helpers_compare_value_hash_maps
    (helpers.c), and the hash-map operations of value.c, on the heap. *)
From Coq Require Import List NArith ZArith Bool Lia.
From Coq Require Import Floats.SpecFloat.
From Verif Require Import Base OString Semver HMap Printer Heap.
Import ListNotations.
Local Open Scope N_scope.

(** ** Numbers *)

(** (double)int32 : exact. *)
Definition sf_of_Z (z : Z) : spec_float :=
  match z with Z0 => S754_zero false | _ => binary_normalize 53 1024 z 0 false end.
(** octaspire_dern_value_as_number_get_value, for integers and reals. *)
Definition as_double (d : data) : option spec_float :=
  match d with DInt z => Some (sf_of_Z z) | DReal f => Some f | _ => None end.
(** a < b ? -1 : a > b ? 1 : 0 on doubles. *)
Definition double_compare (a b : spec_float) : Z :=
  if SFltb a b then (-1)%Z else if SFltb b a then 1%Z else 0%Z.

(** The eight octets of a double in memory (little endian); the sign and
    payload of a NaN are taken to be the default ones. *)
Definition double_bits (f : spec_float) : N :=
  let sgn (s : bool) := if s then 2 ^ 63 else 0 in
  match f with
  | S754_zero s => sgn s
  | S754_infinity s => sgn s + 2047 * 2 ^ 52
  | S754_nan => 2047 * 2 ^ 52 + 2 ^ 51
  | S754_finite s m e =>
      if Npos m <? 2 ^ 52 then sgn s + Npos m
      else sgn s + Z.to_N (e + 1075) * 2 ^ 52 + (Npos m - 2 ^ 52)
  end.
Fixpoint octets_le (n : nat) (x : N) : list N :=
  match n with O => [] | S k => x mod 256 :: octets_le k (x / 256) end.

(** ** Text *)
Definition text_str (s : text) : ostr := mkStr s [] None.
(** octaspire_string_compare; the magnitude of strcmp's result is taken to be 1. *)
Definition text_cmp (a b : text) : outcome Z := obind (text_compare a b) (fun c => Ret (of_cmp c)).
Definition text_hash (a : text) : outcome N := str_hash (text_str a).

(** octaspire_semver_to_string, A:9420-9522. *)
Definition ident_text (i : ident) : text := match i with INum n => decimal n | ILex s => s end.
Fixpoint join_dots (l : list text) : text :=
  match l with
  | [] => []
  | [x] => x
  | x :: t => x ++ 46 :: join_dots t
  end.
Definition semver_text (v : semver) : text :=
  print_semver (major v) (minor v) (patch v)
  ++ match pre v with [] => [] | p => 45 :: join_dots (map ident_text p) end
  ++ match build v with [] => [] | b => 43 :: join_dots b end.

(** ** octaspire_dern_value_get_hash, value:1156-1230 *)
Definition pointer_hash (a : N) : N := jenkins (octets_le 8 a).
Definition cell_hash (c : cell) : outcome N :=
  match cdata c with
  | DNil => Ret (jenkins [0])
  | DBool b => Ret (jenkins [if b then 1 else 0])
  | DInt z => Ret (jenkins (octets_le 4 (Z.to_N (z mod 2 ^ 32))))
  | DReal f => Ret (jenkins (octets_le 8 (double_bits f)))
  | DStr s | DChar s | DSym s | DErr s _ => text_hash s
  | DSemver v => text_hash (semver_text v)
  | DVec _ | DMap _ | DQueue _ _ | DList _ | DEnv _ _ | DFun _ | DMac _ | DSpecial _ | DBuiltin _ =>
      Ret (pointer_hash (caddr c))
  end.
Definition vhash (h : heap) (r : ref) : outcome N :=
  match lookup h r with Some c => cell_hash c | None => Dangling end.

(** ** Maps keyed by values: the search of octaspire_map_get, where comparing
    two keys may itself fail *)
Section Find.
Context (cmp : ref -> ref -> outcome Z).
Fixpoint find_o (k : ref) (b : list (element ref ref)) : outcome (option (element ref ref)) :=
  match b with
  | [] => Ret None
  | e :: t => obind (cmp k (ekey e)) (fun c => if (c =? 0)%Z then Ret (Some e) else find_o k t)
  end.
(** octaspire_map_get(map, octaspire_dern_value_get_hash(key), &key). *)
Definition map_find (h : heap) (m : hmap ref ref) (k : ref) : outcome (option (element ref ref)) :=
  obind (vhash h k) (fun hk => find_o k (nth (bucket_index hk (length (buckets m))) (buckets m) [])).

(** The loops of octaspire_dern_value_compare over two sequences of equal
    length, value:4997-5016, 5041-5062, 5081-5102. *)
Fixpoint compare_seq (a b : list ref) : outcome Z :=
  match a, b with
  | [], _ => Ret 0%Z
  | _ :: _, [] => Abort
  | x :: a', y :: b' => obind (cmp x y) (fun c => if (c =? 0)%Z then compare_seq a' b' else Ret c)
  end.
Definition compare_sized (a b : list ref) : outcome Z :=
  if Nat.eqb (length a) (length b) then compare_seq a b
  else Ret (size_diff (N.of_nat (length a)) (N.of_nat (length b))).

(** octaspire_dern_helpers_compare_value_hash_maps, helpers:27-75. *)
Fixpoint compare_elems (h : heap) (es : list (element ref ref)) (other : hmap ref ref) : outcome Z :=
  match es with
  | [] => Ret 0%Z
  | e :: t =>
      obind (single e) (fun v =>
      obind (map_find h other (ekey e)) (fun o =>
        match o with
        | None => Ret 1%Z
        | Some e' => obind (single e') (fun v' =>
                     obind (cmp v v') (fun c => if (c =? 0)%Z then compare_elems h t other else Ret c))
        end))
  end.
Definition compare_maps (h : heap) (a b : hmap ref ref) : outcome Z :=
  if Nat.eqb (numElements a) (numElements b) then compare_elems h (concat (buckets a)) b
  else Ret (size_diff (N.of_nat (numElements a)) (N.of_nat (numElements b))).

(** The same for the bindings of two environments (env:609-615), which are
    visited in order of binding instead of bucket order. *)
Definition find_binding (t : text) (b : list (text * (ref * ref))) : option (ref * ref) :=
  option_map snd (find (fun kv => if list_eq_dec N.eq_dec (fst kv) t then true else false) b).
Fixpoint compare_bindings (a b : list (text * (ref * ref))) : outcome Z :=
  match a with
  | [] => Ret 0%Z
  | (t, (_, v)) :: a' =>
      match find_binding t b with
      | None => Ret 1%Z
      | Some (_, v') => obind (cmp v v') (fun c => if (c =? 0)%Z then compare_bindings a' b else Ret c)
      end
  end.
Definition compare_envs (a b : list (text * (ref * ref))) : outcome Z :=
  if Nat.eqb (length a) (length b) then compare_bindings a b
  else Ret (size_diff (N.of_nat (length a)) (N.of_nat (length b))).

(** "cmp = ...; if (cmp) return cmp;" *)
Definition andthen (c : outcome Z) (k : outcome Z) : outcome Z :=
  obind c (fun z => if (z =? 0)%Z then k else Ret z).
(** octaspire_dern_function_compare, value:175-222. *)
Definition compare_funs (f g : func) : outcome Z :=
  andthen (text_cmp (fname f) (fname g))
  (andthen (text_cmp (fdoc f) (fdoc g))
  (andthen (cmp (fformals f) (fformals g))
  (andthen (cmp (fbody f) (fbody g))
  (andthen (cmp (fenv f) (fenv g))
           (Ret (Z.b2z (fhowto f) - Z.b2z (fhowto g))%Z))))).
End Find.

(** octaspire_dern_value_private_compare_void_pointers, value:4859-4876. *)
Definition compare_pointers (a b : N) : Z := of_cmp (a ?= b).

(** octaspire_dern_value_compare, value:4878-5146; [fuel] bounds the depth of
    the recursion. *)
Fixpoint vcompare (fuel : nat) (h : heap) (a b : ref) : outcome Z :=
  match fuel with
  | O => NoFuel
  | S f =>
      if a =? b then Ret 0%Z else
      match lookup h a, lookup h b with
      | Some ca, Some cb =>
          match cdata ca, cdata cb with
          | DInt x, DInt y => int32_op (x - y)
          | DInt _ as da, (DReal _ as db) | DReal _ as da, (DInt _ as db) | DReal _ as da, (DReal _ as db) =>
              match as_double da, as_double db with
              | Some x, Some y => Ret (double_compare x y)
              | _, _ => Abort
              end
          | DNil, DNil => Ret 0%Z
          | DBool x, DBool y => Ret (Z.b2z x - Z.b2z y)%Z
          | DStr x, DStr y | DChar x, DChar y | DSym x, DSym y => text_cmp x y
          | DErr x i, DErr y j => andthen (text_cmp x y) (Ret (size_diff i j))
          | DVec x, DVec y | DQueue x _, DQueue y _ | DList x, DList y => compare_sized (vcompare f h) x y
          | DMap x, DMap y => compare_maps (vcompare f h) h x y
          | DEnv x _, DEnv y _ => compare_envs (vcompare f h) x y
          | DFun x, DFun y | DMac x, DMac y => compare_funs (vcompare f h) x y
          | DSpecial _, DSpecial _ | DBuiltin _, DBuiltin _ => Ret (compare_pointers (caddr ca) (caddr cb))
          | DSemver x, DSemver y => semver_compare x y
          | x, y => Ret (tag x - tag y)%Z
          end
      | _, _ => Dangling
      end
  end.

(** octaspire_dern_value_is_equal and the ordering predicates, value:1240-1288:
    the sign of the comparison. *)
Definition vequal (fuel : nat) (h : heap) (a b : ref) : outcome bool :=
  obind (vcompare fuel h a b) (fun c => Ret (c =? 0)%Z).
Definition vless (fuel : nat) (h : heap) (a b : ref) : outcome bool :=
  obind (vcompare fuel h a b) (fun c => Ret (c <? 0)%Z).
Definition vgreater (fuel : nat) (h : heap) (a b : ref) : outcome bool :=
  obind (vcompare fuel h a b) (fun c => Ret (c >? 0)%Z).
Definition vless_eq (fuel : nat) (h : heap) (a b : ref) : outcome bool :=
  obind (vcompare fuel h a b) (fun c => Ret (c <=? 0)%Z).
Definition vgreater_eq (fuel : nat) (h : heap) (a b : ref) : outcome bool :=
  obind (vcompare fuel h a b) (fun c => Ret (c >=? 0)%Z).
