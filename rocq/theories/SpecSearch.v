(** What the builtins that search, measure and convert do. *)
From Coq Require Import String List NArith ZArith Bool Sorted.
From Coq Require Import Floats.SpecFloat.
From Verif Require Import Base SpecText SpecStr SpecSeq SpecEdit SpecSplit OString Semver HMap Heap SpecHeap ValueOps Env Builtins Eval SpecTrace SpecSpecial SpecCall SpecDefine SpecEval SpecValue SpecReal SpecPrint SpecBuiltin SpecWrite.
From Verif Require SpecStrtod.
From Verif Require SpecEnv.
Import ListNotations.
Local Open Scope string_scope.
Local Open Scope list_scope.

(** ** max and min *)

(** The first of the arguments that no other one is [beyond], for arguments that
    can be compared (SpecValue.v). *)
Definition best_result (beyond : comparison) (s : vm) (_ : ref) (xs : list ref) (s' : vm) (r : ref) : Prop :=
  match xs with
  | _ :: _ :: _ => In r xs /\
      forall lo ts, Forall2 (denotes (all s)) xs ts -> Forall (ordinary lo) ts ->
      exists l u t, xs = l ++ r :: u /\ denotes (all s) r t /\
        (forall x w, In x l -> denotes (all s) x w -> tree_order w t = CompOpp beyond) /\
        (forall x w, In x u -> denotes (all s) x w -> tree_order w t <> beyond)
  | _ => complains s s' r
  end.

(** ** starts-with? *)
Definition starts_result (s : vm) (_ : ref) (xs : list ref) (s' : vm) (r : ref) : Prop :=
  match xs with
  | [x; y] => exists d e b, data_at s x = Some d /\ data_at s y = Some e /\ makes s s' r (DBool b) /\
      (b = true <-> exists t u, d = DStr (t ++ u) /\ e = DStr t)
  | _ => complains s s' r
  end.

(** ** Conversions *)
Definition to_string_result (s : vm) (_ : ref) (xs : list ref) (s' : vm) (r : ref) : Prop :=
  match xs with
  | [] => complains s s' r
  | _ => exists us, Forall2 (shown (readably s) false (all s)) xs us /\ makes s s' r (DStr (List.concat us))
  end.
(** The real [f] without its fraction. *)
Definition truncated (f : spec_float) (z : Z) : Prop :=
  match f with
  | S754_zero _ => z = 0%Z
  | S754_finite neg m e => exists v, z = (if neg then - v else v)%Z /\ (0 <= v)%Z /\
      if (0 <=? e)%Z then v = (Zpos m * 2 ^ e)%Z
      else (v * 2 ^ (- e) <= Zpos m < (v + 1) * 2 ^ (- e))%Z
  | _ => False
  end.
Definition ascii_text (t : text) : Prop := Forall (fun c => 0 < c < 128)%N t.
Definition to_integer_result (s : vm) (_ : ref) (xs : list ref) (s' : vm) (r : ref) : Prop :=
  match xs with
  | [x] => exists d, data_at s x = Some d /\
      match d with
      | DInt z => makes s s' r (DInt z)
      | DReal f => exists z, truncated f z /\ fits z /\ makes s s' r (DInt z)
      | DChar t => exists z, makes s s' r (DInt z) /\ forall c, t = [c] -> fits (Z.of_N c) -> z = Z.of_N c
      | DStr t | DSym t => exists z, makes s s' r (DInt z) /\ (Forall scalar t -> exists i, leading_int t i /\ cut32 (as_long i) z)
      | _ => complains s s' r
      end
  | _ => complains s s' r
  end.
Definition to_real_result (s : vm) (_ : ref) (xs : list ref) (s' : vm) (r : ref) : Prop :=
  match xs with
  | [x] => exists d, data_at s x = Some d /\
      match d with
      | DInt z => makes s s' r (DReal (of_int z))
      | DReal f => makes s s' r (DReal f)
      | DChar t => forall c, t = [c] -> makes s s' r (DReal (of_int (Z.of_N c)))
      | DStr t | DSym t => exists f, makes s s' r (DReal f) /\ (Forall scalar t -> SpecStrtod.leading_real t f)
      | _ => complains s s' r
      end
  | _ => complains s s' r
  end.
(** The character with a code, or one of two with a name. *)
Inductive char_code : data -> N -> Prop :=
| code_int z : (0 <= z)%Z -> char_code (DInt z) (Z.to_N z)
| code_real f z : truncated f z -> fits z -> (0 <= z)%Z -> char_code (DReal f) (Z.to_N z)
| code_copyright d : d = DStr (asc "copyright sign") \/ d = DSym (asc "copyright sign") \/ d = DChar (asc "copyright sign") -> char_code d 0xA9
| code_lambda d : d = DStr (asc "greek small letter lambda") \/ d = DSym (asc "greek small letter lambda") \/ d = DChar (asc "greek small letter lambda") -> char_code d 0x3BB.
Definition character_result (s : vm) (_ : ref) (xs : list ref) (s' : vm) (r : ref) : Prop :=
  match xs with
  | [x] => exists d, data_at s x = Some d /\
      ((exists c, char_code d c /\ makes s s' r (DChar [c])) \/ ((forall c, ~ char_code d c) /\ complains s s' r))
  | _ => complains s s' r
  end.

(** ** distance and sqrt *)
Inductive number_of : data -> spec_float -> Prop :=
| num_int z : number_of (DInt z) (of_int z)
| num_real f : number_of (DReal f) f.
Inductive text_of : data -> text -> Prop :=
| text_string t : text_of (DStr t) t
| text_symbol t : text_of (DSym t) t
| text_char t : text_of (DChar t) t.
(** The absolute difference of numbers, the edit distance of texts. *)
Definition distance_result (s : vm) (_ : ref) (xs : list ref) (s' : vm) (r : ref) : Prop :=
  match xs with
  | [x; y] => exists d e, data_at s x = Some d /\ data_at s y = Some e /\
      ((exists f g, number_of d f /\ number_of e g /\ makes s s' r (DReal (SFabs (minus64 f g)))) \/
       (exists t u n z, text_of d t /\ text_of e u /\ edit_distance t u n /\ makes s s' r (DInt z) /\ (fits (Z.of_nat n) -> z = Z.of_nat n)) \/
       (~ (is_number d /\ is_number e) /\ ~ (is_text d /\ is_text e) /\ complains s s' r))
  | _ => complains s s' r
  end.
Definition sqrt64 : spec_float -> spec_float := SFsqrt 53 1024.
Definition sqrt_result (s : vm) (_ : ref) (xs : list ref) (s' : vm) (r : ref) : Prop :=
  match xs with
  | [x] => exists d, data_at s x = Some d /\
      ((exists f, number_of d f /\ SFltb f (of_int 0) = false /\ makes s s' r (DReal (sqrt64 f))) \/
       ((forall f, number_of d f -> SFltb f (of_int 0) = true) /\ complains s s' r))
  | _ => complains s s' r
  end.

(** ** find *)

(** [ps] are the indices with [P], in increasing order. *)
Definition all_indices (P : nat -> Prop) (ps : list nat) : Prop := StronglySorted lt ps /\ forall i, In i ps <-> P i.
(** [pat] occurs in [t] at the index [i]. *)
Definition occurs_at (pat t : text) (i : nat) : Prop := exists p q, t = p ++ pat ++ q /\ List.length p = i.
(** A new vector of the integers [ps] (when they fit). *)
Definition makes_ints (s s' : vm) (r : ref) (ps : list nat) : Prop :=
  exists ws, makes s s' r (DVec ws) /\
    Forall2 (fun w i => exists z, makes s s' w (DInt z) /\ (fits (Z.of_nat i) -> z = Z.of_nat i)) ws ps.
Definition same (s : vm) (x y : ref) : Prop := exists n, vcompare n (all s) x y = Ret 0%Z.
(** The text searched for: of a number, what it is written as (SpecReal.v); of a
    character, its (first) code point. *)
Inductive pattern : data -> text -> Prop :=
| pat_string t : pattern (DStr t) t
| pat_symbol t : pattern (DSym t) t
| pat_char c t : pattern (DChar (c :: t)) [c]
| pat_int z u : signed_text z u -> pattern (DInt z) u
| pat_real f u : real_text f u -> pattern (DReal f) u.
(** The result of searching [k] in [x]: the indices where it is, the value of a
    key, or the value of a name.  (Searching for
    an empty text aborts, except for a string in a string.) *)
Definition find_one (s : vm) (x k : ref) (s' : vm) (r : ref) : Prop :=
  exists d e, data_at s x = Some d /\ data_at s k = Some e /\
  match d with
  | DStr t => (exists pat, pattern e pat /\ pat <> [] /\ exists ps, all_indices (occurs_at pat t) ps /\ makes_ints s s' r ps) \/
      (e = DStr [] /\ makes_ints s s' r []) \/
      (~ is_text e /\ ~ is_number e /\ complains s s' r)
  | DSym t => (exists pat, pattern e pat /\ pat <> [] /\ exists ps, all_indices (occurs_at pat t) ps /\ makes_ints s s' r ps) \/
      (~ is_text e /\ ~ is_number e /\ complains s s' r)
  | DVec l => exists ps, all_indices (fun i => exists y, nth_error l i = Some y /\ same s y k) ps /\ makes_ints s s' r ps
  | DMap m => (exists q, equal_key s k m q /\ evals q = [r]) \/ (absent s m k /\ makes s s' r DNil)
  | DEnv _ _ => exists t, e = DSym t /\ (SpecEnv.denotes (all s) x t r \/ (SpecEnv.unbound (all s) x t /\ makes s s' r DNil))
  | _ => complains s s' r
  end.
Definition find_result (s : vm) (_ : ref) (xs : list ref) (s' : vm) (r : ref) : Prop :=
  match xs with
  | [x; k] => find_one s x k s' r
  | x :: k :: t => exists ws, makes s s' r (DVec ws) /\ Forall2 (fun k w => find_one s x k s' w) (k :: t) ws
  | _ => complains s s' r
  end.

(** ** split *)
Definition split_result (s : vm) (_ : ref) (xs : list ref) (s' : vm) (r : ref) : Prop :=
  match xs with
  | [x; y] => exists d e, data_at s x = Some d /\ data_at s y = Some e /\
      match d, e with
      | DStr t, DChar c => exists ws toks, makes s s' r (DVec ws) /\ Forall2 (fun w u => makes s s' w (DStr u)) ws toks /\
          (sound_text c -> c <> [] -> tokens c t toks)
      | _, _ => complains s s' r
      end
  | _ => complains s s' r
  end.
