(** What +, -, * and / give. *)
From Coq Require Import String List NArith ZArith Bool Permutation.
From Coq Require Import Floats.SpecFloat.
From Verif Require Import Base SpecSeq OString HMap Heap SpecHeap ValueOps Env Builtins Eval SpecText SpecTrace SpecSpecial SpecCall SpecDefine SpecEval SpecCopy SpecValue SpecReal Semver SpecSemver SpecBuiltin SpecWrite SpecMinus.
Local Open Scope string_scope.
Local Open Scope list_scope.
Import ListNotations.

(** ** Numbers *)

(** A number as a double. *)
Definition real_of (d : data) : option spec_float := match d with DInt z => Some (of_int z) | DReal f => Some f | _ => None end.
Definition integers (s : vm) (xs : list ref) (zs : list Z) : Prop := Forall2 (fun x z => data_at s x = Some (DInt z)) xs zs.
Definition numbers (s : vm) (xs : list ref) (fs : list spec_float) : Prop := Forall2 (fun x f => exists d, data_at s x = Some d /\ real_of d = Some f) xs fs.
(** The first argument [x] that is no number: an error is the result, for any
    other a new error is made. *)
Definition no_number (s s' : vm) (x r : ref) : Prop :=
  exists d, data_at s x = Some d /\ real_of d = None /\ (is_err d -> r = x) /\ (~ is_err d -> complains s s' r).
Definition stops (s s' : vm) (r : ref) (xs : list ref) : Prop :=
  exists l x t fs, xs = l ++ x :: t /\ numbers s l fs /\ no_number s s' x r.
(** Integers are combined to an integer; if one of the numbers is a real, all are
    taken as reals.  [z0], [f0]: to start with. *)
Definition folded (zop : Z -> Z -> Z) (fop : spec_float -> spec_float -> spec_float) (z0 : Z) (f0 : spec_float) (s : vm) (xs : list ref) (s' : vm) (r : ref) : Prop :=
  (exists zs, integers s xs zs /\ makes s s' r (DInt (fold_left zop zs z0))) \/
  (exists fs, numbers s xs fs /\ (forall zs, ~ integers s xs zs) /\ makes s s' r (DReal (fold_left fop fs f0))) \/
  stops s s' r xs.
Definition times_result (s : vm) (_ : ref) (xs : list ref) (s' : vm) (r : ref) : Prop := folded Z.mul (SFmul 53 1024) 1 (of_int 1) s xs s' r.
(** The quotients are reals; division by zero is an error. *)
Inductive quotients (s : vm) : spec_float -> list ref -> option spec_float -> Prop :=
| quot_end f : quotients s f [] (Some f)
| quot_zero f x t d b : data_at s x = Some d -> real_of d = Some (S754_zero b) -> quotients s f (x :: t) None
| quot_next f x t d g o : data_at s x = Some d -> real_of d = Some g -> (forall b, g <> S754_zero b) -> quotients s (SFdiv 53 1024 f g) t o -> quotients s f (x :: t) o.
Definition divided (s s' : vm) (r : ref) (f : spec_float) (xs : list ref) : Prop :=
  (exists g, quotients s f xs (Some g) /\ makes s s' r (DReal g)) \/ (quotients s f xs None /\ complains s s' r) \/ stops s s' r xs.
Definition slash_result (s : vm) (_ : ref) (xs : list ref) (s' : vm) (r : ref) : Prop :=
  match xs with
  | [] => complains s s' r
  | [x] => divided s s' r (of_int 1) [x]
  | x :: t => (exists d f, data_at s x = Some d /\ real_of d = Some f /\ divided s s' r f t) \/ no_number s s' x r
  end.
(** The remainder has the sign of the first number. *)
Definition mod_result (s : vm) (_ : ref) (xs : list ref) (s' : vm) (r : ref) : Prop :=
  match xs with
  | [x; y] => exists d, data_at s x = Some d /\
      match d with
      | DErr _ _ => r = x
      | DInt p => exists e, data_at s y = Some e /\
                  match e with
                  | DErr _ _ => r = y
                  | DInt q => (q = 0%Z /\ complains s s' r) \/ (q <> 0%Z /\ makes s s' r (DInt (Z.rem p q)))
                  | _ => complains s s' r
                  end
      | _ => complains s s' r
      end
  | _ => complains s s' r
  end.

(** ** Texts, versions *)

(** The text of [y]; the text of a symbol only for symbols. *)
Definition has_text (sym : bool) (s : vm) (y : ref) (u : text) : Prop :=
  data_at s y = Some (DStr u) \/ data_at s y = Some (DChar u) \/ (sym = true /\ data_at s y = Some (DSym u)).
(** The texts one after another; the first was copied by way of a C string. *)
Definition texts_added (mk : text -> data) (sym : bool) (u : text) (s : vm) (t : list ref) (s' : vm) (r : ref) : Prop :=
  (exists u' us, through_c u u' /\ Forall2 (has_text sym s) t us /\ makes s s' r (mk (u' ++ List.concat us))) \/
  ((exists y, In y t /\ forall u, ~ has_text sym s y u) /\ complains s s' r).
(** The versions [t] are added to [v], or subtracted; one that is refused is
    passed over (with what it did before it was refused). *)
Inductive versions_run (add : bool) (s : vm) : semver -> list ref -> semver -> Prop :=
| vr_end v : versions_run add s v [] v
| vr_next v y t w v1 ok v2 : data_at s y = Some (DSemver w) -> version_changed add v w v1 ok -> versions_run add s v1 t v2 -> versions_run add s v (y :: t) v2.
Definition versions_result (add : bool) (v : semver) (s : vm) (t : list ref) (s' : vm) (r : ref) : Prop :=
  (exists v', versions_run add s v t v' /\ makes s s' r (DSemver v')) \/
  ((exists y, In y t /\ forall w, data_at s y <> Some (DSemver w)) /\ complains s s' r).

(** ** Collections *)

(** [r] is new with all its parts; [c'] is its cell. *)
Definition all_new (s s' : vm) (r : ref) (c' : cell) : Prop :=
  (nextId s <= r)%N /\ lookup (all s') r = Some c' /\ forall y, reachable (all s') [r] y -> (nextId s <= y)%N.
Definition pair_entry (p : ref * ref) : element ref ref := mkElem 0 (fst p) [snd p].
Definition vectors_added (c : cell) (l : list ref) (s : vm) (x : ref) (t : list ref) (s' : vm) (r : ref) : Prop :=
  (forall y, In y (x :: t) -> plain_maps (all s) y) ->
  exists c' l', all_new s s' r c' /\ cdata c' = DVec l' /\ copied_all (all s) (all s') (l ++ t) l' /\ copied_doc (all s) (all s') (cdoc c) (cdoc c').
(** No key is equal to a key before it, and all are atoms. *)
Definition plain_entries (s : vm) (es : list (element ref ref)) : Prop :=
  (forall e, In e es -> is_atom (all s) (ekey e)) /\ ForallOrdPairs (fun e1 e2 => forall n, vcompare n (all s) (ekey e2) (ekey e1) <> Ret 0%Z) es.
Definition maps_added (c : cell) (m : hmap ref ref) (s : vm) (x : ref) (t : list ref) (s' : vm) (r : ref) : Prop :=
  match in_pairs t with
  | None => complains s s' r
  | Some kvs =>
      (forall y, In y (x :: t) -> plain_maps (all s) y) -> plain_entries s (List.concat (buckets m) ++ map pair_entry kvs) ->
      exists c' m' es, all_new s s' r c' /\ cdata c' = DMap m' /\ Permutation es (List.concat (buckets m')) /\
        copied_pairs (all s) (all s') (List.concat (buckets m) ++ map pair_entry kvs) es /\ copied_doc (all s) (all s') (cdoc c) (cdoc c')
  end.

Definition plus_result (s : vm) (_ : ref) (xs : list ref) (s' : vm) (r : ref) : Prop :=
  match xs with
  | [] => makes s s' r (DInt 0)
  | x :: t => exists c, lookup (all s) x = Some c /\
      match cdata c with
      | DStr u | DChar u => texts_added DStr false u s t s' r
      | DSym u => texts_added DSym true u s t s' r
      | DVec l => vectors_added c l s x t s' r
      | DMap m => maps_added c m s x t s' r
      | DSemver v => versions_result true v s t s' r
      | _ => folded Z.add plus64 0 (S754_zero false) s xs s' r
      end
  end.
(** The first argument is not a string. *)
Definition minus_result (s : vm) (xs : list ref) (s' : vm) (r : ref) : Prop :=
  match xs with
  | [] => makes s s' r (DInt 0)
  | x :: t => exists d, data_at s x = Some d /\
      match d with
      | DStr _ => True
      | DSemver v => versions_result false v s t s' r
      | DInt z => match t with [] => makes s s' r (DInt (- z)) | _ => folded Z.sub minus64 z (of_int z) s t s' r end
      | DReal f => match t with
                   | [] => makes s s' r (DReal (SFopp f))
                   | _ => (exists fs, numbers s t fs /\ makes s s' r (DReal (fold_left minus64 fs f))) \/ stops s s' r t
                   end
      | DErr _ _ => r = x
      | _ => complains s s' r
      end
  end.
(** The first argument is the string [x]: the texts are removed from it. *)
Definition minus_text_result (s : vm) (x : ref) (t : list ref) (evs : list event) (s' : vm) (r : ref) : Prop :=
  (cuts x t evs /\ r = x) \/
  exists l y u e, t = l ++ y :: u /\ cuts x l evs /\ data_at (last_after s evs) y = Some e /\ ~ is_str_or_char e /\ complains s s' r.
