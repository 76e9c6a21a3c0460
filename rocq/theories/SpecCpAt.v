(** What cp@ gives. *)
From Coq Require Import String List NArith ZArith Bool.
From Coq Require Import Floats.SpecFloat.
From Verif Require Import Base SpecSeq OString HMap Heap SpecHeap ValueOps Env Builtins Eval SpecText SpecTrace SpecSpecial SpecCall SpecDefine SpecCopy SpecValue Semver SpecEval SpecBuiltin SpecSearch SpecPlus.
Local Open Scope list_scope.
Import ListNotations.

(** [r] is a copy of [y], all of it new. *)
Definition a_copy (s s' : vm) (y r : ref) : Prop :=
  plain_maps (all s) y -> copied (all s) (all s') y r /\ forall z, reachable (all s') [r] z -> (nextId s <= z)%N.
(** The number an index stands for: reals lose their fraction. *)
Definition place (s : vm) (i : ref) (z : Z) : Prop :=
  data_at s i = Some (DInt z) \/ exists f, data_at s i = Some (DReal f) /\ truncated f z.
Definition no_place (s : vm) (i : ref) : Prop := exists d, data_at s i = Some d /\ real_of d = None.
Definition word (z : Z) : Prop := (- 2 ^ 63 <= z < 2 ^ 63)%Z.
(** From the index of [i] to that of the argument after it, if there is one. *)
Definition places (s : vm) (i : ref) (t : list ref) (z1 z2 : Z) : Prop :=
  place s i z1 /\ match t with [] => z2 = z1 | j :: _ => place s j z2 end.
(** One element ([one]) or, for different indices, all elements between them ([many]),
    of a sequence of [n] elements. *)
Definition taken (n : nat) (s : vm) (i : ref) (t : list ref) (s' : vm) (r : ref) (one : nat -> Prop) (many : nat -> nat -> Prop) : Prop :=
  (exists j, In j (i :: t) /\ no_place s j /\ complains s s' r) \/
  (exists z, place s i z /\ (word z -> (Z.of_nat n < 2 ^ 63)%Z -> position n z = None) /\ complains s s' r) \/
  exists z1 z2, places s i t z1 z2 /\ (word z1 -> word z2 -> (Z.of_nat n < 2 ^ 63)%Z ->
    match position n z1, position n z2 with
    | Some k1, Some k2 => if (z1 =? z2)%Z then one k1 else (k1 <= k2)%nat /\ many k1 (S (k2 - k1))
    | _, _ => complains s s' r
    end).
Definition part_text (u : text) (t' : data) : Prop := exists v, through_c u v /\ t' = DStr v.
Definition part_number (m : N) (d : data) : Prop := exists z, d = DInt z /\ (fits (Z.of_N m) -> z = Z.of_N m).
(** The parts of a version; all parts of the pre-release are taken for the first. *)
Definition version_part (v : semver) (k : nat) (d : data) : Prop :=
  match k with
  | 0 => part_number (major v) d
  | 1 => part_number (minor v) d
  | 2 => part_number (patch v) d
  | S (S (S k)) =>
      if Nat.ltb k (List.length (pre v)) then
        match hd_error (pre v) with Some (INum m) => part_number m d | Some (ILex u) => part_text u d | None => False end
      else exists u, nth_error (build v) (k - List.length (pre v)) = Some u /\ part_text u d
  end.
Definition version_size (v : semver) : nat := 3 + List.length (pre v) + List.length (build v).
Definition cp_at_result (s : vm) (_ : ref) (xs : list ref) (s' : vm) (r : ref) : Prop :=
  match xs with
  | x :: i :: t => exists d, data_at s x = Some d /\
      match d, t with
      | DStr u, ([] | [_]) | DSym u, ([] | [_]) =>
          taken (List.length u) s i t s' r
            (fun k => exists c, nth_error u k = Some c /\ makes s s' r (DChar [c]))
            (fun k n => exists ws, makes s s' r (DVec ws) /\ Forall2 (fun w c => makes s s' w (DChar [c])) ws (firstn n (skipn k u)))
      | DVec l, ([] | [_]) =>
          taken (List.length l) s i t s' r
            (fun k => exists y, nth_error l k = Some y /\ a_copy s s' y r)
            (fun k n => (forall y, In y (firstn n (skipn k l)) -> plain_maps (all s) y) ->
               exists c' ws, all_new s s' r c' /\ cdata c' = DVec ws /\ copied_all (all s) (all s') (firstn n (skipn k l)) ws)
      | DMap m, [w] => exists o, map_value s m i w o /\ match o with Some v => a_copy s s' v r | None => complains s s' r end
      | DQueue _ _, _ => False
      | DList l, [] => exists e, data_at s i = Some e /\
          match e with DInt z => exists y, at_index l z = Some y /\ a_copy s s' y r | _ => complains s s' r end
      | DNil, [] => makes s s' r DNil
      (* a bit of the number in two's complement; negative indices count from the highest *)
      | DInt b, [] => exists e, data_at s i = Some e /\
          match e with
          | DInt z => match position 32 z with
                      | Some k => makes s s' r (DInt (if Z.testbit b (Z.of_nat k) then 1 else 0)%Z)
                      | None => complains s s' r
                      end
          | _ => complains s s' r
          end
      | DSemver v, [] => exists e, data_at s i = Some e /\
          match e with
          | DInt z => if (z =? - Z.of_nat (version_size v))%Z then complains s s' r
                      else match position (version_size v) z with
                           | Some k => exists d, version_part v k d /\ makes s s' r d
                           | None => complains s s' r
                           end
          | _ => complains s s' r
          end
      | _, _ => complains s s' r
      end
  | _ => complains s s' r
  end.
