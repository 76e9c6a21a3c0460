(** What a call leaves as it was. *)
From Coq Require Import List NArith Bool.
From Verif Require Import Base HMap Heap SpecHeap ValueOps Env Builtins SpecText SpecValue SpecTrace SpecSpecial SpecCall SpecDefine.
Local Open Scope list_scope.
Import ListNotations.

(** [z] can be reached without going through [x]. *)
Inductive apart (x : ref) (h : heap) (base : list ref) : ref -> Prop :=
| ap_root z : In z base -> z <> x -> apart x h base z
| ap_step y c z : apart x h base y -> lookup h y = Some c -> refers c z -> z <> x -> apart x h base z.
(** A change of [x] and of nothing else. *)
Definition only (x : ref) (e : event) : Prop :=
  match e with Put v _ _ _ | Renew v _ _ _ | Docs v _ _ _ _ => v = x | _ => False end.
(** Nothing that can be reached without going through [x] differs. *)
Definition changes_only (x : ref) (s s' : vm) : Prop :=
  forall z c, apart x (all s) (stack s) z -> lookup (all s) z = Some c -> exists c', lookup (all s') z = Some c' /\ alike c c'.
(** [w] is what [z] becomes as an element of [x]: itself; an atom is
    copied, and the copy is none of the values there were. *)
Definition taken (x : ref) (base : list ref) (s s' : vm) (z w : ref) : Prop :=
  exists d, data_at s z = Some d /\ data_at s' w = Some d /\ (atomic d -> w <> x /\ (apart x (all s) base w -> lookup (all s) w = None)) /\ (~ atomic d -> w = z).

(** A hash map whose keys are strings, no two the same, each in its place. *)
Record string_map (s : vm) (m : hmap ref ref) : Prop := {
  sm_some : 0 < List.length (buckets m);
  sm_count : numElements m = List.length (List.concat (buckets m));
  sm_placed : forall i e, In e (nth i (buckets m) []) -> i = bucket_index (ehash e) (List.length (buckets m));
  sm_keys : forall e, In e (List.concat (buckets m)) -> exists t, data_at s (ekey e) = Some (DStr t) /\ sound_text t /\ vhash (all s) (ekey e) = Ret (ehash e);
  sm_distinct : NoDup (map (fun e => data_at s (ekey e)) (List.concat (buckets m)))
}.
