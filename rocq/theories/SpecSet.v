(** What = does: (= x y) makes [x] a copy of [y], (= x k y) changes one part of
    [x].  Events as in SpecWrite.v. *)
From Coq Require Import String List NArith ZArith Bool Permutation.
From Verif Require Import Base SpecSeq OString HMap Heap SpecHeap ValueOps Env Builtins Eval SpecText SpecTrace SpecSpecial SpecCall SpecDefine SpecEval SpecCopy SpecBuiltin SpecWrite.
Local Open Scope list_scope.
Import ListNotations.

(** ** (= x y) *)

(** What [x] first becomes: empty, of the kind of [y]; or what [y] is. *)
Inductive emptied : data -> data -> Prop :=
| em_vector l : emptied (DVec l) (DVec [])
| em_list l : emptied (DList l) (DList [])
| em_queue l max : emptied (DQueue l max) (DQueue [] None)
| em_map m m0 : proper m0 -> entries m0 = [] -> emptied (DMap m) (DMap m0)
| em_other d : match d with DVec _ | DList _ | DQueue _ _ | DMap _ | DEnv _ _ | DFun _ | DMac _ | DSpecial _ | DBuiltin _ => False | _ => True end -> emptied d d.
Inductive appended : data -> ref -> data -> Prop :=
| ap_vector l w : appended (DVec l) w (DVec (l ++ [w]))
| ap_list l w : appended (DList l) w (DList (l ++ [w]))
| ap_queue l w : appended (DQueue l None) w (DQueue (l ++ [w]) None).
(** [self] gets the values [l], atoms copied, in their order. *)
Inductive fills (self : ref) : vm -> list ref -> list event -> Prop :=
| fill_end s : fills self s [] []
| fill_next s x t w d d' s1 s2 evs : defined s x w s1 -> data_at s1 self = Some d -> appended d w d' -> fills self s2 t evs ->
    fills self s (x :: t) (Put self d' s1 s2 :: evs).
(** [m'] is the map [m] in which the key [k], whose hash is [hk], has the only
    value [v]: the entry found in the place of that hash, if any, is gone. *)
Definition assigned (s : vm) (m : hmap ref ref) (hk : N) (k v : ref) (m' : hmap ref ref) : Prop :=
  proper m ->
  (exists n, (forall e, In e (nth (bucket_index hk (List.length (buckets m))) (buckets m) []) -> exists z, vcompare n (all s) k (ekey e) = Ret z /\ z <> 0%Z) /\
     proper m' /\ Permutation (entries m') ((k, [v]) :: entries m)) \/
  (exists e n rest, Permutation (entries m) ((ekey e, evals e) :: rest) /\ vcompare n (all s) k (ekey e) = Ret 0%Z /\
     ((forall k' vs i, In (k', vs) rest -> vcompare i (all s) k k' <> Ret 0%Z) -> proper m' /\ Permutation (entries m') ((k, [v]) :: rest))).
(** [self] gets the keys and values of the elements, atoms copied. *)
Inductive map_fills (self : ref) : vm -> list (element ref ref) -> list event -> Prop :=
| mf_end s : map_fills self s [] []
| mf_next s e v t k' v' m m' s1 s2 s3 evs : evals e = [v] -> defined s (ekey e) k' s1 -> defined s1 v v' s2 -> data_at s2 self = Some (DMap m) ->
    assigned s2 m (ehash e) k' v' m' -> map_fills self s3 t evs -> map_fills self s (e :: t) (Put self (DMap m') s2 s3 :: evs).
(** The documentation of [x] becomes a copy of that of [y], if there is one.  The
    documentation of the arguments is not kept alive by a value that is not a
    function, and nothing is said about its copy. *)
Definition doc_of (s : vm) (r : ref) : option ref := match lookup (all s) r with Some c => cdoc c | None => None end.
Definition docvec_of (s : vm) (r : ref) : option ref := match lookup (all s) r with Some c => cdocvec c | None => None end.
Definition copies (s : vm) (d d' : ref) (s' : vm) : Prop := plain_maps (all s) d -> copied (all s) (all s') d d'.
Inductive doc_copied (x y : ref) (s : vm) : list event -> vm -> Prop :=
| dc_none : doc_of s y = None -> doc_copied x y s [] s
| dc_some d d' s1 s2 : doc_of s y = Some d -> copies s d d' s1 -> doc_copied x y s [Docs x (Some d') (docvec_of s1 x) s1 s2] s2.
Inductive docvec_copied (x y : ref) (s : vm) : list event -> Prop :=
| dv_none : docvec_of s y = None -> docvec_copied x y s []
| dv_some d d' s1 s2 : docvec_of s y = Some d -> docvec_copied x y s [Docs x (doc_of s1 x) (Some d') s1 s2].
Inductive set_run (s : vm) (x y : ref) : list event -> Prop :=
| set_same : x = y -> set_run s x y []
| set_other d d0 s1 s2 s3 s4 evs evd evv : x <> y -> data_at s y = Some d -> emptied d d0 ->
    match d with DVec l | DList l | DQueue l _ => fills x s2 l evs | DMap m => map_fills x s2 (firstn (numElements m) (List.concat (buckets m))) evs | _ => evs = [] end ->
    doc_copied x y s3 evd s4 -> docvec_copied x y s4 evv ->
    set_run s x y (Renew x d0 s1 s2 :: evs ++ evd ++ evv).

(** ** (= x k y) *)

(** [n] new nils at the end of the vector [self]. *)
Inductive pads (self : ref) : nat -> vm -> list event -> Prop :=
| pad_end s : pads self 0 s []
| pad_next n s x l s1 s2 evs : makes s s1 x DNil -> data_at s1 self = Some (DVec l) -> pads self n s2 evs -> pads self (S n) s (Put self (DVec (l ++ [x])) s1 s2 :: evs).
Definition size_ok (t u : text) (i : Z) : Prop := (Z.of_nat (List.length t + List.length u) < 2 ^ 62)%Z /\ (- 2 ^ 63 <= i < 2 ^ 63)%Z.
Definition part_run (s : vm) (x k y : ref) (evs : list event) (s' : vm) (r : ref) : Prop :=
  exists d dk dy, data_at s x = Some d /\ data_at s k = Some dk /\ data_at s y = Some dy /\
  match d with
  | DStr t =>
      match dk, dy with
      | DInt i, DChar u => exists t' s1 s2, evs = [Put x (DStr t') s1 s2] /\
          (size_ok t u i ->
           match position (List.length t) i with
           | Some p => t' = firstn p t ++ u ++ skipn (p + List.length u) t /\ r = x
           | None => if (i <? 0)%Z then t' = t /\ complains s s' r else t' = t ++ u /\ r = x
           end)
      | _, _ => evs = [] /\ complains s s' r
      end
  | DVec l =>
      match dk with
      | DInt i =>
          if (i <? 0)%Z then evs = [] /\ complains s s' r
          else if (i <? Z.of_nat (List.length l))%Z then
            exists w s1 s2, evs = [Put x (DVec (firstn (Z.to_nat i) l ++ w :: skipn (S (Z.to_nat i)) l)) s1 s2] /\ defined s y w s1 /\ r = x
          else exists evp s1 w s2 s3 l', evs = evp ++ [Put x (DVec (l' ++ [w])) s2 s3] /\
            pads x (Z.to_nat i - List.length l) s evp /\ s1 = last_after s evp /\ defined s1 y w s2 /\ data_at s2 x = Some (DVec l') /\ r = x
      | _ => evs = [] /\ complains s s' r
      end
  | DMap _ => exists w hk m m' s1 s2, evs = [Put x (DMap m') s1 s2] /\ defined s y w s1 /\ data_at s1 x = Some (DMap m) /\ vhash (all s1) k = Ret hk /\ assigned s1 m hk k w m' /\ r = x
  | DEnv _ _ => exists s1 s2, evs = [Bind x k y s1 s2] /\ r = x
  | DList _ | DQueue _ _ => False
  | _ => evs = [] /\ complains s s' r
  end.
(** A symbol as the first argument is not modelled. *)
Definition set_result (s : vm) (xs : list ref) (evs : list event) (s' : vm) (r : ref) : Prop :=
  match xs with
  | [x; y] => set_run s x y evs /\ r = x
  | [x; k; y] => part_run s x k y evs s' r
  | _ => evs = [] /\ complains s s' r
  end.
