(** What -= and -== do.  (See SpecWrite.v for the events.) *)
From Coq Require Import String List NArith ZArith Bool Permutation.
From Coq Require Import Floats.SpecFloat.
From Verif Require Import Base SpecSeq OString HMap Heap SpecHeap ValueOps Env Builtins Eval SpecText SpecStr SpecTrace SpecSpecial SpecCall SpecDefine SpecEval SpecPrint SpecValue SpecReal Semver SpecSemver SpecBuiltin SpecWrite SpecSearch.
Local Open Scope string_scope.
Local Open Scope list_scope.
Import ListNotations.

(** Numbers; the difference of an integer and a real is a real.  Strings that
    stand for numbers are read. *)
Inductive difference : data -> data -> data -> Prop :=
| diff_ints x y : fits (x - y) -> difference (DInt x) (DInt y) (DInt (x - y))
| diff_mixed x y : difference (DInt x) (DReal y) (DReal (minus64 (of_int x) y))
| diff_real_int x y : difference (DReal x) (DInt y) (DReal (minus64 x (of_int y)))
| diff_reals x y : difference (DReal x) (DReal y) (DReal (minus64 x y))
| diff_text x t i z : numeric t -> leading_int t i -> long (x - as_long i) -> cut32 (x - as_long i) z -> difference (DInt x) (DStr t) (DInt z)
| diff_real_text x t i : numeric t -> leading_int t i -> difference (DReal x) (DStr t) (DReal (minus64 x (of_int (as_long i)))).

(** The vector [x] holds [kept] and then [rest]: those of [rest] with [P] are
    taken out, one after another.  The machine is [s] before and [s'] after. *)
Inductive sweep (P : vm -> ref -> Prop) (x : ref) : vm -> list ref -> list ref -> list event -> vm -> Prop :=
| sweep_end s kept : sweep P x s kept [] [] s
| sweep_keep s kept v rest evs s' : ~ P s v -> sweep P x s (kept ++ [v]) rest evs s' -> sweep P x s kept (v :: rest) evs s'
| sweep_drop s kept v rest s1 evs s' : P s v -> sweep P x s1 kept rest evs s' ->
    sweep P x s kept (v :: rest) (Put x (DVec (kept ++ rest)) s s1 :: evs) s'.
(** For each of the [ys] the elements that are like it are taken out. *)
Inductive sweeps (like : vm -> ref -> ref -> Prop) (x : ref) : vm -> list ref -> list event -> Prop :=
| sweeps_end s : sweeps like x s [] []
| sweeps_next s y t l evs s1 evs' : data_at s x = Some (DVec l) -> sweep (fun s v => like s y v) x s [] l evs s1 ->
    sweeps like x s1 t evs' -> sweeps like x s (y :: t) (evs ++ evs').

(** [v'] is [v] after removing occurrences of [u] until there is none. *)
Definition cut_out (u v v' : text) : Prop :=
  u <> [] -> (Z.of_nat (List.length v) + Z.of_nat (List.length u) < 2 ^ 62)%Z -> ~ occurs u v' /\ exists n, removals u v n v'.
(** The texts [ys] are removed from the string [x]. *)
Inductive cuts (x : ref) : list ref -> list event -> Prop :=
| cuts_end : cuts x [] []
| cuts_next y t u v v' s1 s2 evs : data_at s1 x = Some (DStr v) -> (data_at s1 y = Some (DStr u) \/ data_at s1 y = Some (DChar u)) ->
    cut_out u v v' -> cuts x t evs -> cuts x (y :: t) (Put x (DStr v') s1 s2 :: evs).
Definition is_str_or_char (d : data) : Prop := match d with DStr _ | DChar _ => True | _ => False end.

(** [m'] is [m] without an entry whose key is equal to [k]. *)
Definition without (s : vm) (m : hmap ref ref) (k : ref) (m' : hmap ref ref) : Prop :=
  proper m -> proper m' /\ exists e, In e (List.concat (buckets m)) /\ same s k (ekey e) /\
    Permutation (List.concat (buckets m)) (e :: List.concat (buckets m')).
(** The keys [ks] are removed from the map [x]. *)
Inductive removes (x : ref) : list ref -> list event -> Prop :=
| removes_end : removes x [] []
| removes_next k t m m' s1 s2 evs : data_at s1 x = Some (DMap m) -> without s1 m k m' -> removes x t evs ->
    removes x (k :: t) (Put x (DMap m') s1 s2 :: evs).

(** Versions are subtracted from the version [self]; of its own pre-release only
    some identifiers [p] are taken out. *)
Inductive lowers (self : ref) : list ref -> list event -> Prop :=
| lower_end : lowers self [] []
| lower_next y t v w v' s1 s2 evs : y <> self -> data_at s1 self = Some (DSemver v) -> data_at s1 y = Some (DSemver w) -> version_changed false v w v' true -> lowers self t evs ->
    lowers self (y :: t) (Put self (DSemver v') s1 s2 :: evs)
| lower_self t v p v' s1 s2 evs : data_at s1 self = Some (DSemver v) -> version_changed false v (mkSemver (major v) (minor v) (patch v) p []) v' true -> lowers self t evs ->
    lowers self (self :: t) (Put self (DSemver v') s1 s2 :: evs).
(** What [y] does to it when it is refused: nothing if it is no version. *)
Definition refuses (s : vm) (self : ref) (y : ref) (evs : list event) : Prop :=
  (exists d, evs = [] /\ data_at s y = Some d /\ forall w, d <> DSemver w) \/
  (exists v w v' s1 s2, evs = [Put self (DSemver v') s1 s2] /\ data_at s1 self = Some (DSemver v) /\ data_at s1 y = Some (DSemver w) /\ version_changed false v w v' false).
Definition minus_eq_result (s : vm) (xs : list ref) (evs : list event) (s' : vm) (r : ref) : Prop :=
  match xs with
  | [] => evs = [] /\ complains s s' r
  | x :: t => exists d, data_at s x = Some d /\
      match d with
      | DInt _ | DReal _ => added_all difference skip s x t evs /\ r = x
      | DVec _ => sweeps same x s t evs /\ r = x
      | DStr _ => (cuts x t evs /\ r = x) \/
          exists l y u e, t = l ++ y :: u /\ cuts x l evs /\ data_at (last_after s evs) y = Some e /\ ~ is_str_or_char e /\ complains s s' r
      | DMap _ => (removes x t evs /\ r = x) \/
          exists l y u m, t = l ++ y :: u /\ removes x l evs /\ data_at (last_after s evs) x = Some (DMap m) /\ absent (last_after s evs) m y /\ complains s s' r
      | DErr _ _ => evs = [] /\ r = x
      | DChar u => r = x /\
          match t with
          | [] => evs = []
          | [y] => exists e, data_at s y = Some e /\
              match e with
              | DInt z => exists u' s1 s2, shifted u (- z) u' /\ evs = [Put x (DChar u') s1 s2]
              | DChar w => exists c w' u' s1 s2, w = c :: w' /\ shifted u (- Z.of_N c) u' /\ evs = [Put x (DChar u') s1 s2]
              | _ => evs = []
              end
          | _ => False
          end
      | DSemver _ => (lowers x t evs /\ r = x) \/
          exists l y u evs1 evs2, t = l ++ y :: u /\ evs = evs1 ++ evs2 /\ lowers x l evs1 /\ refuses s x y evs2 /\ complains s s' r
      | _ => evs = [] /\ complains s s' r
      end
  end.
Definition minus_eq_eq_result (s : vm) (xs : list ref) (evs : list event) (s' : vm) (r : ref) : Prop :=
  match xs with
  | [] => evs = [] /\ complains s s' r
  | x :: t => exists d, data_at s x = Some d /\
      match d with
      | DVec _ => sweeps (fun _ y v => y = v) x s t evs /\ r = x
      | DErr _ _ => evs = [] /\ r = x
      | _ => evs = [] /\ complains s s' r
      end
  end.

(** [x] is [v] or inside it. *)
Definition items_of (d : data) : list ref := match d with DVec l | DQueue l _ | DList l => l | _ => [] end.
Inductive inside (s : vm) (x : ref) : ref -> Prop :=
| in_self : inside s x x
| in_item v d w : data_at s v = Some d -> In w (items_of d) -> inside s x w -> inside s x v.
(** [l'] are those of [l], whose trees are [us], that are like none of [ts]. *)
Inductive unlike (ts : list tree) : list ref -> list tree -> list ref -> Prop :=
| un_end : unlike ts [] [] []
| un_keep v u l us l' : ~ In u ts -> unlike ts l us l' -> unlike ts (v :: l) (u :: us) (v :: l')
| un_drop v u l us l' : In u ts -> unlike ts l us l' -> unlike ts (v :: l) (u :: us) l'.
