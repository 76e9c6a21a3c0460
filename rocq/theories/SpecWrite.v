(** What the builtins that change their arguments do.  A [Put] event carries the
    machine before and after the change; between the events nothing the program
    can reach changes (SpecTrace.v). *)
From Coq Require Import String List NArith ZArith Bool Permutation.
From Coq Require Import Floats.SpecFloat.
From Verif Require Import Base SpecSeq OString HMap Heap SpecHeap ValueOps Env Builtins Eval SpecText SpecTrace SpecSpecial SpecCall SpecDefine SpecEval SpecReal SpecPrint SpecBuiltin Semver SpecSemver.
Local Open Scope string_scope.
Local Open Scope list_scope.
Import ListNotations.

(** Binary64, rounding to the nearest. *)
Definition plus64 : spec_float -> spec_float -> spec_float := SFadd 53 1024.
Definition minus64 : spec_float -> spec_float -> spec_float := SFsub 53 1024.
(** The double of an integer. *)
Definition of_int (z : Z) : spec_float := binary_normalize 53 1024 z 0 false.

(** The number at the start of a text: white space, a sign, digits. *)
Definition white (c : N) : Prop := c = 32%N \/ (9 <= c <= 13)%N.
Definition stops (t : text) : Prop := forall c r, t = c :: r -> ~ digit c.
Inductive leading_int : text -> Z -> Prop :=
| lead_plain sp u rest : Forall white sp -> Forall digit u -> u <> [] -> stops rest -> leading_int (sp ++ u ++ rest) (Z.of_N (digits_worth u))
| lead_plus sp u rest : Forall white sp -> Forall digit u -> stops rest -> leading_int (sp ++ 43%N :: u ++ rest) (Z.of_N (digits_worth u))
| lead_minus sp u rest : Forall white sp -> Forall digit u -> stops rest -> leading_int (sp ++ 45%N :: u ++ rest) (- Z.of_N (digits_worth u))
| lead_none sp rest : Forall white sp -> stops rest -> (forall c r, rest = c :: r -> ~ white c /\ c <> 43%N /\ c <> 45%N) -> leading_int (sp ++ rest) 0.

(** The texts that stand for numbers: of digits and '-' only. *)
Definition numeric (t : text) : Prop := Forall (fun c => c = 45%N \/ digit c) t.
(** An integer as a long, as strtol has it. *)
Definition as_long (i : Z) : Z := Z.max (- 2 ^ 63) (Z.min (2 ^ 63 - 1) i).
Definition long (z : Z) : Prop := (- 2 ^ 63 <= z < 2 ^ 63)%Z.
(** The last 32 bits of [z], as a signed and as an unsigned number. *)
Definition cut32 (z z' : Z) : Prop := fits z' /\ exists k, (z = z' + k * 2 ^ 32)%Z.
Definition cut_unsigned (z : Z) (c : N) : Prop := (c < 2 ^ 32)%N /\ exists k, (z = Z.of_N c + k * 2 ^ 32)%Z.

(** ** ++ and -- *)

(** The values [xs] are changed one after another as [step] says, reading each
    just before it is changed. *)
Inductive changed (step : data -> data -> Prop) : list ref -> list event -> Prop :=
| ch_end : changed step [] []
| ch_next x l d d' s s' evs : data_at s x = Some d -> step d d' -> changed step l evs -> changed step (x :: l) (Put x d' s s' :: evs).
(** All arguments are changed and the last is the result; or those before the
    first one that cannot be changed are, and the result is an error. *)
Definition each_result (step : data -> data -> Prop) (ready : data -> Prop) (s : vm) (xs : list ref) (evs : list event) (s' : vm) (r : ref) : Prop :=
  (xs = [] /\ evs = [] /\ complains s s' r) \/
  (changed step xs evs /\ exists l, xs = l ++ [r]) \/
  exists l x t d, xs = l ++ x :: t /\ changed step l evs /\ data_at (last_after s evs) x = Some d /\ ~ ready d /\ complains s s' r.
Inductive incremented : data -> data -> Prop :=
| inc_int z : fits (z + 1) -> incremented (DInt z) (DInt (z + 1))
| inc_real f : incremented (DReal f) (DReal (plus64 f (of_int 1))).
Inductive decremented : data -> data -> Prop :=
| dec_int z : fits (z - 1) -> decremented (DInt z) (DInt (z - 1))
| dec_real f : decremented (DReal f) (DReal (minus64 f (of_int 1)))
| dec_queue x q max : decremented (DQueue (x :: q) max) (DQueue q max)
| dec_queue_empty max : decremented (DQueue [] max) (DQueue [] max)
| dec_list q x : decremented (DList (q ++ [x])) (DList q)
| dec_list_empty : decremented (DList []) (DList [])
| dec_vector q x : decremented (DVec (q ++ [x])) (DVec q)
| dec_string t c : decremented (DStr (t ++ [c])) (DStr t).
Definition removable (d : data) : Prop :=
  match d with DInt _ | DReal _ | DQueue _ _ | DList _ => True | DVec l => l <> [] | DStr t => t <> [] | _ => False end.

(** ** pop-back and pop-front *)
Inductive popped_back : data -> data -> Prop :=
| pb_queue x q max : popped_back (DQueue (x :: q) max) (DQueue q max)
| pb_queue_empty max : popped_back (DQueue [] max) (DQueue [] max)
| pb_list q x : popped_back (DList (q ++ [x])) (DList q)
| pb_list_empty : popped_back (DList []) (DList [])
| pb_vector q x : popped_back (DVec (q ++ [x])) (DVec q)
| pb_vector_empty : popped_back (DVec []) (DVec [])
| pb_string t c : popped_back (DStr (t ++ [c])) (DStr t)
| pb_string_empty : popped_back (DStr []) (DStr [])
| pb_build a b c p q x : popped_back (DSemver (mkSemver a b c p (q ++ [x]))) (DSemver (mkSemver a b c p q))
| pb_pre a b c q x : popped_back (DSemver (mkSemver a b c (q ++ [x]) [])) (DSemver (mkSemver a b c q []))
| pb_version a b c : popped_back (DSemver (mkSemver a b c [] [])) (DSemver (mkSemver a b c [] [])).
Inductive popped_front : data -> data -> Prop :=
| pf_list x q : popped_front (DList (x :: q)) (DList q)
| pf_list_empty : popped_front (DList []) (DList [])
| pf_vector x q : popped_front (DVec (x :: q)) (DVec q)
| pf_vector_empty : popped_front (DVec []) (DVec [])
| pf_string c t : popped_front (DStr (c :: t)) (DStr t)
| pf_string_empty : popped_front (DStr []) (DStr [])
| pf_build a b c p q x : popped_front (DSemver (mkSemver a b c p (x :: q))) (DSemver (mkSemver a b c p q))
| pf_pre a b c q x : popped_front (DSemver (mkSemver a b c (x :: q) [])) (DSemver (mkSemver a b c q []))
| pf_version a b c : popped_front (DSemver (mkSemver a b c [] [])) (DSemver (mkSemver a b c [] [])).
Definition can_pop_back (d : data) : Prop := match d with DQueue _ _ | DList _ | DVec _ | DStr _ | DSemver _ => True | _ => False end.
Definition can_pop_front (d : data) : Prop := match d with DList _ | DVec _ | DStr _ | DSemver _ => True | _ => False end.
(** Symbols are not modelled. *)
Definition pop_result (step : data -> data -> Prop) (ready : data -> Prop) (s : vm) (xs : list ref) (evs : list event) (s' : vm) (r : ref) : Prop :=
  (exists x d d' s1 s2, xs = [x] /\ data_at s x = Some d /\ ready d /\ step d d' /\ evs = [Put x d' s1 s2] /\ r = x) \/
  (evs = [] /\ exists x d, xs = [x] /\ data_at s x = Some d /\ is_err d /\ r = x) \/
  (evs = [] /\ complains s s' r /\ forall x d, xs = [x] -> data_at s x = Some d -> ~ ready d /\ ~ is_err d).

(** ** += *)

(** What adding the value of an argument to [self] does: values of the kind
    [step] are added, of vectors the elements are added in their order; [other]
    is what happens with other values, which may be nothing. *)
Definition effect := vm -> ref -> data -> data -> Prop.
Inductive added (step : data -> data -> data -> Prop) (other : effect) (s : vm) (self : ref) : ref -> list event -> Prop :=
| add_value x d e d' s1 s2 : data_at s1 self = Some d -> data_at s1 x = Some e -> step d e d' -> added step other s self x [Put self d' s1 s2]
| add_vector x l evs : data_at s x = Some (DVec l) -> added_all step other s self l evs -> added step other s self x evs
| add_other x d d' s1 s2 : data_at s1 self = Some d -> other s1 x d d' -> added step other s self x [Put self d' s1 s2]
| add_skipped x e : data_at s x = Some e -> ~ is_vec e -> (forall d d', ~ step d e d') -> (forall s1 d d', ~ other s1 x d d') -> added step other s self x []
with added_all (step : data -> data -> data -> Prop) (other : effect) (s : vm) (self : ref) : list ref -> list event -> Prop :=
| add_none : added_all step other s self [] []
| add_more x l evs evs' : added step other s self x evs -> added_all step other s self l evs' -> added_all step other s self (x :: l) (evs ++ evs').
Definition skip : effect := fun _ _ _ _ => False.
(** Numbers; the sum of an integer and a real is a real.  Strings that stand for
    numbers are read. *)
Inductive sum : data -> data -> data -> Prop :=
| sum_ints x y : fits (x + y) -> sum (DInt x) (DInt y) (DInt (x + y))
| sum_mixed x y : sum (DInt x) (DReal y) (DReal (plus64 (of_int x) y))
| sum_real_int x y : sum (DReal x) (DInt y) (DReal (plus64 x (of_int y)))
| sum_reals x y : sum (DReal x) (DReal y) (DReal (plus64 x y))
| sum_text x t i z : numeric t -> leading_int t i -> long (x + as_long i) -> cut32 (x + as_long i) z -> sum (DInt x) (DStr t) (DInt z)
| sum_real_text x t i : numeric t -> leading_int t i -> sum (DReal x) (DStr t) (DReal (plus64 x (of_int (as_long i)))).
(** Strings. *)
Inductive joined : data -> data -> data -> Prop :=
| join_string t u : joined (DStr t) (DStr u) (DStr (t ++ u))
| join_symbol t u : joined (DStr t) (DSym u) (DStr (t ++ u))
| join_char t u : joined (DStr t) (DChar u) (DStr (t ++ u)).
(** Other values are printed. *)
Definition is_text (d : data) : Prop := match d with DStr _ | DSym _ | DChar _ => True | _ => False end.
Definition prints : effect := fun s x d d' =>
  exists t e u, d = DStr t /\ data_at s x = Some e /\ ~ is_text e /\ ~ is_vec e /\ shown (readably s) false (all s) x u /\ d' = DStr (t ++ u).
(** Lists and queues get the values, atoms copied, at the back; a queue that is
    full loses its first element. *)
Inductive pushed_back : data -> ref -> data -> Prop :=
| push_list l w : pushed_back (DList l) w (DList (l ++ [w]))
| push_queue l w : pushed_back (DQueue l None) w (DQueue (l ++ [w]) None)
| push_bounded l n w : pushed_back (DQueue l (Some n)) w (DQueue (last_of (N.to_nat n) (l ++ [w])) (Some n)).
Inductive pushes (self : ref) : vm -> list ref -> list event -> Prop :=
| push_end s : pushes self s [] []
| push_next s x t w d d' s1 s2 evs : defined s x w s1 -> data_at s1 self = Some d -> pushed_back d w d' -> pushes self s2 t evs ->
    pushes self s (x :: t) (Put self d' s1 s2 :: evs).
(** A vector gets the values themselves. *)
Inductive shares (self : ref) : list ref -> list event -> Prop :=
| share_end : shares self [] []
| share_next x t l s1 s2 evs : data_at s1 self = Some (DVec l) -> shares self t evs -> shares self (x :: t) (Put self (DVec (l ++ [x])) s1 s2 :: evs).
(** No key of the map is equal to [k]. *)
Definition no_key (s : vm) (m : hmap ref ref) (k : ref) : Prop :=
  forall e n, In e (List.concat (buckets m)) -> vcompare n (all s) k (ekey e) <> Ret 0%Z.
Definition entries (m : hmap ref ref) : list (ref * list ref) := map (fun e => (ekey e, evals e)) (List.concat (buckets m)).
(** The element count is right and there are buckets. *)
Definition proper (m : hmap ref ref) : Prop := (0 < List.length (buckets m))%nat /\ numElements m = List.length (List.concat (buckets m)).
(** [m'] is [m] with the value [v] for the new key [k]. *)
Definition entered (s : vm) (m : hmap ref ref) (k v : ref) (m' : hmap ref ref) : Prop :=
  proper m -> no_key s m k -> proper m' /\ Permutation (entries m') ((k, [v]) :: entries m) /\ numElements m' = S (numElements m).
(** The map [self] gets the keys and values. *)
Inductive enters (self : ref) : list (ref * ref) -> list event -> Prop :=
| enter_end : enters self [] []
| enter_next k v t m m' s1 s2 evs : data_at s1 self = Some (DMap m) -> entered s1 m k v m' -> enters self t evs ->
    enters self ((k, v) :: t) (Put self (DMap m') s1 s2 :: evs).
Definition pairs_of (m : hmap ref ref) : list (ref * ref) := flat_map (fun e => map (pair (ekey e)) (evals e)) (List.concat (buckets m)).
(** A character and an integer: the character whose code is [z] more. *)
Definition shifted (t : text) (z : Z) (t' : text) : Prop := exists c u c', t = c :: u /\ t' = [c'] /\ cut_unsigned (Z.of_N c + z) c'.
(** The version [self] is changed by those of the values that are versions. *)
Inductive raises (s : vm) (self : ref) : list ref -> list event -> Prop :=
| raise_end : raises s self [] []
| raise_next y t v w v' ok s1 s2 evs : data_at s1 self = Some (DSemver v) -> data_at s1 y = Some (DSemver w) -> version_changed true v w v' ok -> raises s self t evs ->
    raises s self (y :: t) (Put self (DSemver v') s1 s2 :: evs)
| raise_skip y t d evs : data_at s y = Some d -> (forall w, d <> DSemver w) -> raises s self t evs -> raises s self (y :: t) evs.
Definition plus_eq_result (s : vm) (xs : list ref) (evs : list event) (s' : vm) (r : ref) : Prop :=
  match xs with
  | [] => evs = [] /\ complains s s' r
  | x :: t => exists d, data_at s x = Some d /\
      match d with
      | DInt _ | DReal _ => added_all sum skip s x t evs /\ r = x
      | DStr _ => added_all joined prints s x t evs /\ r = x
      | DVec _ => shares x t evs /\ r = x
      | DList _ | DQueue _ _ => pushes x s t evs /\ r = x
      | DMap m => 
          match t with
          | [k; v] => exists dk, data_at s k = Some dk /\ ~ is_map dk /\ ~ is_vec dk /\ enters x [(k, v)] evs /\ r = x
          | [k] => exists dk, data_at s k = Some dk /\
              match dk with
              | DMap m' => enters x (pairs_of m') evs /\ r = x
              | DVec l => match in_pairs l with Some kvs => enters x kvs evs /\ r = x | None => evs = [] /\ complains s s' r end
              | _ => evs = [] /\ complains s s' r
              end
          | _ => evs = [] /\ complains s s' r
          end
      | DErr _ _ => evs = [] /\ r = x
      | DChar u => r = x /\
          match t with
          | [] => evs = []
          | y :: t' => exists e, data_at s y = Some e /\
              match e with
              | DInt z => t' = [] /\ exists u' s1 s2, shifted u z u' /\ evs = [Put x (DChar u') s1 s2]
              | DChar w => exists s1 s2 evs', added_all joined prints s x t' evs' /\ evs = Put x (DStr (u ++ w)) s1 s2 :: evs'
              | _ => t' = [] /\ evs = []
              end
          end
      | DSemver _ => raises s x t evs /\ r = x
      | DSym _ => True (* not modelled *)
      | _ => evs = [] /\ complains s s' r
      end
  end.
