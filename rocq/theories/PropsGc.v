(** Properties C42-C47 of the garbage collector. *)
From Coq Require Import List NArith ZArith Bool Lia Arith Sorted.
From Coq Require Import ZifyBool ZifyNat ZifyN.
From Verif Require Import Base HMap Heap SpecHeap GcProofs VmProofs.
Import ListNotations.
Local Open Scope N_scope.

(** ** C42: a collection keeps everything reachable, unchanged, and succeeds
    when no reachable pointer dangles. *)
Theorem C42_gc_safe : forall h roots,
  tidy h -> sound_roots h roots ->
  exists h', gc h roots = Ret h' /\ (forall r, reachable h roots r -> exists c, lookup h r = Some c /\ lookup h' r = Some c).
Proof.
  intros h roots T S. destruct (gc_progress h roots T S) as (h' & E). exists h'. split; [exact E|].
  now destruct (gc_spec h roots h' T E) as (_ & K & _).
Qed.
Print Assumptions C42_gc_safe.

(** In particular everything still reachable afterwards is what it was, and
    nothing reachable afterwards dangles. *)
Theorem C42_reachability_preserved : forall h roots h',
  tidy h -> gc h roots = Ret h' -> forall r, reachable h' roots r <-> reachable h roots r.
Proof.
  intros h roots h' T E r. destruct (gc_spec h roots h' T E) as (_ & K & _ & L). split; intros R.
  - induction R as [r I|r c x R IH Lk P]; [now apply re_root|]. apply L in Lk as (_ & Lk & _). now apply (re_step _ _ r c).
  - induction R as [r I|r c x R IH Lk P]; [now apply re_root|]. destruct (K r R) as (c' & L1 & L2).
    rewrite Lk in L1. injection L1 as <-. now apply (re_step _ _ r c).
Qed.
Print Assumptions C42_reachability_preserved.

(** ** C43 *)
Theorem C43_gc_complete : forall h roots h',
  tidy h -> gc h roots = Ret h' ->
  (forall r, ~ reachable h roots r -> lookup h' r = None)
  /\ tidy h'
  /\ exists h'', gc h' roots = Ret h'' /\ (forall r, lookup h'' r = lookup h' r) /\ map fst h'' = map fst h'.
Proof.
  intros h roots h' T E. pose proof (C42_reachability_preserved h roots h' T E) as RP.
  destruct (gc_spec h roots h' T E) as (T' & K & N1 & L). split; [exact N1|]. split; [exact T'|].
  destruct (gc_progress h' roots T') as (h'' & E').
  { intros r R. apply RP in R. destruct (K r R) as (c & L1 & L2). exists c. split; [exact L2|]. now apply (L r c). }
  exists h''. split; [exact E'|]. destruct (gc_spec h' roots h'' T' E') as (T'' & K' & N1' & L').
  assert (LL : forall r, lookup h'' r = lookup h' r).
  { intros r. destruct (lookup h' r) as [c|] eqn:Lk.
    - pose proof (proj1 (L r c Lk)) as R. apply RP in R. destruct (K' r R) as (c' & A & B). congruence.
    - destruct (lookup h'' r) as [c|] eqn:Lk'; [|reflexivity]. destruct (L' r c Lk') as (_ & A & _). congruence. }
  split; [exact LL|].
  destruct (gc_ids h' roots h'' E' T') as (p & EP). rewrite EP. f_equal.
  assert (F : forall l, incl l h' -> (forall rc, In rc l -> p rc = true) -> filter p l = l).
  { induction l as [|a l IH]; cbn; intros I A; [reflexivity|]. rewrite (A a) by now left. f_equal. apply IH; [intros x Ix; apply I; now right|auto]. }
  apply F; [apply incl_refl|]. intros [r c] I. destruct (p (r, c)) eqn:P; [reflexivity|exfalso].
  pose proof (proj2 (lookup_in h' r c (proj1 T')) I) as Lk. rewrite <- LL in Lk.
  apply (lookup_in h'' r c (proj1 T'')) in Lk. apply (in_map fst) in Lk. rewrite EP in Lk. cbn in Lk.
  apply in_map_iff in Lk as ([r2 c2] & E2 & I2). cbn in E2. subst r2. apply filter_In in I2 as (I2 & P2).
  assert (c2 = c). { apply (lookup_in h' r c2 (proj1 T')) in I2. apply (lookup_in h' r c (proj1 T')) in I. congruence. }
  subst. congruence.
Qed.
Print Assumptions C43_gc_complete.

(** ** C44: marking any value of any heap (cyclic, shared, partly marked, with
    dangling pointers) ends, recursing at most once per value. *)
Theorem C44_mark_terminates : forall h r, mark (S (length h)) h r <> NoFuel.
Proof. intros h r. apply mark_fuel. pose proof (count_le h). lia. Qed.
Print Assumptions C44_mark_terminates.

Theorem C44_gc_terminates : forall h roots, gc h roots <> NoFuel.
Proof.
  intros h roots. unfold gc. assert (G : forall l h1, (count_unmarked h1 <= length h)%nat -> mark_each (mark (S (length h))) h1 l <> NoFuel).
  { induction l as [|x l IH]; cbn [mark_each]; intros h1 C; [discriminate|].
    pose proof (mark_fuel (S (length h)) h1 x ltac:(lia)) as F.
    destruct (mark (S (length h)) h1 x) as [h2| | | | |] eqn:E; cbn [obind]; try congruence.
    apply IH. destruct (mark_spec _ _ _ _ E) as ((_ & _ & C2) & _). lia. }
  specialize (G (rev roots) h (count_le h)). destruct (mark_each (mark (S (length h))) h (rev roots)); cbn [obind]; try congruence; discriminate.
Qed.
Print Assumptions C44_gc_terminates.

(** A cyclic heap with sharing and garbage: 1 = [1 2 2], 2 = an integer,
    3 = [1] is garbage, 4 = a map from 2 to 1, 5 = a queue holding 4. *)
Definition ex_cell (d : data) : cell := mkCell d None None false 0.
Definition ex_map : hmap ref ref := mkMap [[mkElem 7 2 [1]]] 1 1.
Definition ex_heap : heap :=
  [(1, ex_cell (DVec [1; 2; 2])); (2, ex_cell (DInt 7)); (3, ex_cell (DVec [1]));
   (4, ex_cell (DMap ex_map)); (5, ex_cell (DQueue [4] None))].
Example ex_gc : gc ex_heap [5] = Ret [(1, ex_cell (DVec [1; 2; 2])); (2, ex_cell (DInt 7));
   (4, ex_cell (DMap ex_map)); (5, ex_cell (DQueue [4] None))].
Proof. reflexivity. Qed.
Example ex_gc_hyps : tidy ex_heap /\ sound_roots ex_heap [5].
Proof.
  assert (T : tidy ex_heap).
  { split; [repeat constructor; cbn; intuition discriminate|]. cbn. intros r c H.
    repeat (destruct H as [H|H]; [injection H as <- <-; reflexivity|]). easy. }
  split; [exact T|]. intros r R. destruct (gc_spec _ _ _ T ex_gc) as (_ & K & _ & L).
  destruct (K r R) as (c & A & B). exists c. split; [exact A|]. now apply (L r c).
Qed.

(** ** C45: a documentation vector is freed while its function is in use. *)
Definition vm0 : vm := mkVm [] 1 0 [] 0 0 1000 false None false 0 true [] (fun n => n) (fun _ => []) nothing_outside.
(** octaspire_dern_vm_create_new_value_function, vm:2684-2709, for a function
    whose formals, body and environment are already allocated. *)
Definition new_function (f : func) (doc : text) (docvec : option (list ref)) : M ref :=
  r <- alloc (DFun f) ;; push r ;;;
  d <- alloc (DStr doc) ;; set_docs r (Some d) None ;;;
  match docvec with
  | None => ret tt
  | Some l => v <- alloc (DVec l) ;; set_docs r (Some d) (Some v)
  end ;;;
  pop r ;;; ret r.
(** A function with a documentation vector, on the stack, and a collection. *)
Definition c45_prog : M (ref * cell) :=
  fm <- alloc (DVec []) ;; push fm ;;; b <- alloc (DVec []) ;; push b ;;; e <- alloc (DEnv [] None) ;; push e ;;;
  f <- new_function (mkFunc [] [] false fm b e) [100] (Some []) ;; push f ;;;
  do_gc ;;; c <- get_cell f ;; ret (f, c).
Theorem C45_docvec_survives_refuted :
  exists f c d s, c45_prog vm0 = Ret ((f, c), s) /\ In f (stack s)
    /\ cdocvec c = Some d /\ lookup (all s) d = None.
Proof. do 4 eexists. split; [vm_compute; reflexivity|]. vm_compute. auto. Qed.
Print Assumptions C45_docvec_survives_refuted.

(** The documentation string does survive. *)
Theorem C45_docstring_survives_partial : forall h roots h' r c d,
  tidy h -> gc h roots = Ret h' -> reachable h roots r -> lookup h r = Some c -> cdoc c = Some d ->
  exists c', lookup h d = Some c' /\ lookup h' d = Some c' /\ lookup h' r = Some c.
Proof.
  intros h roots h' r c d T E R L D. destruct (gc_spec h roots h' T E) as (_ & K & _).
  destruct (K d) as (c' & A & B); [apply (re_step _ _ r c); auto; now apply r_doc|].
  destruct (K r R) as (c2 & A2 & B2). exists c'. split; [exact A|]. split; [exact B|]. congruence.
Qed.
Print Assumptions C45_docstring_survives_partial.
Example ex_docstring : exists h', gc [(1, mkCell DNil (Some 2) None false 0); (2, ex_cell (DStr [65])); (3, ex_cell DNil)] [1] = Ret h' /\ length h' = 2%nat.
Proof. eexists. split; reflexivity. Qed.

(** ** C47 *)
(** Everything a program can do to the memory. *)
Inductive mem_op := OAlloc (d : data) | OPut (r : ref) (d : data) | ODocs (r : ref) (a b : option ref)
                  | OPush (r : ref) | OPop (r : ref) | OGc.
Definition mem_step (o : mem_op) : M (option ref) :=
  match o with
  | OAlloc d => r <- alloc d ;; ret (Some r)
  | OPut r d => put r d ;;; ret None
  | ODocs r a b => set_docs r a b ;;; ret None
  | OPush r => push r ;;; ret None
  | OPop r => pop r ;;; ret None
  | OGc => do_gc ;;; ret None
  end.
(** The identities handed out by a history, oldest first. *)
Fixpoint mem_run (ops : list mem_op) : M (list ref) :=
  match ops with
  | [] => ret []
  | o :: t => r <- mem_step o ;; l <- mem_run t ;; ret (match r with Some x => x :: l | None => l end)
  end.

Lemma put_cell_ids r c s u s' : ids_ok s -> cmark c = false -> put_cell r c s = Ret (u, s') ->
  ids_ok s' /\ nextId s' = nextId s.
Proof.
  intros (T & B) M H. unfold put_cell in H. destruct (lookup (all s) r) as [c0|] eqn:L; [|discriminate].
  injection H as <- <-. split; [|reflexivity]. split; cbn; [now apply update_tidy|].
  intros x c' I. apply update_in in I as [I|(-> & _ & _)]; [eauto|]. apply (lookup_in _ _ _ (proj1 T)) in L. eauto.
Qed.
Lemma mem_step_ids o s r s' : ids_ok s -> mem_step o s = Ret (r, s') ->
  ids_ok s' /\ nextId s <= nextId s' /\ (match r with Some x => x = nextId s /\ nextId s' = nextId s + 1 | None => True end).
Proof.
  intros I H. destruct o; unfold mem_step in H; apply bind_ret in H as (x & s1 & H1 & H2); injection H2 as <- <-.
  - unfold alloc in H1. apply bind_ret in H1 as (u & s2 & A & B). destruct (maybe_gc_ids _ _ _ I A) as (I2 & E2 & _).
    destruct (fresh_ids _ _ _ _ I2 B) as (I3 & -> & E3 & _). split; [exact I3|]. split; [lia|]. split; lia.
  - unfold put in H1. apply bind_ret in H1 as (c & s2 & A & B). unfold get_cell in A.
    destruct (lookup (all s) r0) as [c0|] eqn:L; [|discriminate]. injection A as <- <-.
    apply put_cell_ids in B as (I2 & E2); [|exact I|cbn; apply (tidy_lookup _ _ _ (proj1 I) L)]. split; [exact I2|]. split; [lia|trivial].
  - unfold set_docs in H1. apply bind_ret in H1 as (c & s2 & A & B). unfold get_cell in A.
    destruct (lookup (all s) r0) as [c0|] eqn:L; [|discriminate]. injection A as <- <-.
    apply put_cell_ids in B as (I2 & E2); [|exact I|cbn; apply (tidy_lookup _ _ _ (proj1 I) L)]. split; [exact I2|]. split; [lia|trivial].
  - injection H1 as <- <-. split; [exact I|]. split; [cbn; lia|trivial].
  - unfold pop in H1. destruct (stack s) as [|y t]; [discriminate|]. destruct (y =? r0); [|discriminate]. injection H1 as <- <-. split; [exact I|]. split; [cbn; lia|trivial].
  - destruct (do_gc_ids _ _ _ I H1) as (I2 & E2 & _). split; [exact I2|]. split; [lia|trivial].
Qed.

(** Every history hands out strictly increasing identities, also across
    collections; and no two values in memory share one. *)
Theorem C47_identities_unique : forall ops s ids s',
  ids_ok s -> mem_run ops s = Ret (ids, s') ->
  StronglySorted N.lt ids /\ (forall i, In i ids -> nextId s <= i) /\ NoDup (map fst (all s')).
Proof.
  induction ops as [|o ops IH]; cbn; intros s ids s' I H.
  - injection H as <- <-. split; [constructor|]. split; [easy|apply I].
  - apply bind_ret in H as (r & s1 & H1 & H2). apply bind_ret in H2 as (l & s2 & H3 & H4). injection H4 as <- <-.
    destruct (mem_step_ids _ _ _ _ I H1) as (I1 & LE & K). destruct (IH _ _ _ I1 H3) as (S & B & ND).
    destruct r as [x|].
    + destruct K as (-> & E). split; [|split; [|exact ND]].
      * constructor; [exact S|]. apply Forall_forall. intros y Iy. apply B in Iy. lia.
      * intros i [<-|Ii]; [lia|]. apply B in Ii. lia.
    + split; [exact S|]. split; [|exact ND]. intros i Ii. apply B in Ii. lia.
Qed.
Print Assumptions C47_identities_unique.
Example ex_ids : ids_ok vm0 /\ exists s, mem_run [OAlloc DNil; OPush 1; OAlloc (DVec [1]); OGc; OAlloc DNil; OPut 1 (DInt 5)] vm0 = Ret ([1; 2; 3], s)
   /\ map fst (all s) = [1; 3].
Proof.
  split; [split; [split; [constructor|easy]|easy]|]. eexists. split; [vm_compute; reflexivity|reflexivity].
Qed.
