(** Deciding on concrete machines what the theorems assume of them. *)
From Coq Require Import NArith ZArith Bool Lia Arith List.
From Verif Require Import Base HMap Heap SpecHeap GcProofs VmProofs SafeBase SpecTrace Run.
Import ListNotations.
Local Open Scope N_scope.

Definition refs_list (c : cell) : list ref :=
  match cdoc c with Some d => [d] | None => [] end ++
  match cdata c with
  | DVec l | DQueue l _ | DList l => l
  | DMap m => flat_map (fun e : element ref ref => ekey e :: evals e) (concat (buckets m))
  | DEnv bs enc => flat_map (fun b : text * (ref * ref) => [fst (snd b); snd (snd b)]) bs ++ match enc with Some e => [e] | None => [] end
  | DFun f | DMac f => [fformals f; fbody f; fenv f]
  | _ => []
  end.
Lemma refers_listed c x : refers c x -> In x (refs_list c).
Proof.
  unfold refs_list. destruct 1 as [d E|l x E I|l m x E I|l x E I|m b e E I J|m b e v E I J K|bs enc t k v E I|bs enc t k v E I|bs e E|f [E|E]|f [E|E]|f [E|E]];
    apply in_or_app; try (left; rewrite E; now left); right; rewrite E; cbn [In]; auto.
  - apply in_flat_map. exists e. split; [apply in_concat; eauto|now left].
  - apply in_flat_map. exists e. split; [apply in_concat; eauto|now right].
  - apply in_or_app. left. apply in_flat_map. exists (t, (k, v)). split; [exact I|now left].
  - apply in_or_app. left. apply in_flat_map. exists (t, (k, v)). split; [exact I|right; now left].
  - apply in_or_app. right. now left.
Qed.
Definition checked (s : vm) : bool :=
  distinct N.eqb (map fst (all s)) &&
  forallb (fun rc : ref * cell => (fst rc <? nextId s) && negb (cmark (snd rc)) && forallb (fun x => x <? nextId s) (refs_list (snd rc)) &&
             match cdocvec (snd rc) with Some x => x <? nextId s | None => true end) (all s) &&
  forallb (fun x => x <? nextId s) (stack s) && (genv s <? nextId s) && match fret s with Some x => x <? nextId s | None => true end.
Lemma checked_sane s : checked s = true -> sane s.
Proof.
  unfold checked. rewrite !andb_true_iff. intros ((((A & B) & C) & D) & E). rewrite forallb_forall in B, C.
  assert (N : NoDup (map fst (all s))) by (apply (distinct_nodup N.eqb); [apply N.eqb_refl|exact A]).
  constructor.
  - split; [exact N|]. intros r c I. apply B in I. rewrite !andb_true_iff in I. destruct I as (((_ & I) & _) & _). cbn in I. now destruct (cmark c).
  - intros r c I. apply B in I. rewrite !andb_true_iff in I. destruct I as (((I & _) & _) & _). now apply N.ltb_lt.
  - intros r c x L F. apply (lookup_in (all s) r c N) in L. apply B in L. rewrite !andb_true_iff in L. destruct L as (((_ & _) & L) & M). cbn [fst snd] in *.
    destruct F as [F|F]; [|rewrite F in M; now apply N.ltb_lt]. rewrite forallb_forall in L. apply N.ltb_lt, L. now apply refers_listed.
  - intros x [I|[->|I]]; [now apply N.ltb_lt, C|now apply N.ltb_lt|]. rewrite I in E. now apply N.ltb_lt.
Qed.
