(** Basic facts about the machine operations. *)
From Coq Require Import List NArith ZArith Bool Lia Arith.
From Coq Require Import ZifyBool ZifyNat ZifyN.
From Verif Require Import Base HMap Heap SpecHeap GcProofs.
Import ListNotations.
Local Open Scope N_scope.

Lemma obind_ret {X Y} (m : outcome X) (k : X -> outcome Y) y :
  obind m k = Ret y -> exists x, m = Ret x /\ k x = Ret y.
Proof. destruct m; cbn; try discriminate. eauto. Qed.
Lemma bind_ret {X Y} (m : M X) (k : X -> M Y) s y s' :
  bind m k s = Ret (y, s') -> exists x s1, m s = Ret (x, s1) /\ k x s1 = Ret (y, s').
Proof. unfold bind. intros H. apply obind_ret in H as ([x s1] & E & K). eauto. Qed.

(** Identities: unique, and all below the next one. *)
Definition ids_ok (s : vm) : Prop := tidy (all s) /\ (forall r c, In (r, c) (all s) -> r < nextId s).

Lemma update_ids h r c : map fst (update h r c) = map fst h.
Proof. induction h as [|[i c0] h IH]; cbn; [reflexivity|]. destruct (i =? r); cbn; congruence. Qed.
Lemma update_in h r c x c' : In (x, c') (update h r c) -> In (x, c') h \/ (x = r /\ c' = c /\ exists c0, lookup h r = Some c0).
Proof.
  induction h as [|[i c0] h IH]; cbn; [tauto|]. destruct (i =? r) eqn:E; cbn.
  - intros [H|H]; [|auto]. injection H as <- <-. apply N.eqb_eq in E. right. eauto.
  - intros [H|H]; [auto|]. destruct (IH H) as [|(A & B & C)]; auto.
Qed.
Lemma update_tidy h r c : tidy h -> cmark c = false -> tidy (update h r c).
Proof.
  intros (ND & U) M. split; [now rewrite update_ids|]. intros x c' I. apply update_in in I as [I|(_ & -> & _)]; eauto.
Qed.

Lemma do_gc_ids s u s' : ids_ok s -> do_gc s = Ret (u, s') -> ids_ok s' /\ nextId s' = nextId s /\ stack s' = stack s.
Proof.
  unfold do_gc. intros (T & B) H. apply obind_ret in H as (h & E & K). injection K as <- <-. cbn.
  pose proof (gc_spec _ _ _ T E) as (T' & _ & _ & L). split; [|auto]. split; [exact T'|]. cbn.
  intros r c I. apply (lookup_in h r c (proj1 T')) in I. apply L in I as (_ & I & _).
  apply (lookup_in _ r c (proj1 T)) in I. eauto.
Qed.
Lemma maybe_gc_ids s u s' : ids_ok s -> maybe_gc s = Ret (u, s') -> ids_ok s' /\ nextId s' = nextId s /\ stack s' = stack s.
Proof.
  unfold maybe_gc. intros I H. destruct ((gcLimit s <=? numAlloc s) && negb (preventGc s))%bool.
  - apply obind_ret in H as ([u1 s1] & E & K). injection K as <- <-. destruct (do_gc_ids _ _ _ I E) as (A & B & C). split; [exact A|]. split; [exact B|exact C].
  - injection H as <- <-. cbn. auto.
Qed.
Lemma NoDup_snoc {A} (l : list A) a : NoDup l -> ~ In a l -> NoDup (l ++ [a]).
Proof.
  induction l as [|x l IH]; cbn; intros ND NI; [constructor; [easy|constructor]|]. inversion ND; subst.
  constructor; [|apply IH; auto]. rewrite in_app_iff. cbn. intuition congruence.
Qed.
Lemma fresh_ids d s r s' : ids_ok s -> fresh d s = Ret (r, s') ->
  ids_ok s' /\ r = nextId s /\ nextId s' = nextId s + 1 /\ stack s' = stack s
  /\ lookup (all s') r = Some (mkCell d None None false (addrs s (nextAddr s)))
  /\ (forall x, x <> r -> lookup (all s') x = lookup (all s) x) /\ lookup (all s) r = None.
Proof.
  unfold fresh. intros ((ND & U) & B) H. destruct (nextId s =? two64 - 1); [discriminate|]. injection H as <- <-. cbn.
  assert (NL : lookup (all s) (nextId s) = None).
  { destruct (lookup (all s) (nextId s)) as [c|] eqn:L; [|reflexivity]. apply (lookup_in _ _ _ ND) in L. apply B in L. lia. }
  assert (LA : forall h x c, lookup (h ++ [(nextId s, c)]) x = match lookup h x with Some y => Some y | None => if nextId s =? x then Some c else None end).
  { clear. induction h as [|[i c0] h IH]; cbn; intros x c; [reflexivity|]. destruct (i =? x); auto. }
  split.
  - split; cbn.
    + split.
      * rewrite map_app. cbn. apply NoDup_snoc; [exact ND|]. intros I. apply in_map_iff in I as ([i c] & E & I). cbn in E. subst i. apply B in I. lia.
      * intros r c I. apply in_app_iff in I as [I|[I|[]]]; [eauto|]. injection I as <- <-. reflexivity.
    + intros r c I. apply in_app_iff in I as [I|[I|[]]]; [apply B in I; lia|]. injection I as <- <-. lia.
  - repeat split.
    + rewrite LA, NL, N.eqb_refl. reflexivity.
    + intros x NE. rewrite LA. destruct (lookup (all s) x); [reflexivity|]. now rewrite (proj2 (N.eqb_neq _ _) (not_eq_sym NE)).
    + exact NL.
Qed.
