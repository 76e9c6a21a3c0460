(** What the events of SpecWrite.v leave in the machine. *)
From Coq Require Import NArith ZArith Bool Lia Arith List String.
From Verif Require Import Base OString HMap Heap SpecHeap GcProofs VmProofs ValueOps Env Builtins Eval SafeBase SpecTrace SpecSpecial SpecCall SpecDefine SpecEval SpecBuiltin SpecWrite TraceProofs SpecialProofs BuiltinProofs WriteProofs.
Import ListNotations.
Local Open Scope N_scope.
Local Open Scope list_scope.

(** The vector [a] of the arguments, on the stack. *)
Record argued (base : list ref) (a : ref) (xs : list ref) (s : vm) : Prop := { ag_in : In a base; ag_vec : data_at s a = Some (DVec xs) }.
Lemma argued_reach base a xs s x : argued base a xs s -> In x xs -> reachable (all s) base x.
Proof.
  intros [I D] J. unfold data_at in D. destruct (lookup (all s) a) as [c|] eqn:L; [|discriminate]. injection D as D.
  apply (re_step _ _ a c x); [now apply re_root|exact L|]. apply refers_iff. right. rewrite D. exact J.
Qed.
Lemma keeps_data base s s' x d : keeps base s s' -> reachable (all s) base x -> data_at s x = Some d -> ~ is_err d -> data_at s' x = Some d.
Proof.
  intros (K & _) R D NE. unfold data_at in *. destruct (lookup (all s) x) as [c|] eqn:L; [|discriminate]. injection D as D.
  destruct (K x c R L) as (c' & L' & [->|(E & _)]); rewrite L'; cbn; congruence.
Qed.
Lemma argued_keeps base a xs s s' : argued base a xs s -> keeps base s s' -> argued base a xs s'.
Proof. intros [I D] K. split; [exact I|]. eapply keeps_data; [exact K|now apply re_root|exact D|easy]. Qed.
Lemma argued_data base a xs s s' x d : argued base a xs s -> keeps base s s' -> In x xs -> data_at s x = Some d -> ~ is_err d -> data_at s' x = Some d.
Proof. intros A K J D NE. eapply keeps_data; [exact K|eapply argued_reach; eauto|exact D|exact NE]. Qed.
Lemma put_data x d s s' : put x d s = Ret (tt, s') -> data_at s' x = Some d /\ forall y, y <> x -> data_at s' y = data_at s y.
Proof.
  unfold put, put_cell, get_cell, bind. destruct (lookup (all s) x) as [c|] eqn:L; [|discriminate]. cbn. rewrite L. intros [= <-]. unfold data_at. cbn. split.
  - rewrite lookup_update, N.eqb_refl, L. reflexivity.
  - intros y NE. rewrite lookup_update. now rewrite (proj2 (N.eqb_neq _ _) (not_eq_sym NE)).
Qed.
Lemma argued_put base a xs s s' x d : argued base a xs s -> x <> a -> put x d s = Ret (tt, s') -> argued base a xs s'.
Proof. intros [I D] NE E. apply put_data in E as (_ & O). split; [exact I|]. rewrite O; auto. Qed.
Lemma arguments_argued s a env xs : arguments s a env xs -> argued (stack s) a xs s /\ forall x, In x xs -> x <> a.
Proof.
  intros AR. split; [split; [apply AR|apply AR]|]. intros x J ->. pose proof (ar_values _ _ _ _ AR) as D. unfold data_at in D. destruct (lookup (all s) a) as [c|] eqn:L; [|discriminate]. injection D as D.
  apply (proj1 (ar_own _ _ _ _ AR a c L)). apply refers_iff. right. rewrite D. exact J.
Qed.
(** One change of an argument: it is so in the end, and the other arguments are
    as before. *)
Lemma one_put ev base a xs s x d s1 s2 s' : argued base a xs s -> (forall y, In y xs -> y <> a) -> In x xs -> trace ev base s [Put x d s1 s2] s' -> ~ is_err d ->
  data_at s' x = Some d /\ forall y e, In y xs -> y <> x -> data_at s y = Some e -> ~ is_err e -> data_at s' y = Some e.
Proof.
  intros A N J T NE. inversion T as [|s_ e_ evs_ s'_ K H T']; subst. cbn in K, H, T'. inversion T' as [s_ s'_ K'|]; subst.
  pose proof (argued_keeps _ _ _ _ _ A K) as A1. pose proof (argued_put _ _ _ _ _ _ _ A1 (N x J) H) as A2. destruct (put_data _ _ _ _ H) as (D & O). split.
  - eapply argued_data; [exact A2|exact K'|exact J|exact D|exact NE].
  - intros y e JY NX DY NEY. eapply argued_data; [exact A2|exact K'|exact JY| |exact NEY]. rewrite O by exact NX. eapply argued_data; [exact A|exact K|exact JY|exact DY|exact NEY].
Qed.
(** Several changes of one argument [x], each as [step] says. *)
Inductive steps (x : ref) (step : data -> ref -> data -> Prop) : list ref -> list event -> Prop :=
| st_end : steps x step [] []
| st_next y t d d' s1 s2 evs : data_at s1 x = Some d -> step d y d' -> steps x step t evs -> steps x step (y :: t) (Put x d' s1 s2 :: evs).
Lemma steps_end ev base a xs x (step : data -> ref -> data -> Prop) (F : data -> list ref -> data) : (forall y, In y xs -> y <> a) -> In x xs ->
  (forall d, F d [] = d) -> (forall d y t d', step d y d' -> ~ is_err d -> F d (y :: t) = F d' t) -> (forall d y d', step d y d' -> ~ is_err d -> ~ is_err d') ->
  forall t evs s s' d, argued base a xs s -> trace ev base s evs s' -> steps x step t evs -> data_at s x = Some d -> ~ is_err d -> data_at s' x = Some (F d t).
Proof.
  intros N J F0 F1 F2 t evs s s' d A T C. revert s s' d A T. induction C as [|y t d1 d' s1 s2 evs D1 S C IH]; intros s s' d A T D NE.
  - rewrite F0. inversion T as [s_ s'_ K|]; subst. eapply argued_data; eauto.
  - inversion T as [|s_ e_ evs_ s'_ K H T']; subst. cbn in K, H, T'.
    pose proof (argued_keeps _ _ _ _ _ A K) as A1. pose proof (argued_put _ _ _ _ _ _ _ A1 (N x J) H) as A2. destruct (put_data _ _ _ _ H) as (D' & O).
    pose proof (argued_data _ _ _ _ _ _ _ A K J D NE) as DD. assert (d1 = d) by congruence. subst d1.
    rewrite (F1 d y t d' S NE). eapply IH; [exact A2|exact T'|exact D'|]. eapply F2; eauto.
Qed.
Lemma shares_steps x t evs : shares x t evs -> steps x (fun d y d' => exists l, d = DVec l /\ d' = DVec (l ++ [y])) t evs.
Proof. intros S. induction S as [|y t l s1 s2 evs D S IH]; [constructor|]. eapply st_next; [exact D|eauto|exact IH]. Qed.
(** Adding values of the kind [step] takes. *)
Inductive runs (step : data -> data -> data -> Prop) : data -> list data -> data -> Prop :=
| run_end d : runs step d [] d
| run_next d e d1 es d2 : step d e d1 -> runs step d1 es d2 -> runs step d (e :: es) d2.
Lemma added_end ev base a xs x (step : data -> data -> data -> Prop) (other : effect) (OK : data -> Prop) : (forall y, In y xs -> y <> a) -> In x xs ->
  (forall e, OK e -> ~ is_vec e /\ ~ is_err e /\ exists d d', step d e d') -> (forall s y e d d', OK e -> data_at s y = Some e -> ~ other s y d d') -> (forall d e d', step d e d' -> ~ is_err d') ->
  forall t evs s0 s s' d es, argued base a xs s -> trace ev base s evs s' -> added_all step other s0 x t evs -> data_at s x = Some d -> ~ is_err d ->
  incl t xs -> ~ In x t -> Forall2 (fun y e => data_at s0 y = Some e /\ data_at s y = Some e /\ OK e) t es ->
  exists d', data_at s' x = Some d' /\ runs step d es d'.
Proof.
  intros N J KO KT KE t. induction t as [|y t IH]; intros evs s0 s s' d es A T C D NE IN NX F2.
  - inversion C; subst. inversion F2; subst. exists d. split; [|constructor]. inversion T as [s_ s'_ K|]; subst. eapply argued_data; eauto.
  - inversion C as [|y_ t_ evs1 evs2 C1 C2]; subst. inversion F2 as [|y_ e t_ es' (D0 & DY & OK1) F2']; subst. destruct (KO e OK1) as (NV & NR & dd & dd' & SS).
    inversion C1 as [y_ d1 e1 d' s1 s2 X1 X2 X3|y_ l evs_ X1 X2|y_ d1 d' s1 s2 X1 X2|y_ e1 X1 X2 X3]; subst.
    + cbn [app] in T. inversion T as [|s_ e_ evs_ s'_ K H T']; subst. cbn in K, H, T'.
      pose proof (argued_keeps _ _ _ _ _ A K) as A1. pose proof (argued_put _ _ _ _ _ _ _ A1 (N x J) H) as A2. destruct (put_data _ _ _ _ H) as (D' & O).
      pose proof (argued_data _ _ _ _ _ _ _ A K J D NE) as DD. assert (d1 = d) by congruence. subst d1.
      pose proof (argued_data _ _ _ _ _ _ _ A K (IN y (or_introl eq_refl)) DY NR) as DE. assert (e1 = e) by congruence. subst e1.
      destruct (IH evs2 s0 s2 s' d' es' A2 T' C2 D' (KE _ _ _ X3)) as (d2 & E1 & E2); [intros z JZ; apply IN; now right|intros JZ; apply NX; now right| |].
      { clear - F2' O NX A K IN KO. induction F2' as [|z ez t es (Z1 & Z2 & Z3) F IHF]; constructor.
        - split; [exact Z1|]. split; [|exact Z3]. rewrite O by (intros ->; apply NX; right; now left). eapply argued_data; [exact A|exact K|apply IN; right; now left|exact Z2|apply KO; exact Z3].
        - apply IHF; [intros q [<-|Q]; apply IN; [now left|right; now right]|intros [Q|Q]; apply NX; [now left|right; now right]]. }
      exists d2. split; [exact E1|]. eapply run_next; eauto.
    + rewrite D0 in X1. injection X1 as ->. elim NV. exact I.
    + cbn [app] in T. inversion T as [|s_ e_ evs_ s'_ K H T']; subst. cbn in K.
      elim (KT s1 y e d1 d' OK1); [|exact X2]. exact (argued_data _ _ _ _ _ _ _ A K (IN y (or_introl eq_refl)) DY NR).
    + rewrite D0 in X1. injection X1 as <-. elim (X3 _ _ SS).
Qed.
