(** Concrete calls of builtins, for the witnesses. *)
From Coq Require Import NArith ZArith Bool Lia Arith List String.
From Verif Require Import Base HMap Heap SpecHeap GcProofs Env ValueOps Builtins Eval Read Boot Run SafeBase SafeRead SpecTrace SpecForm SpecCall TraceProofs SpecialEval SpecialForms CallProofs.
Import ListNotations.
Local Open Scope N_scope.

Definition global (s : vm) (t : string) : option ref :=
  match data_at s (genv s) with Some (DEnv b _) => option_map snd (find_binding (asc t) b) | _ => None end.
Fixpoint globals (s : vm) (l : list string) : option (list ref) :=
  match l with
  | [] => Some []
  | t :: l' => match global s t, globals s l' with Some x, Some xs => Some (x :: xs) | _, _ => None end
  end.
(** Arguments: the values of global variables. *)
Definition arg_state (s0 : vm) (names : list string) : option (ref * list ref * vm) :=
  match globals s0 names with
  | Some xs => match alloc (DVec xs) (with_stack s0 (xs ++ stack s0)) with
               | Ret (a, s) => Some (a, xs, with_stack s (genv s :: a :: stack s))
               | _ => None
               end
  | None => None
  end.
Definition refers_b (c : cell) (a : ref) : bool := match children c with Ret l => existsb (N.eqb a) l | _ => true end.
Definition own_b (s : vm) (a : ref) : bool :=
  forallb (fun p => negb (refers_b (snd p) a) && negb (match cdocvec (snd p) with Some x => x =? a | None => false end)) (all s)
  && negb (a =? genv s) && negb (match fret s with Some x => x =? a | None => false end).
Lemma own_b_ok s a : NoDup (map fst (all s)) -> own_b s a = true ->
  (forall r c, lookup (all s) r = Some c -> ~ refers c a /\ cdocvec c <> Some a) /\ a <> genv s /\ fret s <> Some a.
Proof.
  unfold own_b. intros ND E. apply andb_true_iff in E as (E & F3). apply andb_true_iff in E as (F1 & F2). rewrite forallb_forall in F1. split; [|split].
  - intros r c L. assert (J : In (r, c) (all s)) by (apply lookup_in; assumption). specialize (F1 _ J). cbn in F1. apply andb_true_iff in F1 as (G1 & G2). split.
    + intros R. unfold refers_b in G1. destruct (children c) as [l| | | | |] eqn:EC; try discriminate. apply (children_refers c l EC) in R.
      assert (X : existsb (N.eqb a) l = true) by (apply existsb_exists; exists a; split; [exact R|apply N.eqb_refl]). rewrite X in G1. discriminate.
    + intros R. rewrite R, N.eqb_refl in G2. discriminate.
  - intros ->. rewrite N.eqb_refl in F2. discriminate.
  - intros R. rewrite R, N.eqb_refl in F3. discriminate.
Qed.
Lemma global_lt s t x : Inv [] s -> global s t = Some x -> x < nextId s.
Proof.
  intros A. unfold global, data_at. destruct (lookup (all s) (genv s)) as [c|] eqn:L; [|discriminate]. cbn. destruct (cdata c) eqn:ED; try discriminate.
  unfold find_binding. match goal with |- context [find ?p ?l] => destruct (find p l) as [(n & k & v)|] eqn:EF; [|discriminate] end. cbn. intros [= <-]. apply find_some in EF as (J & _).
  apply (i_refs _ _ _ A (genv s) c); [exact L|]. left. apply refers_iff. right. rewrite ED. left. eauto 8.
Qed.
Lemma globals_lt s l xs : Inv [] s -> globals s l = Some xs -> forall x, In x xs -> x < nextId s.
Proof.
  intros A. revert xs. induction l as [|t l IH]; cbn [globals]; intros xs E x J; [injection E as <-; contradiction|].
  destruct (global s t) as [y|] eqn:EG; [|discriminate]. destruct (globals s l) as [ys|]; [|discriminate]. injection E as <-. destruct J as [<-|J]; [eapply global_lt; eauto|now apply (IH ys)].
Qed.
Lemma arg_state_ok s0 names a xs s : sane s0 -> arg_state s0 names = Some (a, xs, s) -> own_b s a = true -> arguments s a (genv s) xs.
Proof.
  intros S0 E OW. apply sane_inv in S0. unfold arg_state in E. destruct (globals s0 names) as [ys|] eqn:EG; [|discriminate].
  assert (S1 : Inv [] (with_stack s0 (ys ++ stack s0))).
  { pose proof (globals_lt s0 names ys S0 EG) as LT. clear - S0 LT. induction ys as [|y ys IH]; [destruct s0; exact S0|].
    apply (inv_push true [] (with_stack s0 (ys ++ stack s0)) y); [apply IH; intros x J; apply LT; now right|apply LT; now left|discriminate]. }
  set (s1 := with_stack s0 (ys ++ stack s0)) in *.
  destruct (alloc (DVec ys) s1) as [[r s2]| | | | |] eqn:EA; try discriminate. injection E as <- <- <-.
  assert (W : wp (alloc (DVec ys)) (fun r s' => Inv [] s' /\ r < nextId s' /\ data_at s' r = Some (DVec ys)) s1).
  { eapply (r_alloc true true [] s1); [now apply at_start| |discriminate|].
    - intros x J. split; [easy|]. right. left. apply in_or_app. now left.
    - intros r' s' H AL _. split; [apply H|]. split; [exact (al_next _ _ _ _ _ _ AL)|]. destruct (al_cell _ _ _ _ _ _ AL) as (ad & L). unfold data_at. now rewrite L. }
  destruct (wp_ret_inv _ _ _ _ _ W EA) as (A2 & LT & DR).
  assert (A3 : Inv [] (with_stack s2 (r :: stack s2))) by (apply inv_push; [exact A2|exact LT|discriminate]).
  assert (A4 : Inv [] (with_stack s2 (genv s2 :: r :: stack s2))) by (apply (inv_push true [] _ (genv s2) A3); [exact (proj1 (i_genv _ _ _ A2))|discriminate]).
  destruct (own_b_ok _ _ (proj1 (sane_tidy _ (proj2 (sane_inv _) A4))) OW) as (O1 & O2 & O3).
  constructor; [now apply sane_inv|exact DR|split; [right; now left|now left]|exact O1|split; [exact O2|auto]].
Qed.
Definition a_case (p : builtin) (q : vm -> list ref -> vm -> ref -> bool) : Prop :=
  exists n m a env xs s r s', arguments s a env xs /\ builtin_call n (Eval.eval m) p a env s = Ret (r, s') /\ q s xs s' r = true.
Lemma arg_case p q pre names : match arg_state (after_text machine pre) names with
  | Some (a, xs, s) => own_b s a && match builtin_call 50 (Eval.eval 50) p a (genv s) s with Ret (r, s') => q s xs s' r | _ => false end
  | None => false end = true -> a_case p q.
Proof.
  assert (G : forall s0, sane s0 -> match arg_state s0 names with
    | Some (a, xs, s) => own_b s a && match builtin_call 50 (Eval.eval 50) p a (genv s) s with Ret (r, s') => q s xs s' r | _ => false end
    | None => false end = true -> a_case p q).
  { intros s0 S0. destruct (arg_state s0 names) as [((a & xs) & s)|] eqn:EA; [|discriminate]. intros E. apply andb_true_iff in E as (E1 & E2).
    destruct (builtin_call 50 (Eval.eval 50) p a (genv s) s) as [[r s']| | | | |] eqn:EB; try discriminate.
    exists 50%nat, 50%nat, a, (genv s), xs, s, r, s'. split; [eapply arg_state_ok; eauto|]. auto. }
  apply G. apply after_text_sane, machine_sane.
Qed.
