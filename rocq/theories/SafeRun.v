(** Evaluating a text with the evaluator, and the machine made
    by octaspire_dern_vm_new preserve the invariant of SafeBase.v. *)
From Coq Require Import NArith ZArith Bool Lia Arith List String.
From Coq Require Import ZifyBool ZifyNat ZifyN.
From Verif Require Import Base Base64 OString Input Lexer Semver HMap Heap SpecHeap GcProofs VmProofs ValueOps Env Copy Builtins Specials Eval Read Boot SafeBase SafeRead SafeLib SafeBuiltins SafeSpecials SafeText SafeEval.
Import ListNotations.
Local Open Scope N_scope.

Section Safe.
Context (D : bool).
Notation wp := (wp D).
Notation Inv := (Inv D).
Notation At := (At D).
Notation good := (good D).
Ltac has := solve [unfold has; cbn [In app]; auto 15].
Ltac eqg H := apply (a_good _ _ _ _ _ _ _ H); reflexivity.
Ltac inc H := apply (a_good _ _ _ _ _ _ _ H); auto.

Theorem read_eval_ok fuel i P s : Inv P s -> wp (read_eval fuel i) (fun r s' => At false P s [] (fun x => r = Some x) s') s.
Proof. apply read_eval_by_ok, eval_safe. Qed.

(** ** The machine octaspire_dern_vm_new makes *)
Lemma register_ok P s0 G s name d : At false P s0 [] G s -> (forall x, ~ dref d x) -> (D = false -> tame d) ->
  wp (register (genv s0) name d) (fun _ s' => At false P s0 [] (fun _ => False) s') s.
Proof.
  intros H ND T. unfold register. pose proof (i_genv _ _ _ (a_inv0 _ _ _ _ _ _ _ H)) as (G1 & G2 & G3).
  apply wp_bind, (r_alloc D false P s0 (DSym (asc name)) [] _ _ _ H); [easy|easy|]. clear H. intros k s1 H _ Mk.
  apply wp_bind, (r_push D false P s0 k [] _ _ _ H); [has|]. clear H. intros s2 H.
  apply wp_bind, (r_alloc D false P s0 d [k] _ _ _ H); [intros x R; now apply ND in R|exact T|]. clear H. intros v s3 H _ Mv.
  apply wp_bind, (r_push D false P s0 v [k] _ _ _ H); [has|]. clear H. intros s4 H.
  apply wp_bind, (r_alloc D false P s0 (DStr []) [v; k] _ _ _ H); [easy|easy|]. clear H. intros y s5 H _ My.
  apply wp_bind. eapply (r_set_docs D false P s0 v); [exact H|has|exact Mv| |discriminate|auto|]. { intros z [= <-]. eqg H. }
  clear H. intros s6 H _ _. apply wp_bind, (r_pop D false P s0 v [k] _ _ _ H). clear H. intros s7 H.
  assert (H' : At false P s0 [k] (eq v) s7) by (eapply at_weaken; [exact H|intros z <-; apply (a_good _ _ _ _ _ _ _ H); left; split; [reflexivity|apply Mv]]). clear H.
  apply wp_bind, (r_push D false P s0 v [k] _ _ _ H'); [has|]. clear H'. intros s8 H.
  apply wp_bind. eapply (r_env_set D false P s0 (genv s0) k v); [exact H| |split; [exact G2|discriminate]|eapply at_good; [exact H|has|right; apply Mk]|eqg H|].
  { intros E. eapply (at_live D); [exact H| |exact E]. right. right. left. auto. }
  clear H. intros s9 H. apply wp_bind, (r_pop D false P s0 v [k] _ _ _ H). clear H. intros sa H.
  eapply (r_pop D false P s0 k []); [exact H|]. clear H. intros sb H. eapply at_weaken; [exact H|easy].
Qed.
Lemma boot_const_ok P s0 G s name d doc : At false P s0 [] G s -> (forall x, ~ dref d x) -> (D = false -> tame d) ->
  wp (boot_const (genv s0) name d doc) (fun _ s' => At false P s0 [] (fun _ => False) s') s.
Proof.
  intros H ND T. unfold boot_const. pose proof (i_genv _ _ _ (a_inv0 _ _ _ _ _ _ _ H)) as (G1 & G2 & G3).
  apply wp_bind, (r_alloc D false P s0 d [] _ _ _ H); [intros x R; now apply ND in R|exact T|]. clear H. intros v s1 H _ Mv.
  apply wp_bind, (r_push D false P s0 v [] _ _ _ H); [has|]. clear H. intros s2 H.
  apply wp_bind, (r_alloc D false P s0 (DStr (asc doc)) [v] _ _ _ H); [easy|easy|]. clear H. intros y s3 H _ My.
  apply wp_bind. eapply (r_set_docs D false P s0 v); [exact H|has|exact Mv| |discriminate|auto|]. { intros z [= <-]. eqg H. }
  clear H. intros s4 H _ _.
  apply wp_bind, (r_push D false P s0 y [v] _ _ _ H); [has|]. clear H. intros s5 H.
  apply wp_bind, (r_alloc D false P s0 (DSym (asc name)) [y; v] _ _ _ H); [easy|easy|]. clear H. intros k s6 H _ Mk.
  apply wp_bind. eapply (r_env_set D false P s0 (genv s0) k v); [exact H| |split; [exact G2|discriminate]|eqg H|eapply at_good; [exact H|has|right; apply Mv]|].
  { intros E. eapply (at_live D); [exact H| |exact E]. right. right. left. auto. }
  clear H. intros s9 H. apply wp_bind, (r_pop D false P s0 y [v] _ _ _ H). clear H. intros sa H.
  eapply (r_pop D false P s0 v []); [exact H|]. clear H. intros sb H. eapply at_weaken; [exact H|easy].
Qed.
Definition plain (d : data) : Prop := match d with DSpecial _ | DBuiltin _ => True | _ => False end.
Theorem boot_ok lib limit addr msg : (forall n d, In (n, d) lib -> plain d /\ (D = false -> tame d)) ->
  wp (boot lib) (fun _ s => Inv [] s /\ stack s = [genv s]) (empty_vm limit addr msg).
Proof.
  intros HL. unfold boot. apply wp_bind.
  assert (E : exists n, alloc (DEnv [] None) (empty_vm limit addr msg) = Ret (0, mkVm [(0, mkCell (DEnv [] None) None None false (addr 0))] 1 1 [] 0 n limit false None false 0 true [] addr msg nothing_outside)).
  { unfold alloc, bind, maybe_gc, do_gc, fresh, empty_vm. cbn. destruct (limit <=? 0); eexists; reflexivity. }
  destruct E as (n & E). unfold SafeBase.wp at 1. rewrite E. clear E. cbv beta. apply wp_bind. unfold SafeBase.wp at 1. cbn [all nextId nextAddr numAlloc gcLimit preventGc fret quit exitCode addrs msgs outside].
  match goal with |- SafeBase.wp _ _ _ ?s => set (s0 := s) end.
  assert (A : Inv [] s0).
  { assert (L0 : forall r c, lookup (all s0) r = Some c -> r = 0 /\ c = mkCell (DEnv [] None) None None false (addr 0)).
    { intros r c. cbn [s0 all lookup]. destruct (N.eqb_spec 0 r); [|discriminate]. intros [= <-]. auto. }
    assert (R0 : forall x, ~ (refers (mkCell (DEnv [] None) None None false (addr 0)) x)).
    { intros x R. apply refers_iff in R as [R|[(t & k & v & [] & _)|R]]; discriminate. }
    constructor.
    - split; [split; [constructor; [easy|constructor]|]|].
      + cbn. intros r c [[= <- <-]|[]]. reflexivity.
      + cbn. intros r c [[= <- <-]|[]]. lia.
    - intros r c x L R. apply L0 in L as (-> & ->). destruct R as [R|R]; [now apply R0 in R|discriminate].
    - intros _ r c x L R. apply L0 in L as (-> & ->). now apply R0 in R.
    - cbn. intros x [<-|[]]. split; [lia|]. intros _. unfold live. cbn. discriminate.
    - easy.
    - cbn. split; [lia|auto].
    - exact I.
    - intros _ r c L. apply L0 in L as (-> & ->). cbn. auto. }
  pose proof (at_start D false [] s0 A) as H.
  apply wp_bind. eapply wp_mono; [eapply (boot_const_ok [] s0 _ _ _ _ _ H); easy|]. intros u1 s1 H1. cbv beta in H1.
  apply wp_bind. eapply wp_mono; [eapply (boot_const_ok [] s0 _ _ _ _ _ H1); easy|]. intros u2 s2 H2. cbv beta in H2.
  apply wp_bind. eapply wp_mono; [eapply (boot_const_ok [] s0 _ _ _ _ _ H2); easy|]. intros u3 s3 H3. cbv beta in H3.
  eapply wp_mono; [eapply (wp_iterM D _ (fun s => At false [] s0 [] (fun _ => False) s)); [|exact H3]|].
  - intros [nm d] s J H'. cbn [fst snd]. destruct (HL nm d J) as (PD & TD). eapply (register_ok [] s0); [exact H'|destruct d; easy|exact TD].
  - intros u s H'. split; [apply H'|]. rewrite (a_stack _ _ _ _ _ _ _ H'). cbn. now rewrite (a_genv _ _ _ _ _ _ _ H').
Qed.
End Safe.
