(** A comparison that ends does so in the same way with more fuel. *)
From Coq Require Import NArith ZArith Bool Lia List.
From Verif Require Import Base HMap Heap ValueOps.
Import ListNotations.
Local Open Scope N_scope.

Section Mono.
Context (cmp cmp' : ref -> ref -> outcome Z) (K : forall p q z, cmp p q = Ret z -> cmp' p q = Ret z).
Lemma obind_mono {X Y} (o o' : outcome X) (f f' : X -> outcome Y) y : (forall x, o = Ret x -> o' = Ret x) -> (forall x, f x = Ret y -> f' x = Ret y) -> obind o f = Ret y -> obind o' f' = Ret y.
Proof. intros A B E. destruct o as [x| | | | |]; try discriminate. rewrite (A x eq_refl). cbn in *. auto. Qed.
Lemma seq_mono : forall x y z, compare_seq cmp x y = Ret z -> compare_seq cmp' x y = Ret z.
Proof.
  induction x as [|p x IH]; intros y z; [auto|]. destruct y as [|q y]; [auto|]. cbn [compare_seq]. apply obind_mono; [auto|]. intros c. destruct (c =? 0)%Z; auto.
Qed.
Lemma sized_mono x y z : compare_sized cmp x y = Ret z -> compare_sized cmp' x y = Ret z.
Proof. unfold compare_sized. destruct (Nat.eqb _ _); auto using seq_mono. Qed.
Lemma find_mono k : forall b z, find_o cmp k b = Ret z -> find_o cmp' k b = Ret z.
Proof. induction b as [|e b IH]; intros z; [auto|]. cbn [find_o]. apply obind_mono; [auto|]. intros c. destruct (c =? 0)%Z; auto. Qed.
Lemma maps_mono h x y z : compare_maps cmp h x y = Ret z -> compare_maps cmp' h x y = Ret z.
Proof.
  unfold compare_maps. destruct (Nat.eqb _ _); [|auto]. generalize (concat (buckets x)) as es. induction es as [|e es IH]; [auto|]. cbn [compare_elems].
  apply obind_mono; [auto|]. intros v. apply obind_mono.
  - intros o. unfold map_find. apply obind_mono; [auto|]. intros hk. apply find_mono.
  - intros [e'|]; [|auto]. apply obind_mono; [auto|]. intros v'. apply obind_mono; [auto|]. intros c. destruct (c =? 0)%Z; auto.
Qed.
Lemma bindings_mono y : forall x z, compare_bindings cmp x y = Ret z -> compare_bindings cmp' x y = Ret z.
Proof.
  induction x as [|(t & n & v) x IH]; intros z; [auto|]. cbn [compare_bindings]. destruct (find_binding t y) as [(n' & v')|]; [|auto]. apply obind_mono; [auto|]. intros c. destruct (c =? 0)%Z; auto.
Qed.
Lemma funs_mono f g z : compare_funs cmp f g = Ret z -> compare_funs cmp' f g = Ret z.
Proof.
  unfold compare_funs, andthen. apply obind_mono; [auto|]. intros c. destruct (c =? 0)%Z; [|auto]. apply obind_mono; [auto|]. intros c1. destruct (c1 =? 0)%Z; [|auto].
  apply obind_mono; [auto|]. intros c2. destruct (c2 =? 0)%Z; [|auto]. apply obind_mono; [auto|]. intros c3. destruct (c3 =? 0)%Z; [|auto].
  apply obind_mono; [auto|]. intros c4. destruct (c4 =? 0)%Z; auto.
Qed.
End Mono.
Lemma vcompare_more h : forall n a b z, vcompare n h a b = Ret z -> vcompare (S n) h a b = Ret z.
Proof.
  induction n as [|n IH]; intros a b z E; [discriminate|]. change (vcompare (S (S n)) h a b) with (vcompare (S (S n)) h a b). cbn [vcompare] in E |- *. fold (vcompare (S n)).
  destruct (a =? b); [exact E|]. destruct (lookup h a) as [ca|]; [|exact E]. destruct (lookup h b) as [cb|]; [|exact E].
  destruct (cdata ca), (cdata cb); try exact E; try (eapply sized_mono; [|exact E]; exact IH); try (eapply funs_mono; [|exact E]; exact IH).
  - eapply maps_mono; [|exact E]. exact IH.
  - unfold compare_envs in *. destruct (Nat.eqb _ _); [|exact E]. eapply bindings_mono; [|exact E]. exact IH.
Qed.
Theorem vcompare_mono h n m a b z : (n <= m)%nat -> vcompare n h a b = Ret z -> vcompare m h a b = Ret z.
Proof. intros LE. induction LE; auto using vcompare_more. Qed.
Theorem vcompare_det h n m a b z z' : vcompare n h a b = Ret z -> vcompare m h a b = Ret z' -> z = z'.
Proof.
  intros E E'. destruct (Nat.le_ge_cases n m) as [LE|LE]; [apply (vcompare_mono _ _ _ _ _ _ LE) in E|apply (vcompare_mono _ _ _ _ _ _ LE) in E']; congruence.
Qed.
