(** Properties C35-C37 and C39: comparison and hashing of values. *)
From Coq Require Import List NArith ZArith Bool Lia Arith.
From Coq Require Import ZifyBool ZifyNat ZifyN.
From Coq Require Import Floats.SpecFloat.
From Verif Require Import Base SpecText SpecStr OString Semver HMap Heap ValueOps SpecValue PropsText ValueProofs.
Import ListNotations.

(** ** C35 *)

(** The comparison subtracts the integers: whenever the difference does not fit
    in 32 bits, comparing them is undefined behaviour. *)
Theorem C35_integer_comparison_refuted : forall h a b ca cb x y fuel,
  lookup h a = Some ca -> lookup h b = Some cb -> cdata ca = DInt x -> cdata cb = DInt y -> a <> b ->
  in_int32 x = true -> in_int32 y = true -> in_int32 (x - y) = false ->
  vless (S fuel) h a b = Undef /\ vequal (S fuel) h a b = Undef /\ vgreater (S fuel) h a b = Undef.
Proof.
  intros h a b ca cb x y fuel La Lb Da Db NE Hx Hy Hd. unfold vless, vequal, vgreater.
  cbn [vcompare]. rewrite (proj2 (N.eqb_neq a b) NE), La, Lb, Da, Db. unfold int32_op. rewrite Hd. auto.
Qed.
Print Assumptions C35_integer_comparison_refuted.
Example ex_c35_overflow :
  let h := [(1, mkCell (DInt INT32_MIN) None None false 0); (2, mkCell (DInt 1) None None false 0)]%N in
  in_int32 INT32_MIN = true /\ in_int32 1 = true /\ in_int32 (INT32_MIN - 1) = false
  /\ vless 1 h 1%N 2%N = Undef.
Proof. repeat split. Qed.

(** When the difference fits, all five comparisons are the mathematical ones. *)
Theorem C35_integer_comparison_partial : forall h a b ca cb x y fuel,
  lookup h a = Some ca -> lookup h b = Some cb -> cdata ca = DInt x -> cdata cb = DInt y ->
  in_int32 (x - y) = true ->
  vless (S fuel) h a b = Ret (x <? y)%Z /\ vgreater (S fuel) h a b = Ret (x >? y)%Z
  /\ vequal (S fuel) h a b = Ret (x =? y)%Z
  /\ vless_eq (S fuel) h a b = Ret (x <=? y)%Z /\ vgreater_eq (S fuel) h a b = Ret (x >=? y)%Z.
Proof.
  intros h a b ca cb x y fuel La Lb Da Db Hd. unfold vless, vequal, vgreater, vless_eq, vgreater_eq.
  cbn [vcompare]. destruct (N.eqb_spec a b) as [<-|NE].
  - assert (x = y) by congruence. subst y. cbn [obind]. repeat split; f_equal; lia.
  - rewrite La, Lb, Da, Db. unfold int32_op. rewrite Hd. cbn [obind]. repeat split; f_equal; lia.
Qed.
Print Assumptions C35_integer_comparison_partial.
Example ex_c35_ok :
  let h := [(1, mkCell (DInt (-5)) None None false 0); (2, mkCell (DInt INT32_MAX) None None false 0)]%N in
  in_int32 (0 - INT32_MAX) = true /\ in_int32 (-1 - INT32_MAX) = true /\ vless 1 h 2%N 2%N = Ret false.
Proof. repeat split. Qed.

(** ** C36 *)

(** Comparing two values computes [tree_order] of what they denote, whatever the
    sharing between them. *)
Theorem C36_compare_by_structure_partial : forall h lo a b ta tb fuel,
  denotes h a ta -> denotes h b tb -> ordinary lo ta -> ordinary lo tb -> height ta < fuel ->
  exists z, vcompare fuel h a b = Ret z /\ Z.compare z 0 = tree_order ta tb.
Proof. intros h lo a b ta tb fuel. exact (vcompare_sign h lo ta tb a b fuel). Qed.
Print Assumptions C36_compare_by_structure_partial.

(** Functions (and macros) are equal when their names, documentation strings,
    formals, bodies and environments are and both or neither return howtos. *)
Lemma funs_equal cmp f g : sound_text (fname f) -> sound_text (fname g) -> sound_text (fdoc f) -> sound_text (fdoc g) ->
  (compare_funs cmp f g = Ret 0%Z <-> fname f = fname g /\ fdoc f = fdoc g /\ cmp (fformals f) (fformals g) = Ret 0%Z /\
     cmp (fbody f) (fbody g) = Ret 0%Z /\ cmp (fenv f) (fenv g) = Ret 0%Z /\ fhowto f = fhowto g).
Proof.
  intros S1 S2 S3 S4.
  assert (AT : forall c k, andthen c k = Ret 0%Z <-> c = Ret 0%Z /\ k = Ret 0%Z).
  { intros c k. unfold andthen. destruct c as [z| | | | |]; cbn [obind]; try (split; [discriminate|intros (? & _); discriminate]). destruct (Z.eqb_spec z 0) as [->|NZ]; [tauto|]. split; [congruence|intros (? & _); congruence]. }
  assert (TC : forall t u, sound_text t -> sound_text u -> (text_cmp t u = Ret 0%Z <-> t = u)).
  { intros t u T U. destruct (text_cmp_sign t u T U) as (z & -> & Z). rewrite <- lex_eq, <- Z, Z.compare_eq_iff. split; congruence. }
  unfold compare_funs. rewrite !AT, !TC by assumption. assert (HB : Ret (Z.b2z (fhowto f) - Z.b2z (fhowto g))%Z = Ret 0%Z <-> fhowto f = fhowto g) by (destruct (fhowto f), (fhowto g); cbn; split; congruence).
  rewrite HB. tauto.
Qed.
Theorem C36_functions_equal : forall h a b ca cb f g n, lookup h a = Some ca -> lookup h b = Some cb ->
  (cdata ca = DFun f /\ cdata cb = DFun g \/ cdata ca = DMac f /\ cdata cb = DMac g) -> a <> b ->
  sound_text (fname f) -> sound_text (fname g) -> sound_text (fdoc f) -> sound_text (fdoc g) ->
  (vcompare (S n) h a b = Ret 0%Z <-> fname f = fname g /\ fdoc f = fdoc g /\ vcompare n h (fformals f) (fformals g) = Ret 0%Z /\
     vcompare n h (fbody f) (fbody g) = Ret 0%Z /\ vcompare n h (fenv f) (fenv g) = Ret 0%Z /\ fhowto f = fhowto g).
Proof.
  intros h a b ca cb f g n La Lb D NE S1 S2 S3 S4. cbn [vcompare]. rewrite (proj2 (N.eqb_neq a b) NE), La, Lb.
  destruct D as [(-> & ->)|(-> & ->)]; now apply funs_equal.
Qed.
Print Assumptions C36_functions_equal.
Example ex_functions_equal : let f := mkFunc [97]%N [98]%N true 3%N 4%N 5%N in
  let h := [(1, mkCell (DFun f) None None false 0); (2, mkCell (DFun f) None None false 0); (3, mkCell (DVec []) None None false 0); (4, mkCell (DVec []) None None false 0); (5, mkCell (DEnv [] None) None None false 0)]%N in
  vcompare 3 h 1%N 2%N = Ret 0%Z.
Proof. reflexivity. Qed.

(** [tree_order] is a total order in which only a tree itself is equal to it. *)
Theorem C36_structural_order : forall a b c,
  (tree_order a b = Eq <-> a = b) /\ tree_order b a = CompOpp (tree_order a b)
  /\ (tree_order a b = Lt -> tree_order b c = Lt -> tree_order a c = Lt).
Proof.
  intros a b c. split; [|split; [apply tree_order_opp|apply tree_order_trans]].
  split; [apply tree_order_eq|]. intros <-. apply tree_order_refl.
Qed.
Print Assumptions C36_structural_order.

(** The laws in terms of the comparison itself. *)
Theorem C36_equality_is_structural_partial : forall h lo a b ta tb fuel,
  denotes h a ta -> denotes h b tb -> ordinary lo ta -> ordinary lo tb -> height ta < fuel ->
  exists e, vequal fuel h a b = Ret e /\ (e = true <-> ta = tb).
Proof.
  intros h lo a b ta tb fuel Da Db Oa Ob Hf. destruct (vcompare_sign h lo ta tb a b fuel Da Db Oa Ob Hf) as (z & E & S).
  unfold vequal. rewrite E. cbn [obind]. eexists. split; [reflexivity|].
  destruct (C36_structural_order ta tb ta) as ((A & B) & _). rewrite Z.eqb_eq. split.
  - intros ->. apply A. now rewrite <- S.
  - intros Eq. apply B in Eq. rewrite Eq in S. now apply Z.compare_eq.
Qed.
Print Assumptions C36_equality_is_structural_partial.
Theorem C36_antisymmetric_partial : forall h lo a b ta tb fuel,
  denotes h a ta -> denotes h b tb -> ordinary lo ta -> ordinary lo tb -> height ta < fuel -> height tb < fuel ->
  exists z z', vcompare fuel h a b = Ret z /\ vcompare fuel h b a = Ret z' /\ Z.sgn z' = (- Z.sgn z)%Z.
Proof.
  intros h lo a b ta tb fuel Da Db Oa Ob Ha Hb.
  destruct (vcompare_sign h lo ta tb a b fuel Da Db Oa Ob Ha) as (z & E & S).
  destruct (vcompare_sign h lo tb ta b a fuel Db Da Ob Oa Hb) as (z' & E' & S').
  exists z, z'. split; [exact E|]. split; [exact E'|]. rewrite tree_order_opp, <- S in S'.
  destruct (Z.compare_spec z 0), (Z.compare_spec z' 0); try discriminate; lia.
Qed.
Print Assumptions C36_antisymmetric_partial.
Theorem C36_transitive_partial : forall h lo a b c ta tb tc fuel,
  denotes h a ta -> denotes h b tb -> denotes h c tc -> ordinary lo ta -> ordinary lo tb -> ordinary lo tc ->
  height ta < fuel -> height tb < fuel ->
  vless fuel h a b = Ret true -> vless fuel h b c = Ret true -> vless fuel h a c = Ret true.
Proof.
  intros h lo a b c ta tb tc fuel Da Db Dc Oa Ob Oc Ha Hb. unfold vless.
  destruct (vcompare_sign h lo ta tb a b fuel Da Db Oa Ob Ha) as (z & -> & S).
  destruct (vcompare_sign h lo tb tc b c fuel Db Dc Ob Oc Hb) as (z' & -> & S').
  destruct (vcompare_sign h lo ta tc a c fuel Da Dc Oa Oc Ha) as (z2 & -> & S2). cbn [obind].
  intros H1 H2. injection H1 as H1. injection H2 as H2.
  assert (tree_order ta tb = Lt) by (rewrite <- S; apply Z.compare_lt_iff; lia).
  assert (tree_order tb tc = Lt) by (rewrite <- S'; apply Z.compare_lt_iff; lia).
  rewrite (tree_order_trans ta tb tc) in S2 by assumption. rewrite Z.compare_lt_iff in S2. f_equal. lia.
Qed.
Print Assumptions C36_transitive_partial.

(** Two vectors [1 "a" [nil]] and [1 "b" [nil]] sharing their last element. *)
Definition ex_cell (d : data) : cell := mkCell d None None false 0.
Definition ex_vals : heap :=
  [(1, ex_cell (DInt 1)); (2, ex_cell (DStr [97])); (3, ex_cell (DStr [98])); (4, ex_cell DNil); (5, ex_cell (DVec [4]));
   (6, ex_cell (DVec [1; 2; 5])); (7, ex_cell (DVec [1; 3; 5])); (8, ex_cell (DList [6; 7]))]%N.
Definition ex_t (c : N) := TVec [TInt 1; TStr [c]; TVec [TNil]].
Example ex_c36_denotes : denotes ex_vals 6%N (ex_t 97) /\ denotes ex_vals 7%N (ex_t 98)
  /\ denotes ex_vals 8%N (TList [ex_t 97; ex_t 98]) /\ ordinary 0 (TList [ex_t 97; ex_t 98]).
Proof.
  assert (D1 : denotes ex_vals 1%N (TInt 1)) by (eapply den_int; reflexivity).
  assert (D5 : denotes ex_vals 5%N (TVec [TNil])).
  { eapply den_vec; [reflexivity|reflexivity|]. constructor; [|constructor]. eapply den_nil; reflexivity. }
  assert (D6 : denotes ex_vals 6%N (ex_t 97)).
  { eapply den_vec; [reflexivity|reflexivity|]. repeat constructor; auto. eapply den_str; reflexivity. }
  assert (D7 : denotes ex_vals 7%N (ex_t 98)).
  { eapply den_vec; [reflexivity|reflexivity|]. repeat constructor; auto. eapply den_str; reflexivity. }
  split; [exact D6|]. split; [exact D7|]. split.
  - eapply den_list; [reflexivity|reflexivity|]. repeat constructor; auto.
  - cbn [ordinary length]. unfold INT32_MAX. assert (forall c, (0 < c < 128)%N -> scalar c /\ ~ In 0%N [c]).
    { intros c Hc. split; [unfold scalar; lia|]. intros [H|[]]. lia. }
    assert (S97 : Forall scalar [97%N]) by (constructor; [unfold scalar; lia|constructor]).
    assert (S98 : Forall scalar [98%N]) by (constructor; [unfold scalar; lia|constructor]).
    cbn. intuition (try lia).
Qed.
Example ex_c36_value : vcompare 3 ex_vals 6%N 7%N = Ret (-1)%Z.
Proof. reflexivity. Qed.

(** ** C37 *)

(** 1 and 1.0 are equal but hash differently, so a key 1.0 does not find an
    entry stored under 1; likewise two equal vectors, and two versions that
    differ in build metadata. *)
Definition sf_one : spec_float := S754_finite false 4503599627370496 (-52).
Definition c37_heap : heap :=
  [(1, ex_cell (DInt 1)); (2, ex_cell (DReal sf_one));
   (3, mkCell (DVec []) None None false 4096); (4, mkCell (DVec []) None None false 8192);
   (5, ex_cell (DSemver (mkSemver 1 0 0 [] []))); (6, ex_cell (DSemver (mkSemver 1 0 0 [] [[97]])))]%N.
Theorem C37_equal_values_hash_equally_refuted :
  (vequal 5 c37_heap 1%N 2%N = Ret true /\ vhash c37_heap 1%N <> vhash c37_heap 2%N)
  /\ (vequal 5 c37_heap 3%N 4%N = Ret true /\ vhash c37_heap 3%N <> vhash c37_heap 4%N)
  /\ (vequal 5 c37_heap 5%N 6%N = Ret true /\ vhash c37_heap 5%N <> vhash c37_heap 6%N)
  /\ exists hk m, vhash c37_heap 1%N = Ret hk
       /\ map_put (fun a b => N.eqb a b) map_new hk 1%N 3%N = Ret m
       /\ map_find (vcompare 5 c37_heap) c37_heap m 1%N = Ret (Some (mkElem hk 1%N [3%N]))
       /\ map_find (vcompare 5 c37_heap) c37_heap m 2%N = Ret None.
Proof.
  split; [split; [reflexivity|vm_compute; discriminate]|]. split; [split; [reflexivity|vm_compute; discriminate]|].
  split; [split; [reflexivity|vm_compute; discriminate]|]. do 2 eexists. split; [vm_compute; reflexivity|].
  split; [vm_compute; reflexivity|]. split; vm_compute; reflexivity.
Qed.
Print Assumptions C37_equal_values_hash_equally_refuted.

(** It holds for nil, booleans, integers, strings, characters, symbols and errors. *)
Definition atom (t : tree) : Prop := match t with TVec _ | TQueue _ | TList _ => False | _ => True end.
Lemma atom_hash h a b t : denotes h a t -> denotes h b t -> atom t -> vhash h a = vhash h b.
Proof.
  intros Da Db At. unfold vhash. destruct t; cbn in At; try tauto;
    inversion Da as [? c L D|? c ? L D|? c ? L D|? c ? L D|? c ? L D|? c ? L D|? c ? ? L D|? c ?l ? L D F|? c ?l ? ? L D F|? c ?l ? L D F]; subst;
    inversion Db as [? c' L' D'|? c' ? L' D'|? c' ? L' D'|? c' ? L' D'|? c' ? L' D'|? c' ? L' D'|? c' ? ? L' D'|? c' ?l ? L' D' F'|? c' ?l ? ? L' D' F'|? c' ?l ? L' D' F']; subst;
    rewrite L, L'; unfold cell_hash; now rewrite D, D'.
Qed.
Theorem C37_equal_atoms_hash_equally_partial : forall h lo a b ta tb fuel,
  denotes h a ta -> denotes h b tb -> ordinary lo ta -> ordinary lo tb -> atom ta ->
  vequal (S fuel) h a b = Ret true -> vhash h a = vhash h b.
Proof.
  intros h lo a b ta tb fuel Da Db Oa Ob At E.
  destruct (C36_equality_is_structural_partial h lo a b ta tb (S fuel) Da Db Oa Ob) as (e & E' & K).
  { destruct ta; cbn in At |- *; try tauto; lia. }
  rewrite E in E'. injection E' as <-. apply atom_hash with (t := ta); auto. rewrite (proj1 K eq_refl). exact Db.
Qed.
Print Assumptions C37_equal_atoms_hash_equally_partial.
(** So equal atoms, as keys, find the same entry in any map with atomic keys. *)
Theorem C37_equal_keys_find_the_same_partial : forall h lo m k k' t fuel,
  denotes h k t -> denotes h k' t -> atom t -> ordinary lo t ->
  (forall b e, In b (buckets m) -> In e b -> exists u, denotes h (ekey e) u /\ ordinary lo u) ->
  map_find (vcompare (S fuel) h) h m k = map_find (vcompare (S fuel) h) h m k'.
Proof.
  intros h lo m k k' t fuel D D' At O HM. unfold map_find. rewrite (atom_hash h k k' t) by assumption.
  destruct (vhash h k') as [hk| | | | |]; cbn [obind]; try reflexivity.
  assert (HB : forall e, In e (nth (bucket_index hk (length (buckets m))) (buckets m) []) -> exists u, denotes h (ekey e) u /\ ordinary lo u).
  { intros e I. destruct (le_lt_dec (length (buckets m)) (bucket_index hk (length (buckets m)))) as [G|G].
    - rewrite nth_overflow in I by lia. easy.
    - apply (HM (nth (bucket_index hk (length (buckets m))) (buckets m) [])); [now apply nth_In|exact I]. }
  revert HB. generalize (nth (bucket_index hk (length (buckets m))) (buckets m) []) as b.
  induction b as [|e b IH]; intros HB; [reflexivity|]. cbn [find_o].
  destruct (HB e (or_introl eq_refl)) as (u & Du & Ou).
  assert (HT : height t < S fuel) by (destruct t; cbn in At |- *; try tauto; lia).
  destruct (vcompare_sign h lo t u k (ekey e) (S fuel) D Du O Ou HT) as (z & -> & S1).
  destruct (vcompare_sign h lo t u k' (ekey e) (S fuel) D' Du O Ou HT) as (z' & -> & S2). cbn [obind].
  rewrite IH by (intros; apply HB; now right).
  assert (HZ : (z =? 0)%Z = (z' =? 0)%Z) by (destruct (Z.compare_spec z 0), (Z.compare_spec z' 0); try congruence; lia).
  now rewrite HZ.
Qed.
Print Assumptions C37_equal_keys_find_the_same_partial.
Example ex_c37 : denotes ex_vals 2%N (TStr [97%N]) /\ atom (TStr [97%N]) /\ vhash ex_vals 2%N <> vhash ex_vals 3%N.
Proof. split; [eapply den_str; reflexivity|]. split; [exact I|]. vm_compute. discriminate. Qed.

(** ** C39 *)

(** {1: nil} and {2: nil}: each is greater than the other. *)
Definition c39_heap : heap :=
  [(1, ex_cell (DInt 1)); (2, ex_cell (DInt 2)); (3, ex_cell DNil)]%N.
Definition c39_prog (k : ref) : outcome (hmap ref ref) :=
  obind (vhash c39_heap k) (fun hk => map_put N.eqb map_new hk k 3%N).
Theorem C39_hash_map_comparison_refuted : exists m1 m2,
  c39_prog 1%N = Ret m1 /\ c39_prog 2%N = Ret m2 /\
  let h := c39_heap ++ [(4, ex_cell (DMap m1)); (5, ex_cell (DMap m2))]%N in
  vcompare 9 h 4%N 5%N = Ret 1%Z /\ vcompare 9 h 5%N 4%N = Ret 1%Z.
Proof. do 2 eexists. split; [vm_compute; reflexivity|]. split; [vm_compute; reflexivity|]. split; vm_compute; reflexivity. Qed.
Print Assumptions C39_hash_map_comparison_refuted.

(** Maps of different sizes do compare antisymmetrically, by size. *)
Theorem C39_different_sizes_partial : forall h a b ca cb m1 m2 fuel,
  lookup h a = Some ca -> lookup h b = Some cb -> cdata ca = DMap m1 -> cdata cb = DMap m2 ->
  numElements m1 <> numElements m2 ->
  (Z.of_nat (numElements m1) <= INT32_MAX)%Z -> (Z.of_nat (numElements m2) <= INT32_MAX)%Z ->
  vcompare (S fuel) h a b = Ret (Z.of_nat (numElements m1) - Z.of_nat (numElements m2))%Z.
Proof.
  intros h a b ca cb m1 m2 fuel La Lb Da Db NE B1 B2. cbn [vcompare].
  destruct (N.eqb_spec a b) as [<-|N1]; [congruence|]. rewrite La, Lb, Da, Db. unfold compare_maps.
  rewrite (proj2 (Nat.eqb_neq _ _) NE). now rewrite size_diff_small.
Qed.
Print Assumptions C39_different_sizes_partial.
Example ex_c39 : exists m1, c39_prog 1%N = Ret m1 /\ numElements m1 = 1 /\ numElements (map_new (K := ref) (V := ref)) = 0.
Proof. eexists. split; [vm_compute; reflexivity|]. split; reflexivity. Qed.
