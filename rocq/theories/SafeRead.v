(** Reading values never meets a freed one in a heap without dangling pointers,
    and what maps and environments hold after an update. *)
From Coq Require Import NArith ZArith Bool Lia Arith List.
From Verif Require Import Base OString Semver Lexer Vec HMap HMapProofs Heap SpecHeap ValueOps Env Copy Builtins SafeBase.
Import ListNotations.
Local Open Scope N_scope.

Definition nd {X} (o : outcome X) : Prop := o <> Dangling.
Lemma nd_bind {X Y} (o : outcome X) (k : X -> outcome Y) : nd o -> (forall x, o = Ret x -> nd (k x)) -> nd (obind o k).
Proof. unfold nd. destruct o; cbn; intros; try discriminate; auto. Qed.
Lemma nd_ret {X} (x : X) : nd (Ret x). Proof. discriminate. Qed.
Lemma nd_int32 z : nd (int32_op z). Proof. unfold int32_op. destruct (in_int32 z); discriminate. Qed.
Lemma nd_c_string s : nd (str_get_c_string s).
Proof. unfold str_get_c_string. destruct (oct (str_ensure s)); [discriminate|]. destruct (_ =? 0); discriminate. Qed.
Lemma nd_c_string_copy s : nd (c_string_copy s).
Proof. unfold c_string_copy. apply nd_bind; [apply nd_c_string|]. intros x _. destruct (str_from_buffer _); discriminate. Qed.
Lemma nd_via_cstr l : nd (via_cstr l).
Proof. unfold via_cstr. apply nd_bind; [apply nd_c_string|]. intros x _. destruct (str_from_buffer _) as [o|]; [destruct (err o)|]; discriminate. Qed.
Lemma nd_str_get s i : nd (str_get s i).
Proof. unfold str_get. destruct (str_index s i) as [k []]; [|discriminate]. destruct (nth_error _ _); discriminate. Qed.
Lemma nd_text_hash s : nd (text_hash s).
Proof. unfold text_hash, str_hash. destruct (oct (str_ensure (text_str s))); [discriminate|]. destruct (_ =? 0); discriminate. Qed.
Lemma nd_text_compare a b : nd (text_compare a b).
Proof.
  unfold text_compare, str_compare. apply nd_bind; [apply nd_c_string|]. intros rb _. cbv zeta. destruct (oct _); [discriminate|]. destruct (_ =? 0); discriminate.
Qed.
Lemma nd_text_cmp a b : nd (text_cmp a b).
Proof. unfold text_cmp. apply nd_bind; [apply nd_text_compare|]. discriminate. Qed.
Lemma nd_idents a : forall b, nd (compare_idents a b).
Proof.
  induction a as [|x a IH]; intros [|y b]; try discriminate. cbn [compare_idents].
  destruct x, y; try discriminate.
  - cbv zeta. destruct (_ =? _)%Z; [apply IH|discriminate].
  - apply nd_bind; [apply nd_text_compare|]. intros c _. destruct c; try discriminate; apply IH.
Qed.
Lemma nd_semver a b : nd (semver_compare a b).
Proof.
  unfold semver_compare. destruct (negb _); [discriminate|]. destruct (negb _); [discriminate|]. destruct (negb _); [discriminate|].
  destruct (pre a) as [|p ps], (pre b) as [|q qs]; try discriminate. apply nd_bind; [apply nd_idents|]. intros c _.
  destruct (negb _); [discriminate|]. destruct (Nat.eqb _ _); [discriminate|]. try destruct (Nat.ltb _ _); discriminate.
Qed.
Lemma nd_single e : nd (single e). Proof. unfold single. destruct (evals e) as [|v [|]]; discriminate. Qed.
Lemma nd_trunc f : nd (sf_trunc f). Proof. destruct f; try discriminate. apply nd_int32. Qed.
Lemma nd_remove_loop : forall f s sub n, nd (remove_all_loop f s sub n).
Proof.
  induction f as [|f IH]; intros s sub n; cbn [remove_all_loop]; (destruct (ucs s) eqn:E; [discriminate|]); (destruct (str_find_first s 0 sub); [|discriminate]); [discriminate|].
  destruct (str_remove_chars _ _ _). apply IH.
Qed.
Lemma nd_remove_all f s sub : nd (str_remove_all f s sub). Proof. apply nd_remove_loop. Qed.

Lemma single_in e v : single e = Ret v -> In v (evals e).
Proof. unfold single. destruct (evals e) as [|x [|]]; try discriminate. intros [= ->]. now left. Qed.

(** ** Comparing *)
Definition closed (h : heap) : Prop := forall r c x, lookup h r = Some c -> refers c x -> lookup h x <> None.
Section Compare.
Context (h : heap) (C : closed h).
Notation alive x := (lookup h x <> None).
Context (cmp : ref -> ref -> outcome Z) (CMP : forall a b, alive a -> alive b -> nd (cmp a b)).

Lemma nd_hash r : alive r -> nd (vhash h r).
Proof.
  unfold vhash. destruct (lookup h r) as [c|]; [|congruence]. intros _. unfold cell_hash. destruct (cdata c); try discriminate; apply nd_text_hash.
Qed.
Lemma nd_find_o k b : alive k -> (forall e, In e b -> alive (ekey e)) -> nd (find_o cmp k b).
Proof.
  intros A. induction b as [|e b IH]; intros B; cbn [find_o]; [discriminate|]. apply nd_bind; [apply CMP; auto; apply B; now left|].
  intros c _. destruct (_ =? _)%Z; [discriminate|]. apply IH. intros; apply B; now right.
Qed.
Lemma find_o_in k b e : find_o cmp k b = Ret (Some e) -> In e b.
Proof.
  induction b as [|x b IH]; cbn [find_o]; [discriminate|]. destruct (cmp k (ekey x)); try discriminate. cbn [obind].
  destruct (_ =? _)%Z; [intros [= ->]; now left|]. intros; right; auto.
Qed.
Lemma nth_concat {X} i (bs : list (list X)) e : In e (nth i bs []) -> In e (concat bs).
Proof.
  intros I. destruct (lt_dec i (length bs)); [|rewrite nth_overflow in I by lia; destruct I].
  apply in_concat. exists (nth i bs []). split; [now apply nth_In|exact I].
Qed.
Definition map_alive (m : hmap ref ref) : Prop := forall e, In e (concat (buckets m)) -> alive (ekey e) /\ forall v, In v (evals e) -> alive v.
Lemma nd_map_find m k : alive k -> map_alive m -> nd (map_find cmp h m k).
Proof.
  intros A B. unfold map_find. apply nd_bind; [now apply nd_hash|]. intros hk _. apply nd_find_o; [exact A|]. intros e I. apply B. now apply nth_concat in I.
Qed.
Lemma map_find_in m k e : map_find cmp h m k = Ret (Some e) -> In e (concat (buckets m)).
Proof. unfold map_find. destruct (vhash h k); try discriminate. cbn [obind]. intros E. apply find_o_in in E. now apply nth_concat in E. Qed.
Lemma nd_seq : forall a b, (forall x, In x a -> alive x) -> (forall x, In x b -> alive x) -> nd (compare_seq cmp a b).
Proof.
  induction a as [|x a IH]; intros [|y b] A B; try discriminate. cbn [compare_seq]. apply nd_bind; [apply CMP; [apply A|apply B]; now left|].
  intros c _. destruct (_ =? _)%Z; [|discriminate]. apply IH; intros; [apply A|apply B]; now right.
Qed.
Lemma nd_sized a b : (forall x, In x a -> alive x) -> (forall x, In x b -> alive x) -> nd (compare_sized cmp a b).
Proof. intros. unfold compare_sized. destruct (Nat.eqb _ _); [now apply nd_seq|discriminate]. Qed.
Lemma nd_elems : forall es m, (forall e, In e es -> alive (ekey e) /\ forall v, In v (evals e) -> alive v) -> map_alive m -> nd (compare_elems cmp h es m).
Proof.
  induction es as [|e es IH]; intros m A B; cbn [compare_elems]; [discriminate|].
  destruct (A e (or_introl eq_refl)) as (A1 & A2).
  apply nd_bind; [apply nd_single|]. intros v SV. apply nd_bind; [now apply nd_map_find|]. intros [e'|] F; [|discriminate].
  apply nd_bind; [apply nd_single|]. intros v' SV'. apply map_find_in in F. apply nd_bind; [apply CMP|].
  - apply A2. now apply single_in.
  - apply (B e' F). now apply single_in.
  - intros c _. destruct (_ =? _)%Z; [|discriminate]. apply IH; auto. intros; apply A; now right.
Qed.
Lemma nd_maps a b : map_alive a -> map_alive b -> nd (compare_maps cmp h a b).
Proof. intros. unfold compare_maps. destruct (Nat.eqb _ _); [apply nd_elems; auto|discriminate]. Qed.
Lemma find_binding_in' t b k v : find_binding t b = Some (k, v) -> In (t, (k, v)) b.
Proof.
  unfold find_binding. match goal with |- context [find ?p b] => destruct (find p b) as [[t' kv]|] eqn:F end; [|discriminate]. apply find_some in F as (F & T). cbn [option_map snd]. intros [= ->].
  cbn [fst] in T. destruct (list_eq_dec N.eq_dec t' t); [|discriminate]. now subst.
Qed.
Definition env_alive (b : list (text * (ref * ref))) : Prop := forall t k v, In (t, (k, v)) b -> alive v.
Lemma nd_bindings : forall a b, env_alive a -> env_alive b -> nd (compare_bindings cmp a b).
Proof.
  induction a as [|[t [k v]] a IH]; intros b A B; cbn [compare_bindings]; [discriminate|]. destruct (find_binding t b) as [[k' v']|] eqn:F; [|discriminate].
  apply find_binding_in' in F. apply nd_bind; [apply CMP; [eapply A; now left|eapply B; eauto]|].
  intros c _. destruct (_ =? _)%Z; [|discriminate]. apply IH; auto. intros t1 k1 v1 I. eapply A. right. exact I.
Qed.
Lemma nd_envs a b : env_alive a -> env_alive b -> nd (compare_envs cmp a b).
Proof. intros. unfold compare_envs. destruct (Nat.eqb _ _); [now apply nd_bindings|discriminate]. Qed.
Lemma nd_andthen a b : nd a -> nd b -> nd (andthen a b).
Proof. intros. unfold andthen. apply nd_bind; [assumption|]. intros z _. destruct (_ =? _)%Z; [assumption|discriminate]. Qed.
Lemma nd_funs f g : (forall x, x = fformals f \/ x = fbody f \/ x = fenv f -> alive x) -> (forall x, x = fformals g \/ x = fbody g \/ x = fenv g -> alive x) ->
  nd (compare_funs cmp f g).
Proof. intros A B. unfold compare_funs. repeat apply nd_andthen; try apply nd_text_cmp; try discriminate; apply CMP; auto. Qed.
End Compare.
Lemma dref_alive h c r : closed h -> lookup h r = Some c -> forall x, dref (cdata c) x -> lookup h x <> None.
Proof. intros C L x R. apply (C r c x L). apply refers_iff. auto. Qed.
Lemma nd_compare h : closed h -> forall fuel a b, lookup h a <> None -> lookup h b <> None -> nd (vcompare fuel h a b).
Proof.
  intros C. induction fuel as [|f IH]; intros a b A B; cbn [vcompare]; [discriminate|]. destruct (a =? b); [discriminate|].
  destruct (lookup h a) as [ca|] eqn:LA; [|congruence]. destruct (lookup h b) as [cb|] eqn:LB; [|congruence].
  pose proof (dref_alive h ca a C LA) as DA. pose proof (dref_alive h cb b C LB) as DB.
  assert (MA : forall m, (forall x, dref (DMap m) x -> lookup h x <> None) -> map_alive h m).
  { intros m K e I. split; [apply K; exists e; auto|]. intros v J. apply K. exists e. auto. }
  destruct (cdata ca), (cdata cb); try discriminate; try apply nd_text_cmp; try apply nd_semver; try apply nd_int32;
    try (apply nd_andthen; [apply nd_text_cmp|discriminate]); try (apply (nd_sized h); auto; fail).
  - apply (nd_maps h); auto.
  - apply (nd_envs h); auto; intros t k v I; [apply DA|apply DB]; cbn; left; eauto 8.
  - apply (nd_funs h); auto.
  - apply (nd_funs h); auto.
Qed.
Lemma nd_env_find h : closed h -> forall fuel e t, lookup h e <> None -> nd (env_find fuel h e t).
Proof.
  intros C. induction fuel as [|f IH]; intros e t A; cbn [env_find]; [discriminate|]. destruct (lookup h e) as [c|] eqn:L; [|congruence].
  destruct (cdata c) eqn:E; try discriminate. destruct (find_binding t b) as [[k v]|]; [discriminate|]. destruct enclosing as [e'|]; [|discriminate].
  apply IH. eapply (dref_alive h c e); eauto. rewrite E. cbn. auto.
Qed.
Lemma env_find_dref h : forall fuel e t v, env_find fuel h e t = Ret (Some v) -> exists r c, lookup h r = Some c /\ dref (cdata c) v.
Proof.
  induction fuel as [|f IH]; intros e t v; cbn [env_find]; [discriminate|]. destruct (lookup h e) as [c|] eqn:L; [|discriminate].
  destruct (cdata c) eqn:E; try discriminate. destruct (find_binding t b) as [[k x]|] eqn:F.
  - intros [= ->]. apply find_binding_in' in F. exists e, c. split; [exact L|]. rewrite E. cbn. left. eauto 8.
  - destruct enclosing as [e'|]; [|discriminate]. apply IH.
Qed.
Lemma nd_pred {X} (o : outcome X) (p : X -> bool) : nd o -> nd (obind o (fun c => Ret (p c))).
Proof. intros. apply nd_bind; [assumption|discriminate]. Qed.

(** ** What maps hold *)
Definition elem_ref (e : element ref ref) (x : ref) : Prop := x = ekey e \/ In x (evals e).
Lemma dref_map m x : dref (DMap m) x <-> exists e, In e (concat (buckets m)) /\ elem_ref e x.
Proof. reflexivity. Qed.
Definition bucket_ref (b : list (element ref ref)) (x : ref) : Prop := exists e, In e b /\ elem_ref e x.
Lemma bucket_ref_nth i (bs : list (list (element ref ref))) x : bucket_ref (nth i bs []) x -> bucket_ref (concat bs) x.
Proof. intros (e & I & R). apply nth_concat in I. exists e. auto. Qed.
Lemma in_firstn {X} (x : X) n : forall l, In x (firstn n l) -> In x l.
Proof. intros l I. rewrite <- (firstn_skipn n l). apply in_or_app. auto. Qed.
Lemma in_skipn {X} (x : X) n : forall l, In x (skipn n l) -> In x l.
Proof. intros l I. rewrite <- (firstn_skipn n l). apply in_or_app. auto. Qed.
Lemma set_bucket_ref i b (bs : list (list (element ref ref))) x : bucket_ref (concat (set_bucket i b bs)) x -> bucket_ref b x \/ bucket_ref (concat bs) x.
Proof.
  intros (e & I & R). apply in_concat in I as (b' & I & J). unfold set_bucket in I. apply in_app_or in I as [I|[<-|I]].
  - right. exists e. split; [|exact R]. apply in_concat. exists b'. split; [now apply in_firstn in I|exact J].
  - left. exists e. auto.
  - right. exists e. split; [|exact R]. apply in_concat. exists b'. split; [now apply in_skipn in I|exact J].
Qed.
Lemma push_value_ref eqb k v b x : bucket_ref (push_value eqb k v b) x -> x = v \/ bucket_ref b x.
Proof.
  induction b as [|e b IH]; cbn [push_value]; [auto|]. destruct (eqb k (ekey e)).
  - intros (e' & [<-|I] & R); [|right; exists e'; split; [now right|exact R]].
    destruct R as [R|R]; cbn in R; [right; exists e; split; [now left|now left]|].
    apply in_app_or in R as [R|[<-|[]]]; [right; exists e; split; [now left|now right]|auto].
  - intros (e' & [<-|I] & R); [right; exists e; split; [now left|exact R]|].
    destruct IH as [IH|(e2 & I2 & R2)]; [exists e'; auto|auto|right; exists e2; split; [now right|exact R2]].
Qed.
Lemma repeat_nil {X} n : concat (repeat (@nil X) n) = []. Proof. induction n; cbn; auto. Qed.
Lemma rehash_insert_ref m e x : bucket_ref (concat (buckets (rehash_insert m e))) x -> elem_ref e x \/ bucket_ref (concat (buckets m)) x.
Proof.
  unfold rehash_insert. cbn [buckets]. intros R. apply set_bucket_ref in R as [(e' & I & R)|R]; [|auto].
  apply in_app_or in I as [I|[<-|[]]]; [|auto]. right. exists e'. split; [now apply nth_concat in I|exact R].
Qed.
Lemma rehash_fold_ref es : forall m x, bucket_ref (concat (buckets (fold_left rehash_insert es m))) x -> bucket_ref es x \/ bucket_ref (concat (buckets m)) x.
Proof.
  induction es as [|e es IH]; intros m x R; cbn [fold_left] in R; [auto|]. apply IH in R as [(e' & I & R)|R].
  - left. exists e'. split; [now right|exact R].
  - apply rehash_insert_ref in R as [R|R]; [left; exists e; split; [now left|exact R]|auto].
Qed.
Lemma map_put_ref eqb m hk k v m' x : map_put eqb m hk k v = Ret m' -> dref (DMap m') x -> x = k \/ x = v \/ dref (DMap m) x.
Proof.
  unfold map_put. change (dref (DMap m) x) with (bucket_ref (concat (buckets m)) x). change (dref (DMap m') x) with (bucket_ref (concat (buckets m')) x).
  destruct (map_get eqb m hk k) as [e0|].
  - intros [= <-]. cbn [buckets]. intros R. apply set_bucket_ref in R as [R|R]; [|auto]. apply push_value_ref in R as [->|R]; [auto|].
    apply bucket_ref_nth in R. auto.
  - set (m1 := mkMap _ _ _). intros E R.
    assert (R1 : bucket_ref (concat (buckets m1)) x).
    { destruct (Nat.leb _ _); [|injection E as <-; exact R]. unfold map_rehash in E. cbv zeta in E. destruct (Nat.ltb _ _); [|discriminate]. injection E as <-.
      apply rehash_fold_ref in R as [R|R]; [exact R|]. cbn [buckets] in R. rewrite repeat_nil in R. destruct R as (e & [] & _). }
    unfold m1 in R1. cbn [buckets] in R1. apply set_bucket_ref in R1 as [(e & I & R1)|R1]; [|auto].
    apply in_app_or in I as [I|[<-|[]]]; [apply nth_concat in I; right; right; exists e; auto|].
    destruct R1 as [R1|[R1|[]]]; cbn in R1; auto.
Qed.
Lemma nd_map_put eqb (m : hmap ref ref) hk k v : nd (map_put eqb m hk k v).
Proof.
  unfold map_put. destruct (map_get eqb m hk k); [discriminate|]. cbv zeta. destruct (Nat.leb _ _); [|discriminate].
  unfold map_rehash. cbv zeta. destruct (Nat.ltb _ _); discriminate.
Qed.
Lemma remove_elem_ref eqb k b b' x : remove_elem eqb k b = Some b' -> bucket_ref b' x -> bucket_ref b x.
Proof.
  revert b'. induction b as [|e b IH]; intros b' E; cbn [remove_elem] in E; [discriminate|]. destruct (eqb k (ekey e)).
  - injection E as <-. intros (e' & I & R). exists e'. split; [now right|exact R].
  - destruct (remove_elem eqb k b) as [b1|]; [|discriminate]. injection E as <-. intros (e' & [<-|I] & R); [exists e; split; [now left|exact R]|].
    destruct (IH b1 eq_refl) as (e2 & I2 & R2); [exists e'; auto|]. exists e2. split; [now right|exact R2].
Qed.
Lemma map_remove_ref eqb m hk k x : dref (DMap (fst (map_remove eqb m hk k))) x -> dref (DMap m) x.
Proof.
  unfold map_remove. destruct (remove_elem eqb k _) as [b|] eqn:E; cbn [fst]; [|auto].
  change (bucket_ref (concat (set_bucket (bucket_index hk (length (buckets m))) b (buckets m))) x -> bucket_ref (concat (buckets m)) x).
  intros R. apply set_bucket_ref in R as [R|R]; [|auto]. apply (remove_elem_ref _ _ _ _ _ E) in R. now apply bucket_ref_nth in R.
Qed.
Lemma at_index_in {K V} : forall (bs : list (list (element K V))) i c e, at_index_loop bs i c = Some e -> In e (concat bs).
Proof.
  induction bs as [|b bs IH]; intros i c e; cbn [at_index_loop]; [discriminate|]. cbn [concat]. destruct b as [|e0 b]; [intros E; apply IH in E; exact E|].
  destruct (Nat.leb _ _); intros E; apply in_or_app; [left; eapply nth_error_In; eauto|right; eauto].
Qed.
Lemma at_index_back_in {K V} : forall (bs : list (list (element K V))) i c e, at_index_loop_back bs i c = Some e -> In e (concat bs).
Proof.
  induction bs as [|b bs IH]; intros i c e; cbn [at_index_loop_back]; [discriminate|]. cbn [concat]. destruct b as [|e0 b]; [intros E; apply IH in E; exact E|].
  destruct (Nat.leb _ _); intros E; apply in_or_app; [left|right; eauto]. destruct (norm_index _ _); [eapply nth_error_In; eauto|discriminate].
Qed.
Lemma get_at_index_in (m : hmap ref ref) i e : map_get_at_index m i = Some e -> In e (concat (buckets m)).
Proof.
  unfold map_get_at_index. destruct (i <? 0)%Z; [|apply at_index_in]. intros E. apply at_index_back_in in E.
  apply in_concat in E as (b & I & J). apply in_concat. exists b. split; [now apply in_rev|exact J].
Qed.
Lemma map_new_ref x : ~ dref (DMap map_new) x.
Proof. intros (e & I & _). unfold map_new in I. cbn [buckets] in I. rewrite repeat_nil in I. destruct I. Qed.
Lemma rebind_ref t k v b enc x : dref (DEnv (rebind t (k, v) b) enc) x -> x = k \/ x = v \/ dref (DEnv b enc) x.
Proof.
  cbn. intros [(t1 & k1 & v1 & I & R)|R]; [|auto]. unfold rebind in I. apply in_app_or in I as [I|[I|[]]].
  - apply filter_In in I as (I & _). right. right. left. eauto 6.
  - injection I as <- <- <-. destruct R; auto.
Qed.

(** ** Printing *)
Lemma nd_omap {X Y} (f : X -> outcome Y) : forall l, (forall x, In x l -> nd (f x)) -> nd (omap f l).
Proof.
  induction l as [|x l IH]; cbn [omap]; intros H; [discriminate|]. apply nd_bind; [apply H; now left|]. intros y _.
  apply nd_bind; [apply IH; intros z I; apply H; now right|]. discriminate.
Qed.
Lemma nd_g_text f : nd (g_text f).
Proof. destruct f as [s|s| |s m e]; cbn [g_text]; try discriminate. destruct (six_digits m e) as [[n x]|]; discriminate. Qed.
Lemma nd_to_text h rd : closed h -> forall fuel plain r, lookup h r <> None -> nd (to_text rd plain fuel h r).
Proof.
  intros C. induction fuel as [|f IH]; intros plain r A; cbn [to_text]; [discriminate|]. destruct (lookup h r) as [c|] eqn:L; [|congruence].
  pose proof (dref_alive h c r C L) as DA.
  destruct (cdata c) eqn:E; try discriminate; try apply nd_c_string_copy; try (apply nd_bind; [apply nd_c_string_copy|discriminate]).
  - apply nd_bind; [apply nd_g_text|discriminate].
  - apply nd_bind; [|discriminate]. apply nd_omap. intros x I. apply IH, DA. exact I.
  - apply nd_bind; [|discriminate]. apply nd_omap. intros i _. destruct (map_get_at_index m (Z.of_nat i)) as [e|] eqn:G; [|discriminate].
    apply get_at_index_in in G. apply nd_bind; [apply IH, DA; exists e; auto|]. intros k _. apply nd_bind; [apply nd_single|]. intros v V.
    apply nd_bind; [|discriminate]. apply IH, DA. exists e. split; [exact G|]. right. now apply single_in.
  - apply nd_bind; [|discriminate]. apply nd_omap. intros x I. apply IH, DA. exact I.
  - apply nd_bind; [|discriminate]. apply nd_omap. intros x I. apply IH, DA. exact I.
Qed.

