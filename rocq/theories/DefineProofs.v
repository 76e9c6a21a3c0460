(** (define ...) does what SpecDefine.v says. *)
From Coq Require Import NArith ZArith Bool Lia Arith List String.
From Coq Require Import ZifyBool ZifyNat ZifyN.
From Verif Require Import Base Utf8 SpecText Utf8Proofs OString OStringProofs HMap Heap SpecHeap GcProofs VmProofs ValueOps Env Copy Builtins Specials Eval SafeBase SafeRead SafeLib SafeBuiltins SafeSpecials SafeEval SpecTrace SpecSpecial SpecDefine TraceProofs SpecialProofs CopyProofs.
Import ListNotations.
Local Open Scope N_scope.
Local Open Scope list_scope.

(** ** Copies of atoms *)
Lemma atomic_iff d : is_atom_data d = true <-> atomic d.
Proof. destruct d; cbn; split; try easy. Qed.
Lemma copy_atom_new f P s r : Inv P s -> good P s r -> reach s r ->
  wp (copy_atom f r) (fun x s' => At true P s [] (eq x) s' /\ defined s r x s' /\ (x = r \/ nextId s <= x)) s.
Proof.
  intros A GR RS. unfold copy_atom. pose proof (at_start true true P s A) as H. apply wp_bind, t_get. intros d D0.
  destruct (is_atom_data d) eqn:EA.
  2:{ apply wp_ret. split; [eapply at_weaken; [exact H|]; intros x <-; exact GR|]. split; [|now left]. eapply def_same; [exact D0| |reflexivity|exact D0]. intros F. apply atomic_iff in F. congruence. }
  pose proof (proj1 (atomic_iff d) EA) as AT.
  destruct f as [|f]; cbn [copy]; [apply wp_nofuel|]. apply wp_bind, t_get. intros d' D1. rewrite D0 in D1. injection D1 as <-.
  assert (NR : forall x, ~ dref d x) by (intros x R; destruct d; try contradiction; exact R).
  assert (W : wp (x <- alloc d ;; push x ;;; d' <- get r ;;
          match d' with
          | DVec l | DQueue l _ | DList l => iterM (fun y => y' <- copy f y ;; seq_push x y') l
          | DMap m =>
              iterM (fun e : element ref ref =>
                       v <- lift (single e) ;;
                       k' <- copy f (ekey e) ;; push k' ;;;
                       v' <- copy f v ;; push v' ;;;
                       hk <- hash_of k' ;; m' <- map_of x ;; m2 <- vmap_put f m' hk k' v' ;;
                       put x (DMap m2) ;;; pop v' ;;; pop k')
                    (List.concat (buckets m))
          | _ => ret tt
          end ;;;
          c <- get_cell r ;;
          match cdoc c with
          | Some d => d' <- copy f d ;; c <- get_cell x ;; set_docs x (Some d') (cdocvec c)
          | None => ret tt
          end ;;;
          c <- get_cell r ;;
          match cdocvec c with
          | Some d => d' <- copy f d ;; c <- get_cell x ;; set_docs x (cdoc c) (Some d')
          | None => ret tt
          end ;;;
          pop x ;;; ret x) (fun x s' => At true P s [] (eq x) s' /\ defined s r x s' /\ (x = r \/ nextId s <= x)) s).
  2:{ destruct d; try contradiction; exact W. }
  apply wp_bind, (r_alloc true true P s d [] _ _ _ H); [intros x R; now apply NR in R|discriminate|]. clear H. intros x s1 H AL MX.
  assert (NX : ~ In x P) by apply MX. assert (OX : nextId s <= x) by (now apply MX).
  apply wp_bind, (r_push_all true true P s x [] _ _ _ H); [has|]. clear H. intros s2 H E2.
  assert (KR : forall pre G s', At true P s pre G s' -> data_at s' r = Some d) by (intros pre G s' K; unfold data_at in *; rewrite (a_same _ _ _ _ _ _ _ K); auto).
  assert (D2 : data_at s2 x = Some d) by (destruct (al_cell _ _ _ _ _ _ AL) as (ad & L); unfold data_at; rewrite E2, L; reflexivity).
  apply wp_bind, t_get. intros d' D'. rewrite (KR _ _ _ H) in D'. injection D' as <-.
  apply wp_bind. apply (wp_mono true _ (fun _ s' => At true P s [x] (fun _ => False) s' /\ data_at s' x = Some d)).
  { destruct d; try contradiction; apply wp_ret; (split; [eapply at_weaken; [exact H|easy]|exact D2]). }
  clear H E2 D2 AL s1 s2. intros _ s3 (H & D3).
  assert (CP : forall (o : option ref) (K : ref -> cell -> M unit), (forall y s' c, At true P s [x] (eq y) s' -> lookup (all s') x = Some c -> cdata c = d -> wp (K y c) (fun _ s'' => At true P s [x] (fun _ => False) s'' /\ data_at s'' x = Some d) s') ->
     forall s3, At true P s [x] (fun _ => False) s3 -> data_at s3 x = Some d ->
     wp (match o with Some d => d' <- copy f d ;; c <- get_cell x ;; K d' c | None => ret tt end) (fun _ s'' => At true P s [x] (fun _ => False) s'' /\ data_at s'' x = Some d) s3).
  { clear s3 H D3. intros o K KK s3 H D3. destruct o as [y|]; [|apply wp_ret; auto]. apply wp_bind.
    eapply wp_mono; [exact (copy_ok true f P s3 y (a_inv _ _ _ _ _ _ _ H) (or_introl eq_refl))|]. intros y' s4 (A4 & _).
    assert (H4 : At true P s [x] (eq y') s4) by (eapply (at_call true); [exact H|exact A4|auto]).
    apply wp_bind, wp_get_cell; [discriminate|]. intros c L. apply KK; [exact H4|exact L|].
    assert (DX : data_at s4 x = Some d). { unfold data_at in *. rewrite (a_same _ _ _ _ _ _ _ A4); [exact D3|]. right. split; [reflexivity|]. apply re_root. rewrite (a_stack _ _ _ _ _ _ _ H). now left. }
    unfold data_at in DX. rewrite L in DX. now injection DX. }
  assert (SD : forall o dv s' c (G : ref -> Prop), At true P s [x] G s' -> lookup (all s') x = Some c -> cdata c = d -> (forall y, o = Some y -> good P s' y) -> (forall y, dv = Some y -> y < nextId s' /\ ~ In y P) ->
     wp (set_docs x o dv) (fun _ s'' => At true P s [x] (fun _ => False) s'' /\ data_at s'' x = Some d) s').
  { clear s3 H D3. intros o dv s' c G H L E GO GV. apply (r_set_docs true true P s x _ _ [x] _ _ _ H); [has|exact MX|exact GO|exact GV|discriminate|].
    intros s5 H5 D5 _. split; [eapply at_weaken; [exact H5|easy]|]. destruct (D5 c L) as (c' & L' & E'). unfold data_at. rewrite L'. cbn. congruence. }
  apply wp_bind, wp_get_cell; [discriminate|]. intros c3 L3. apply wp_bind. eapply wp_mono; [apply CP; [|exact H|exact D3]|].
  { intros y s' c H' L E. eapply SD; [exact H'|exact L|exact E| |]; [intros z [= <-]; now apply (a_good _ _ _ _ _ _ _ H')|]. intros z V. eapply at_docvec; eauto. }
  clear H D3 L3 c3 s3. intros _ s3 (H & D3). apply wp_bind, wp_get_cell; [discriminate|]. intros c3 L3. apply wp_bind. eapply wp_mono; [apply CP; [|exact H|exact D3]|].
  { intros y s' c H' L E. eapply SD; [exact H'|exact L|exact E| |]; [intros z V; eapply at_doc; eauto|]. intros z [= <-]. destruct (a_good _ _ _ _ _ _ _ H' y eq_refl) as (? & ? & _). auto. }
  clear H D3 L3 c3 s3. intros _ s3 (H & D3). apply wp_bind.
  eapply (at_pop P s x []); [exact H|]. intros s4 H4 E4. apply wp_ret. split.
  - eapply at_eq; [exact H4|]. cbv beta. left. split; [reflexivity|exact NX].
  - split; [|now right]. eapply def_copy; [exact D0|exact AT| |].
    + destruct (lookup (all s) x) as [c|] eqn:L; [|reflexivity]. apply (lookup_lt true P s) in L; [lia|exact A].
    + unfold data_at in *. now rewrite E4.
Qed.
Lemma copy_atom_data f P s r : Inv P s -> good P s r -> In r (stack s) ->
  wp (copy_atom f r) (fun x s' => At true P s [] (eq x) s' /\ defined s r x s') s.
Proof. intros A GR IS. eapply wp_mono; [apply copy_atom_new; [exact A|exact GR|now apply re_root]|]. intros x s' (B & E & _). auto. Qed.

(** ** C strings *)
Lemma before_nul_split t : exists q, (t = before_nul t /\ q = []) \/ t = before_nul t ++ 0 :: q.
Proof.
  induction t as [|c t (q & IH)]; [exists []; auto|]. cbn [before_nul]. destruct (N.eqb_spec c 0) as [->|N]; [exists t; auto|].
  exists q. destruct IH as [(E & ->)|E]; [left; now rewrite <- E|right]. cbn [app]. now rewrite <- E.
Qed.
Lemma before_nul_no t : ~ In 0 (before_nul t).
Proof. induction t as [|c t IH]; cbn; [easy|]. destruct (N.eqb_spec c 0) as [|N]; [easy|]. intros [E|E]; [congruence|auto]. Qed.
Lemma c_string_through t t' : c_string_copy t = Ret t' -> through_c t t'.
Proof.
  intros E F. unfold c_string_copy in E.
  assert (CO : coherent (text_str t)) by now left.
  destruct (get_c_string_scalar (text_str t) CO F) as (s' & G & _). rewrite G in E. cbn [obind snd] in E.
  assert (FB : Forall decodable (before_nul t)).
  { apply Forall_forall. intros c I. apply scalar_decodable; [|intros ->; now apply (before_nul_no t)].
    destruct (before_nul_split t) as (q & [(E1 & _)|E1]); rewrite E1 in F; [|apply Forall_app in F as (F & _)]; exact (proj1 (Forall_forall _ _) F c I). }
  assert (EC : cstr (utf8_text (ucs (text_str t)) ++ [0]) = utf8_text (before_nul t)).
  { cbn [text_str ucs]. destruct (before_nul_split t) as (q & [(E1 & _)|E1]).
    - rewrite E1 at 1. apply cstr_app_nul. now apply utf8_text_nonul.
    - rewrite E1 at 1. rewrite utf8_text_app, utf8_text_cons. change (utf8 0) with [0]. rewrite <- !app_assoc. cbn [app]. apply cstr_app_nul. now apply utf8_text_nonul. }
  rewrite EC in E.
  destruct (decode_loop_spec (List.length (utf8_text (before_nul t))) (utf8_text (before_nul t)) 0 (utf8_text_octets _ FB) (le_n _)) as (l & rest & HP & HD).
  destruct (longest_prefix_unique _ _ _ _ _ HP (longest_prefix_text _ FB)) as (-> & ->). unfold str_from_buffer in E. rewrite HD in E. cbn in E. now injection E.
Qed.

(** ** Documented formals *)
Lemma mentioned_documents name : forall n dv s b s', (List.length dv <= n)%nat -> mentioned name dv s = Ret (b, s') -> s' = s /\ (b = true <-> documents s dv name).
Proof.
  assert (G : forall x s d s1, get x s = Ret (d, s1) -> s1 = s /\ data_at s x = Some d).
  { intros x s d s1. unfold get, get_cell, bind, data_at. destruct (lookup (all s) x); cbn; [|discriminate]. intros [= <- <-]. auto. }
  assert (BI : forall X Y (m : M X) (k : X -> M Y) s y s', bind m k s = Ret (y, s') -> exists x s1, m s = Ret (x, s1) /\ k x s1 = Ret (y, s')).
  { intros X Y m k s y s'. unfold bind. destruct (m s) as [[x s1]| | | | |]; cbn; try discriminate. eauto. }
  assert (S2 : forall x y (l : list ref) i, nth_error (x :: y :: l) (2 * S i) = nth_error l (2 * i) /\ nth_error (x :: y :: l) (2 * S i + 1) = nth_error l (2 * i + 1)).
  { intros. replace (2 * S i)%nat with (S (S (2 * i))) by lia. split; reflexivity. }
  induction n as [|n IH]; intros dv s b s' LE E; (destruct dv as [|x dv]; cbn [mentioned] in E; [injection E as <- <-; split; [reflexivity|]; split; [discriminate|]; intros ([|i] & x & y & u & N & _); [discriminate|destruct (2 * S i)%nat; discriminate]|]); cbn in LE; [lia|].
  apply BI in E as (d & s1 & E1 & E). apply G in E1 as (-> & DX). assert (SY : exists t, d = DSym t) by (destruct d; try discriminate E; eauto). destruct SY as (t & ->). cbv iota in E.
  assert (FIRST : documents s (x :: dv) name -> t = name -> exists y u, nth_error dv 0 = Some y /\ data_at s y = Some (DStr u) /\ (name = asc "..." -> u = asc "varargs")).
  { intros ([|i] & x' & y & u & N1 & N2 & D1 & D2 & K & B) ->; [cbn in N1, N2; eauto|].
    destruct (B 0%nat ltac:(lia)) as (z & t' & N & D & F). cbn in N. injection N as <-. congruence. }
  destruct (text_eqb t name) eqn:ET.
  - apply text_eqb_true in ET as ->. destruct dv as [|y dv].
    + injection E as <- <-. split; [reflexivity|]. split; [discriminate|]. intros F. destruct (FIRST F eq_refl) as (y & u & N & _). discriminate.
    + apply BI in E as (d & s1 & E1 & E). apply G in E1 as (-> & DY).
      assert (W : (forall u, d <> DStr u) -> ret false s = Ret (b, s') -> s' = s /\ (b = true <-> documents s (x :: y :: dv) name)).
      { intros ND [= <- <-]. split; [reflexivity|]. split; [discriminate|]. intros F. destruct (FIRST F eq_refl) as (y' & u & N & D & _). cbn in N. injection N as <-. rewrite DY in D. injection D as ->. now elim (ND u). }
      assert (SU : (exists u, d = DStr u) \/ (forall u, d <> DStr u)) by (destruct d; try (right; discriminate); left; eauto). destruct SU as [(u0 & ->)|SU]; [|apply W; [exact SU|]; destruct d; try exact E; now elim (SU _ eq_refl)]. clear W. cbv iota in E. injection E as <- <-. split; [reflexivity|]. split.
      * intros K. exists 0%nat, x, y, u0. repeat split; auto; [|intros; lia]. intros ->. apply orb_true_iff in K as [K|K]; [apply negb_true_iff in K|now apply text_eqb_true in K].
        exfalso. assert (F : text_eqb (asc "...") dots = true) by (vm_compute; reflexivity). congruence.
      * intros F. destruct (FIRST F eq_refl) as (y' & u & N & D & K). cbn in N. injection N as <-. rewrite DY in D. injection D as <-.
        destruct (text_eqb name dots) eqn:EN; [cbn|reflexivity]. apply text_eqb_true. apply K. apply text_eqb_true in EN as ->. vm_compute. reflexivity.
  - assert (NT : t <> name) by (intros ->; assert (F : text_eqb name name = true) by (now apply text_eqb_true); congruence).
    destruct dv as [|y dv].
    + injection E as <- <-. split; [reflexivity|]. split; [discriminate|]. intros ([|i] & x' & y & u & N1 & N2 & D1 & _).
      * cbn in N1. injection N1 as <-. congruence.
      * replace (2 * S i)%nat with (S (S (2 * i))) in N1 by lia. destruct (2 * i)%nat; discriminate.
    + apply IH in E as (-> & K); [|cbn in LE; lia]. split; [reflexivity|]. rewrite K. split.
      * intros (i & x' & y' & u & N1 & N2 & D1 & D2 & K1 & B). exists (S i), x', y', u. destruct (S2 x y dv i) as (-> & ->). repeat split; auto.
        intros [|j] LJ; [exists x, t; auto|]. destruct (B j) as (z & t' & Z); [lia|]. exists z, t'. now destruct (S2 x y dv j) as (-> & _).
      * intros ([|i] & x' & y' & u & N1 & N2 & D1 & D2 & K1 & B); [cbn in N1; injection N1 as <-; congruence|]. destruct (S2 x y dv i) as (E1 & E2). rewrite E1 in N1. rewrite E2 in N2.
        exists i, x', y', u. repeat split; auto. intros j LJ. destruct (B (S j)) as (z & t' & Z); [lia|]. exists z, t'. now destruct (S2 x y dv j) as (<- & _).
Qed.
Lemma all_mentioned_documented fm dv s b s' : all_mentioned fm dv s = Ret (b, s') -> s' = s /\ all_documented s fm dv b.
Proof.
  assert (BI : forall X Y (m : M X) (k : X -> M Y) s y s', bind m k s = Ret (y, s') -> exists x s1, m s = Ret (x, s1) /\ k x s1 = Ret (y, s')).
  { intros X Y m k s9 y s9'. unfold bind. destruct (m s9) as [[x s1]| | | | |]; cbn; try discriminate. eauto. }
  assert (VO : forall r s1 l s2, vec_of r s1 = Ret (l, s2) -> s2 = s1 /\ data_at s1 r = Some (DVec l)).
  { intros r s1 l s2. unfold vec_of, get, get_cell, bind, data_at. destruct (lookup (all s1) r) as [c|]; cbn; [|discriminate]. destruct (cdata c); try discriminate. intros [= <- <-]. auto. }
  intros E. unfold all_mentioned in E. apply BI in E as (fs & s1 & E1 & E). apply VO in E1 as (-> & D1). apply BI in E as (l & s1 & E1 & E). apply VO in E1 as (-> & D2).
  apply BI in E as (oks & s1 & E1 & E). injection E as <- <-.
  assert (K : s1 = s /\ (forallb id oks = true <-> forall f, In f fs -> exists name, data_at s f = Some (DSym name) /\ documents s l name)).
  { clear D1. revert oks s1 E1. induction fs as [|f fs IH]; intros oks s1 E1; cbn [mapM] in E1.
    - injection E1 as <- <-. split; [reflexivity|]. cbn. split; easy.
    - apply BI in E1 as (b & s2 & E1 & E2). apply BI in E1 as (t & s3 & E3 & E1). unfold formal_name in E3. apply BI in E3 as (d & s4 & E4 & E3).
      assert (G : s4 = s /\ data_at s f = Some d).
      { revert E4. unfold get, get_cell, bind, data_at. destruct (lookup (all s) f); cbn; [|discriminate]. intros [= <- <-]. auto. }
      destruct G as (-> & DF). destruct d; try discriminate E3. injection E3 as <- <-. apply (mentioned_documents _ _ _ _ _ _ (le_n _)) in E1 as (-> & KB).
      apply BI in E2 as (oks' & s2 & E5 & E2). injection E2 as <- <-. destruct (IH _ _ E5) as (-> & KF). split; [reflexivity|]. cbn [forallb]. rewrite andb_true_iff, KF. unfold id. rewrite KB. split.
      + intros (H1 & H2) g [<-|I]; eauto.
      + intros H. split; [|intros g I; apply H; now right]. destruct (H f (or_introl eq_refl)) as (name & DN & DO). rewrite DF in DN. injection DN as ->. exact DO. }
  destruct K as (-> & K). split; [reflexivity|]. exists fs, l. auto.
Qed.

(** ** The forms *)
Section Spec.
Context (ev : evaluator) (EV : ev_ok true ev) (P : list ref) (a env : ref) (s0 : vm) (c0 : cell) (l : list ref).
Context (IN : In a P) (L0 : lookup (all s0) a = Some c0) (E0 : cdata c0 = DVec l) (GE : good P s0 env) (A0 : Inv P s0).
Notation Tr := (TraceProofs.Tr ev P s0).
Implicit Types (pre : list ref) (G : ref -> Prop) (s : vm) (evs : list event).

Definition ends_at pre (evs0 : list event) (R : list event -> ref -> option data -> Prop) (r : ref) (s : vm) : Prop :=
  exists evs od, Tr pre (eq r) (evs0 ++ evs) s /\ R evs r od /\ result_is s r od.
Lemma wp_at_ends pre evs0 evs1 (R : list event -> ref -> option data -> Prop) (m : M ref) s :
  wp m (ends_at pre (evs0 ++ evs1) (fun evs => R (evs1 ++ evs))) s -> wp m (ends_at pre evs0 R) s.
Proof using. clear. intros W. eapply wp_mono; [exact W|]. intros r s' (evs & od & T & H & K). exists (evs1 ++ evs), od. rewrite <- app_assoc in T. auto. Qed.
Lemma wp_at_mono pre evs0 (R R' : list event -> ref -> option data -> Prop) (m : M ref) s : (forall evs r od, R evs r od -> R' evs r od) ->
  wp m (ends_at pre evs0 R) s -> wp m (ends_at pre evs0 R') s.
Proof using. clear. intros W K. eapply wp_mono; [exact K|]. intros r s' (evs & od & T & H & X). exists evs, od. auto. Qed.
Lemma at_ends_now pre evs0 (R : list event -> ref -> option data -> Prop) r od s : Tr pre (eq r) evs0 s -> R [] r od -> result_is s r od -> ends_at pre evs0 R r s.
Proof using. clear. intros T H K. exists [], od. rewrite app_nil_r. auto. Qed.
Lemma tr_put x d pre G evs (Q : unit -> vm -> Prop) s : Tr pre G evs s -> In x pre -> ~ In x P -> (forall y, dref d y -> good P s y) ->
  (forall s', Tr pre G (evs ++ [Put x d s s']) s' -> data_at s' x = Some d -> (forall y, y <> x -> lookup (all s') y = lookup (all s) y) -> Q tt s') -> wp (put x d) Q s.
Proof using.
  clear. intros H IX NX GD K.
  assert (W : wp (put x d) (fun _ s' => At false P s0 pre G s' /\ data_at s' x = Some d /\ (forall y, y <> x -> lookup (all s') y = lookup (all s) y)) s).
  { apply (r_put true false P s0 x d pre G _ s (tr_at _ _ _ _ _ _ _ H)); [has|split; [exact NX|discriminate]|exact GD|discriminate|discriminate|].
    intros s' A (c & L & E) O. split; [exact A|]. split; [|exact O]. unfold data_at. rewrite L. cbn. now rewrite E. }
  apply wp_record in W. eapply wp_mono; [exact W|]. intros [] s' ((A & D & O) & E). apply K; auto. split; [exact A|].
  exact (trace_snoc ev _ _ _ (Put x d s s') (tr_tr _ _ _ _ _ _ _ H) E).
Qed.
(** Endings. *)
Lemma at_error used pre G evs (R : list event -> ref -> option data -> Prop) s : Tr (used ++ pre) G evs s -> (forall r d, is_err d -> R [] r (Some d)) ->
  wp (r <- new_error ;; pops used ;;; ret r) (ends_at pre evs R) s.
Proof using.
  clear. intros H K. apply wp_bind. eapply tr_error; [exact H|]. intros r s1 d H1 D1 ED. apply wp_bind. eapply (tr_pops ev P s0 used pre); [exact H1|]. intros s2 H2 E2.
  apply wp_ret. eapply (at_ends_now pre _ _ _ (Some d)); [eapply tr_eq; [exact H2|now right]|auto|]. apply result_refl. now rewrite (data_same s1).
Qed.
Lemma at_error1 pre G evs (R : list event -> ref -> option data -> Prop) s : Tr (a :: pre) G evs s -> (forall r d, is_err d -> R [] r (Some d)) ->
  wp (r <- new_error ;; pop a ;;; ret r) (ends_at pre evs R) s.
Proof using.
  clear. intros H K. apply wp_bind. eapply tr_error; [exact H|]. intros r s1 d H1 D1 ED. apply wp_bind. eapply (tr_pop ev P s0 a pre); [exact H1|]. intros s2 H2 E2.
  apply wp_ret. eapply (at_ends_now pre _ _ _ (Some d)); [eapply tr_eq; [exact H2|now right]|auto|]. apply result_refl. now rewrite (data_same s1).
Qed.
Lemma at_true used pre G evs (R : list event -> ref -> option data -> Prop) s : Tr (used ++ pre) G evs s -> (forall r, R [] r (Some (DBool true))) ->
  wp (pops used ;;; alloc (DBool true)) (ends_at pre evs R) s.
Proof using.
  clear. intros H K. apply wp_bind. eapply (tr_pops ev P s0 used pre); [exact H|]. intros s2 H2 E2. eapply t_alloc_atom; [exact H2|easy|].
  intros r s3 H3 D3. eapply (at_ends_now pre _ _ _ (Some (DBool true))); [exact H3|apply K|now apply result_refl].
Qed.

(** Binding a variable. *)
Lemma bind_spec fuel used e n v doc G evs s sv : Tr (used ++ [v; n]) G evs s -> all sv = all s -> In doc used -> ~ In doc P -> ~ In v P -> ~ In n P ->
  (forall pre G1 evs1 s1, Tr pre G1 evs1 s1 -> incl used pre -> good P s1 e) ->
  wp (v <- copy_atom fuel v ;; push v ;;; c <- get_cell v ;; set_docs v (Some doc) (cdocvec c) ;;; env_set e n v ;;; pops (v :: used) ;;; alloc (DBool true))
    (ends_at [v; n] evs (fun evs r od => od = Some (DBool true) /\ bind_run sv e n v doc evs)) s.
Proof using.
  clear. intros H ES ID NDc NV NN GEe.
  assert (IV : In v (stack s)). { rewrite (a_stack _ _ _ _ _ _ _ (tr_at _ _ _ _ _ _ _ H)). rewrite !in_app_iff. cbn. auto. }
  assert (GV : good P s v) by (eapply tr_pre; [exact H|rewrite in_app_iff; cbn; auto|exact NV]).
  apply wp_bind. eapply wp_mono; [exact (copy_atom_data fuel P s v (tr_inv _ _ _ _ _ _ _ H) GV IV)|]. intros w s1 (A1 & DF).
  pose proof (t_quiet ev P s0 _ _ _ _ _ _ _ H A1) as H1. cbn [app] in H1.
  assert (NW : ~ In w P) by (apply (tr_good _ _ _ _ _ _ _ w H1 eq_refl)).
  apply wp_bind. eapply t_push; [exact H1|reflexivity|]. intros s2 H2 E2.
  apply wp_bind, wp_get_cell; [discriminate|]. intros c L.
  assert (I2 : forall x, In x (used ++ [v; n]) -> In x (w :: used ++ [v; n])) by (intros; now right).
  apply wp_bind. eapply (tr_doc ev P s0 w doc (cdocvec c)); [exact H2|exact NW| | |].
  { eapply tr_pre; [exact H2|apply I2; rewrite in_app_iff; auto|exact NDc]. }
  { intros x E. eapply (at_docvec true); [exact (tr_at _ _ _ _ _ _ _ H2)|exact L|exact E]. }
  intros s3 H3 D3 O3. apply wp_bind. eapply (tr_bind ev P s0 e n w); [exact H3| | | |].
  { eapply GEe; [exact H3|]. intros x J. apply I2. rewrite in_app_iff. auto. }
  { eapply tr_pre; [exact H3|apply I2; rewrite in_app_iff; cbn; auto|exact NN]. }
  { eapply tr_pre; [exact H3|now left|exact NW]. }
  intros s4 H4. rewrite <- app_assoc in H4. cbn [app] in H4. eapply (wp_at_ends _ evs [_; _]). eapply (at_true (w :: used)); [exact H4|].
  intros r. split; [reflexivity|]. cbn [app]. eapply bind_both with (c := c); [|exact L|reflexivity|].
  2:{ rewrite (data_same s sv), (data_same s1 s2) by congruence. unfold data_at. rewrite (a_same _ _ _ _ _ _ _ A1); auto. right. split; [reflexivity|]. apply re_root. rewrite (a_stack _ _ _ _ _ _ _ (tr_at _ _ _ _ _ _ _ H)). rewrite !in_app_iff. cbn. auto. }
  assert (ED : data_at s1 w = data_at s2 w) by (symmetry; now apply data_same).
  destruct DF as [d F1 F2 F3 F4|d F1 F2 F3 F4]; [eapply def_copy|eapply def_same]; try rewrite ES; try (rewrite (data_same s sv) by exact ES); try rewrite <- ED; eauto.
Qed.

(** Documenting and binding a function. *)
Lemma append_spec doc : ~ In doc P -> forall m dv t pre G evs s, (List.length dv <= m)%nat -> In doc pre -> Tr pre G evs s -> (forall x, In x dv -> G x) -> data_at s doc = Some (DStr t) ->
  wp (append_docs doc dv) (fun _ s' => exists evs' t', Tr pre G (evs ++ evs') s' /\ doc_lines doc t dv evs' t' /\ data_at s' doc = Some (DStr t') /\ (forall x, x <> doc -> lookup (all s') x = lookup (all s) x)) s.
Proof using.
  clear. intros NDc. induction m as [|m IH]; intros dv t pre G evs s LE ID H GD DD; (destruct dv as [|x dv]; cbn [append_docs]; [apply wp_ret; exists [], t; rewrite app_nil_r; split; [exact H|]; split; [constructor|auto]|]); cbn in LE; [lia|].
  apply wp_bind, t_get. intros d DX. destruct d; try apply wp_abort. destruct dv as [|y dv]; [apply wp_abort|].
  apply wp_bind, t_get. intros d DY. apply wp_bind, t_get. intros d' DD'. rewrite DD in DD'. injection DD' as <-.
  destruct d; try apply wp_abort. destruct (N.eqb_spec y doc) as [->|NY]; [apply wp_undef|].
  apply wp_bind, wp_lift; [intros; apply nd_c_string_copy|]. intros t1 T1. apply wp_bind, wp_lift; [intros; apply nd_c_string_copy|]. intros u1 U1. apply c_string_through in T1, U1. apply wp_bind.
  eapply tr_put; [exact H|exact ID|exact NDc|easy|]. intros sa H1 D1 O1. eapply wp_mono; [eapply (IH dv); [cbn in LE; lia|exact ID|exact H1|intros z J; apply GD; right; now right|exact D1]|].
  intros _ sb (evs' & t' & H2 & K & D2 & O2). rewrite <- app_assoc in H2. eexists (_ :: evs'), t'. split; [exact H2|]. split; [|split; [exact D2|]].
  - eapply lines_next; [exact DX|exact DY|exact T1|exact U1|exact K].
  - intros z NZ. rewrite O2 by exact NZ. now apply O1.
Qed.
Lemma finish_spec yes used e n v doc dv G evs s sv : Tr (used ++ [v; n]) G evs s -> all sv = all s -> In dv used -> In doc used -> ~ In doc P -> ~ In dv P -> ~ In v P -> ~ In n P ->
  (forall pre G1 evs1 m1, Tr pre G1 evs1 m1 -> incl used pre -> good P m1 e) ->
  wp (finish_fun yes n v e doc dv used) (ends_at [v; n] evs (fun_run sv yes e n v doc dv)) s.
Proof using.
  clear. intros H ES IDV ID NDc NDV NV NN GEe. unfold finish_fun.
  assert (U : forall x, In x used -> In x (used ++ [v; n])) by (intros; rewrite in_app_iff; auto).
  assert (UV : In v (used ++ [v; n])) by (rewrite in_app_iff; cbn; auto). assert (UN : In n (used ++ [v; n])) by (rewrite in_app_iff; cbn; auto).
  apply wp_bind, t_get. intros d DV.
  assert (W : forall f, formals_of d (fformals f) -> (forall x, x = fformals f \/ x = fbody f \/ x = fenv f -> dref d x) -> (exists g, d = DFun g \/ d = DMac g) ->
    wp (ok <- all_mentioned (fformals f) dv ;;
      if negb ok then pops used ;;; new_error
      else
        s <- get doc ;;
        match s with
        | DStr s => put doc (DStr (s ++ asc "
Arguments are:"))
        | _ => undef
        end ;;;
        l <- vec_of dv ;; append_docs doc l ;;;
        push v ;;; set_docs v (Some doc) (Some dv) ;;;
        kd <- get n ;; sd <- get doc ;; fd <- get v ;;
        match kd, sd with
        | DSym t, DStr s =>
            t' <- lift (c_string_copy t) ;; s' <- lift (c_string_copy s) ;;
            match fd with
            | DFun f => put v (DFun (set_howto f t' s' yes))
            | DMac f => put v (DMac (set_howto f t' s' yes))
            | _ => undef
            end ;;;
            env_set e n v ;;;
            pops (v :: used) ;;; alloc (DBool true)
        | _, _ => undef
        end) (ends_at [v; n] evs (fun_run sv yes e n v doc dv)) s).
  2:{ destruct d; try apply wp_undef; apply W; try reflexivity; try (intros x J; exact J); eauto. }
  intros f FM FR FU. apply wp_bind. unfold SafeBase.wp at 1. destruct (all_mentioned (fformals f) dv s) as [[ok m1]| | | | |] eqn:EM; try exact I; try reflexivity.
  apply all_mentioned_documented in EM as (-> & AD).
  assert (AD' : all_documented sv (fformals f) dv ok).
  { destruct AD as (fs & l0 & D1 & D2 & K). exists fs, l0. rewrite !(data_same s sv) by exact ES. split; [exact D1|]. split; [exact D2|]. rewrite K.
    assert (DOC : forall nm, documents s l0 nm <-> documents sv l0 nm).
    { intros nm. split; intros (i & x & y & u & N1 & N2 & X1 & X2 & X3 & X4); exists i, x, y, u; (rewrite ?(data_same s sv) in * by exact ES); repeat split; auto; intros j LJ; destruct (X4 j LJ) as (z & t0 & Z1 & Z2 & Z3); exists z, t0; rewrite ?(data_same s sv) in * by exact ES; auto. }
    split; intros F g J; destruct (F g J) as (nm & X1 & X2); exists nm; (rewrite (data_same s sv) in * by exact ES); (split; [exact X1|now apply DOC]). }
  destruct ok; cbn [negb].
  2:{ apply wp_bind. eapply (tr_pops ev P s0 used [v; n]); [exact H|]. intros m1 H1 E1. eapply tr_error; [exact H1|]. intros r m2 d' H2 D2 ED.
      eapply (at_ends_now _ _ _ _ (Some d')); [exact H2| |now apply result_refl]. eapply fun_undocumented; [rewrite (data_same s sv) by exact ES; exact DV|exact FM|exact AD'|exact ED]. }
  apply wp_bind, t_get. intros d1 DD.
  assert (TD : (exists t, d1 = DStr t) \/ ~ is_string d1) by (destruct d1; cbn; eauto). destruct TD as [(t & ->)|TD]; [|apply wp_bind; destruct d1; try apply wp_undef; exfalso; apply TD; exact I].
  assert (NEQ : v <> doc) by (intros ->; rewrite DV in DD; injection DD as ->; destruct FU as (? & [F|F]); discriminate).
  assert (NED : dv <> doc). { intros ->. destruct AD as (? & ? & _ & D2 & _). congruence. }
  set (head := t ++ asc "
Arguments are:"). assert (EH : head = t ++ newline ++ asc "Arguments are:") by reflexivity.
  apply wp_bind. eapply tr_put; [exact H|apply U; exact ID|exact NDc|easy|]. intros m1 H1 D1 O1.
  assert (DVs : exists l1, data_at s dv = Some (DVec l1)) by (destruct AD as (? & l1 & _ & D2 & _); eauto). destruct DVs as (l1 & DL).
  apply wp_bind. eapply wp_vec_of; [discriminate|]. intros c1 l2 L2 E2.
  assert (l2 = l1). { unfold data_at in DL. rewrite <- (O1 dv NED), L2 in DL. cbn in DL. rewrite E2 in DL. now injection DL. } subst l2.
  assert (H1' : Tr (used ++ [v; n]) (fun y => In y l1) (evs ++ [Put doc (DStr head) s m1]) m1).
  { eapply tr_weaken; [exact H1|]. intros y J. eapply (at_dref true); [exact (tr_at _ _ _ _ _ _ _ H1)|exact L2|now rewrite E2]. }
  apply wp_bind. eapply wp_mono; [eapply (append_spec doc NDc _ l1 head); [reflexivity|apply U; exact ID|exact H1'|auto|exact D1]|]. clear H1 H1'. intros _ m2 (evs' & t' & H2 & DL' & D2 & O2).
  assert (DV2 : data_at m2 v = Some d) by (unfold data_at in *; rewrite O2, O1 by exact NEQ; exact DV).
  apply wp_bind. eapply tr_push; [exact H2|right; left; exact UV|]. clear H2. intros m3 H3 E3.
  assert (I3 : forall x, In x (used ++ [v; n]) -> In x (v :: used ++ [v; n])) by (intros; now right).
  apply wp_bind. eapply (tr_doc ev P s0 v doc (Some dv)); [exact H3|exact NV|eapply tr_pre; [exact H3|apply I3, U; exact ID|exact NDc]| |].
  { intros x [= <-]. destruct (tr_pre _ _ _ _ _ _ _ dv H3 (I3 _ (U _ IDV)) NDV) as (X1 & X2 & _). auto. }
  intros m4 H4 D4 O4. rewrite (data_same m3 m2) in DV2 by congruence. rewrite (data_same m3 m2) in D2 by congruence.
  assert (DV4 : data_at m4 v = Some d). { unfold data_at in DV2. destruct (lookup (all m3) v) as [cv|] eqn:LV; [|discriminate]. rewrite (D4 cv eq_refl). exact DV2. }
  assert (DD4 : data_at m4 doc = Some (DStr t')) by (unfold data_at in *; now rewrite O4 by congruence).
  apply wp_bind, t_get. intros dn DN4. apply wp_bind, t_get. intros dd X. rewrite DD4 in X. injection X as <-. apply wp_bind, t_get. intros dd X. rewrite DV4 in X. injection X as <-.
  assert (NS : forall nm, dn = DSym nm -> data_at m3 n = Some (DSym nm)).
  { intros nm ->. destruct (N.eq_dec n v) as [->|NE]; [rewrite DV4 in DN4; destruct FU as (? & [F|F]); rewrite F in DN4; discriminate|]. unfold data_at in *. now rewrite <- O4. }
  destruct dn; try apply wp_undef. specialize (NS _ eq_refl).
  assert (NS0 : data_at s n = Some (DSym s1)). { rewrite (data_same m2 m3) in NS by congruence. unfold data_at in *. rewrite O2, O1 in NS; [exact NS| |]; intros ->; congruence. }
  apply wp_bind, wp_lift; [intros; apply nd_c_string_copy|]. intros t1 T1. apply wp_bind, wp_lift; [intros; apply nd_c_string_copy|]. intros u1 U1. apply c_string_through in T1, U1.
  assert (FIN : forall dw, named t1 u1 yes d dw -> (forall x, dref dw x -> dref d x) ->
    wp (put v dw ;;; env_set e n v ;;; pops (v :: used) ;;; alloc (DBool true)) (ends_at [v; n] evs (fun_run sv yes e n v doc dv)) m4).
  { intros dw ND RD. apply wp_bind. eapply tr_put; [exact H4|now left|exact NV| |].
    { intros y R. unfold data_at in DV4. destruct (lookup (all m4) v) as [cv|] eqn:LV; [|discriminate]. injection DV4 as EC. eapply (at_dref true); [exact (tr_at _ _ _ _ _ _ _ H4)|exact LV|rewrite EC; auto]. }
    intros m5 H5 D5 O5. apply wp_bind. eapply (tr_bind ev P s0 e n v); [exact H5| | | |].
    { eapply GEe; [exact H5|]. intros x J. apply I3, U. exact J. }
    { eapply tr_pre; [exact H5|apply I3; exact UN|exact NN]. }
    { eapply tr_pre; [exact H5|now left|exact NV]. }
    intros m6 H6. rewrite <- !app_assoc in H6. cbn [app] in H6.
    eapply (wp_at_ends _ evs (Put doc (DStr head) s m1 :: evs' ++ [Doc v doc (Some dv) m3 m4; Put v dw m4 m5; Bind e n v m5 m6])).
    eapply (at_true (v :: used)); [cbn [app]; rewrite <- ?app_assoc in *; cbn [app] in *; exact H6|]. intros r. rewrite app_nil_r.
    eapply fun_bound; [rewrite (data_same s sv) by exact ES; exact DV|exact FM|exact AD'|rewrite (data_same s sv) by exact ES; exact DD|rewrite (data_same s sv) by exact ES; exact DL|exact DL'|exact DV2|rewrite (data_same s sv) by exact ES; exact NS0|exact NS|exact D2|exact T1|exact U1|exact ND]. }
  unfold bind at 1 in FIN. unfold SafeBase.wp, bind at 1. unfold SafeBase.wp in FIN.
  destruct d; try exact I; (apply FIN; [unfold set_howto; constructor|intros x J; exact J]).
Qed.

Lemma t_kind i x (K : ref -> data -> M ref) pre G evs (Q : ref -> vm -> Prop) s : Tr pre G evs s -> nth_error l i = Some x ->
  (forall r d m1 m2, gives (SpecTrace.Eval x env s (Some r) m1) x env r d -> Tr (r :: pre) (eq r) (evs ++ [SpecTrace.Eval x env s (Some r) m1]) m2 -> all m2 = all m1 -> ~ In r P -> wp (K r d) Q m2) ->
  wp (x <- arg a i ;; o <- ev x env ;; r <- need o ;; push r ;;; d <- get r ;; K r d) Q s.
Proof.
  intros H NX W. assert (GE' : good P s env) by (eapply tr_env; eauto).
  eapply (t_evarg ev EV P a s0 c0 l IN L0 E0); [exact H|exact GE'|]. intros x' r m1 N' H1. rewrite NX in N'. injection N' as <-.
  apply wp_bind. eapply t_push; [exact H1|reflexivity|]. intros m2 H2 E2. apply wp_bind, t_get. intros d D. eapply W; [apply gives_eval; rewrite <- (data_same m1 m2) by exact E2; exact D|exact H2|exact E2|].
  exact (proj1 (proj2 (tr_good _ _ _ _ _ _ _ r H1 eq_refl))) || apply (tr_good _ _ _ _ _ _ _ r H1 eq_refl).
Qed.
Lemma env_always pre0 G0 evs0 m0 used : Tr pre0 G0 evs0 m0 -> forall pre G1 evs1 s1, Tr pre G1 evs1 s1 -> incl used pre -> good P s1 env.
Proof. intros _ pre G1 evs1 s1 H _. eapply tr_env; eauto. Qed.

Section Parts.
Context (n v : ref) (d : data) (sv : vm) (NV : ~ In v P) (NN : ~ In n P).
Lemma var_spec fuel k k1 x dc G evs s : l = [k; k1; x; dc] -> Tr [v; n] G evs s -> all sv = all s ->
  wp (define_var fuel ev n v a env) (ends_at [v; n] evs (rest_run env sv n v d [k1; dc])) s.
Proof.
  intros EL H ES. unfold define_var. apply wp_bind. eapply t_push_a; [exact IN|exact H|]. clear H. intros m1 H E1.
  apply wp_bind. eapply (t_arg ev P a s0 c0 l IN L0 E0); [exact H|]. intros x1 N1 _. assert (x1 = k1) as -> by (rewrite EL in N1; now injection N1).
  apply wp_bind, t_sym_is. intros ok OK. rewrite (data_same s m1), <- (data_same s sv) in OK by assumption.
  destruct ok; cbn [negb].
  2:{ eapply at_error1; [exact H|]. intros r d' ED. apply rest_var, clause_syntax; [|exact ED]. intros F. apply OK in F. discriminate. }
  assert (K1 : is_symbol sv k1 "as") by (now apply OK). clear OK N1.
  eapply (t_kind 3 dc); [exact H|rewrite EL; reflexivity|]. clear H. intros doc dd m2 m3 GV H E3 ND.
  eapply (wp_at_ends _ evs [_]).
  assert (BAD : ~ is_string dd -> wp (r <- new_error ;; pops [doc; a] ;;; ret r)
    (ends_at [v; n] (evs ++ [SpecTrace.Eval dc env m1 (Some doc) m2]) (fun e1 => rest_run env sv n v d [k1; dc] ([SpecTrace.Eval dc env m1 (Some doc) m2] ++ e1))) m3).
  { intros NS. eapply (at_error [doc; a]); [exact H|]. intros r d' ED. apply rest_var. rewrite app_nil_r. apply clause_kind; [exact K1|eapply kinds_wrong; eauto|exact ED]. }
  destruct dd; try (apply BAD; intros F; exact F). clear BAD.
  eapply wp_at_mono; [|eapply (bind_spec fuel [doc; a] env n v doc); [exact H|symmetry; exact E3|now left|exact ND|exact NV|exact NN|eapply env_always; exact H]].
  cbv beta. intros e1 r od (-> & B). apply rest_var. eapply clause_done with (rs := [doc]); [exact K1|eapply kinds_next; [exact GV|exact I|constructor]|].
  split; [reflexivity|exact B].
Qed.
Lemma used_env e : ~ In e P -> forall used, In e used -> forall pre G1 evs1 s1, Tr pre G1 evs1 s1 -> incl used pre -> good P s1 e.
Proof. intros NE used IE pre G1 evs1 s1 H IU. eapply tr_pre; [exact H|now apply IU|exact NE]. Qed.
(** A keyword. *)
Lemma t_word i x str (K : bool -> M ref) pre G evs (Q : ref -> vm -> Prop) s : Tr pre G evs s -> nth_error l i = Some x -> all sv = all s ->
  (forall b, (b = true <-> is_symbol sv x str) -> wp (K b) Q s) -> wp (y <- arg a i ;; ok <- sym_is y str ;; K ok) Q s.
Proof.
  intros H NX ES W. apply wp_bind. eapply (t_arg ev P a s0 c0 l IN L0 E0); [exact H|]. intros y NY _. rewrite NX in NY. injection NY as <-.
  apply wp_bind, t_sym_is. intros b B. rewrite <- (data_same s sv) in B by assumption. now apply W.
Qed.
Lemma t_howto i x (K : bool -> M ref) pre G evs (R : list event -> ref -> option data -> Prop) s : Tr (a :: pre) G evs s -> nth_error l i = Some x -> all sv = all s ->
  (forall ok, howto sv x ok -> wp (K ok) (ends_at pre evs R) s) -> (forall r d', ~ (exists ok, howto sv x ok) -> is_err d' -> R [] r (Some d')) ->
  wp (y <- arg a i ;; yes <- sym_is y "howto-ok" ;; no <- sym_is y "howto-no" ;; if negb (yes || no) then (r <- new_error ;; pop a ;;; ret r) else K yes) (ends_at pre evs R) s.
Proof.
  intros H NX ES W B. apply wp_bind. eapply (t_arg ev P a s0 c0 l IN L0 E0); [exact H|]. intros y NY _. rewrite NX in NY. injection NY as <-.
  apply wp_bind, t_sym_is. intros b1 B1. apply wp_bind, t_sym_is. intros b2 B2. rewrite <- (data_same s sv) in B1, B2 by assumption.
  destruct b1; cbn [negb orb].
  - apply W. unfold howto, is_symbol. now apply B1.
  - destruct b2; cbn [negb].
    + apply W. unfold howto, is_symbol. now apply B2.
    + eapply at_error1; [exact H|]. intros r d' ED. apply B; [|exact ED]. intros (ok & F). destruct ok; unfold howto, is_symbol in F; [apply B1 in F|apply B2 in F]; discriminate.
Qed.
Lemma var_in_spec fuel k k1 x dc k2 ef G evs s : l = [k; k1; x; dc; k2; ef] -> ~ is_function d -> Tr [v; n] G evs s -> all sv = all s ->
  wp (define_var_in fuel ev n v a env) (ends_at [v; n] evs (rest_run env sv n v d [k1; dc; k2; ef])) s.
Proof.
  intros EL NF H ES. unfold define_var_in. apply wp_bind. eapply t_push_a; [exact IN|exact H|]. clear H. intros m1 H E1. assert (ES1 : all sv = all m1) by congruence.
  eapply (t_word 1 k1); [exact H|rewrite EL; reflexivity|exact ES1|]. intros ok1 OK1. destruct ok1; cbn [negb].
  2:{ eapply at_error1; [exact H|]. intros r d' ED. apply rest_var_in, clause_syntax; [exact NF| |exact ED]. intros (F & _). apply OK1 in F. discriminate. }
  eapply (t_word 4 k2); [exact H|rewrite EL; reflexivity|exact ES1|]. intros ok2 OK2. destruct ok2; cbn [negb].
  2:{ eapply at_error1; [exact H|]. intros r d' ED. apply rest_var_in, clause_syntax; [exact NF| |exact ED]. intros (_ & F). apply OK2 in F. discriminate. }
  assert (KS : is_symbol sv k1 "as" /\ is_symbol sv k2 "in") by (split; [now apply OK1|now apply OK2]). clear OK1 OK2.
  eapply (t_kind 3 dc); [exact H|rewrite EL; reflexivity|]. clear H. intros doc dd m2 m3 GV H E3 ND. set (e1 := SpecTrace.Eval dc env m1 (Some doc) m2) in *.
  eapply (wp_at_ends _ evs [e1]).
  assert (BAD : ~ is_string dd -> wp (r <- new_error ;; pops [doc; a] ;;; ret r) (ends_at [v; n] (evs ++ [e1]) (fun evs' => rest_run env sv n v d [k1; dc; k2; ef] ([e1] ++ evs'))) m3).
  { intros NS. eapply (at_error [doc; a]); [exact H|]. intros r d' ED. rewrite app_nil_r. apply rest_var_in; [exact NF|]. apply clause_kind; [exact KS|eapply kinds_wrong; eauto|exact ED]. }
  destruct dd; try (apply BAD; intros F; exact F). clear BAD.
  eapply (t_kind 5 ef); [exact H|rewrite EL; reflexivity|]. clear H. intros e de m4 m5 GV2 H E5 NE. set (e2 := SpecTrace.Eval ef env m3 (Some e) m4) in *.
  eapply (wp_at_ends _ _ [e2]).
  assert (BAD : ~ is_environment de -> wp (r <- new_error ;; pops [e; doc; a] ;;; ret r) (ends_at [v; n] ((evs ++ [e1]) ++ [e2]) (fun evs' => rest_run env sv n v d [k1; dc; k2; ef] ([e1] ++ [e2] ++ evs'))) m5).
  { intros NS. eapply (at_error [e; doc; a]); [exact H|]. intros r d' ED. cbn [app]. apply rest_var_in; [exact NF|]. apply clause_kind; [exact KS|eapply kinds_later; [exact GV|exact I|eapply kinds_wrong; eauto]|exact ED]. }
  destruct de; try (apply BAD; intros F; exact F). clear BAD.
  eapply wp_at_mono; [|eapply (bind_spec fuel [e; doc; a] e n v doc); [exact H|symmetry; exact E5|right; now left|exact ND|exact NV|exact NN|apply used_env; [exact NE|now left]]].
  cbv beta. intros evs' r od (-> & B). apply rest_var_in; [exact NF|]. rewrite app_assoc. eapply clause_done with (rs := [doc; e]); [exact KS|eapply kinds_next; [exact GV|exact I|eapply kinds_next; [exact GV2|exact I|constructor]]|].
  split; [reflexivity|exact B].
Qed.
Lemma fun_spec k k1 x dc dvf h G evs s : l = [k; k1; x; dc; dvf; h] -> is_function d -> Tr [v; n] G evs s -> all sv = all s ->
  wp (define_fun ev n v a env) (ends_at [v; n] evs (rest_run env sv n v d [k1; dc; dvf; h])) s.
Proof.
  intros EL NF H ES. unfold define_fun. apply wp_bind. eapply t_push_a; [exact IN|exact H|]. clear H. intros m1 H E1. assert (ES1 : all sv = all m1) by congruence.
  eapply (t_word 1 k1); [exact H|rewrite EL; reflexivity|exact ES1|]. intros ok1 OK1. destruct ok1; cbn [negb].
  2:{ eapply at_error1; [exact H|]. intros r d' ED. apply rest_fun, clause_syntax; [exact NF| |exact ED]. intros (F & _). apply OK1 in F. discriminate. }
  assert (K1 : is_symbol sv k1 "as") by (now apply OK1). clear OK1.
  eapply (t_howto 5 h); [exact H|rewrite EL; reflexivity|exact ES1| |].
  2:{ intros r d' NH ED. apply rest_fun, clause_syntax; [exact NF| |exact ED]. intros (_ & F). auto. }
  intros yes HW. assert (KS : is_symbol sv k1 "as" /\ exists ok, howto sv h ok) by eauto.
  eapply (t_kind 3 dc); [exact H|rewrite EL; reflexivity|]. clear H. intros doc dd m2 m3 GV H E3 ND. set (e1 := SpecTrace.Eval dc env m1 (Some doc) m2) in *.
  eapply (wp_at_ends _ evs [e1]).
  assert (BAD : ~ is_string dd -> wp (r <- new_error ;; pops [doc; a] ;;; ret r) (ends_at [v; n] (evs ++ [e1]) (fun evs' => rest_run env sv n v d [k1; dc; dvf; h] ([e1] ++ evs'))) m3).
  { intros NS. eapply (at_error [doc; a]); [exact H|]. intros r d' ED. rewrite app_nil_r. apply rest_fun; [exact NF|]. apply clause_kind; [exact KS|eapply kinds_wrong; eauto|exact ED]. }
  destruct dd; try (apply BAD; intros F; exact F). clear BAD.
  eapply (t_kind 4 dvf); [exact H|rewrite EL; reflexivity|]. clear H. intros dv de m4 m5 GV2 H E5 NE. set (e2 := SpecTrace.Eval dvf env m3 (Some dv) m4) in *.
  eapply (wp_at_ends _ _ [e2]).
  assert (BAD : ~ is_vec de -> wp (r <- new_error ;; pops [dv; doc; a] ;;; ret r) (ends_at [v; n] ((evs ++ [e1]) ++ [e2]) (fun evs' => rest_run env sv n v d [k1; dc; dvf; h] ([e1] ++ [e2] ++ evs'))) m5).
  { intros NS. eapply (at_error [dv; doc; a]); [exact H|]. intros r d' ED. cbn [app]. apply rest_fun; [exact NF|]. apply clause_kind; [exact KS|eapply kinds_later; [exact GV|exact I|eapply kinds_wrong; eauto]|exact ED]. }
  destruct de; try (apply BAD; intros F; exact F). clear BAD.
  eapply wp_at_mono; [|eapply (finish_spec yes [dv; doc; a] env n v doc dv _ _ _ m4); [exact H|symmetry; exact E5|now left|right; now left|exact ND|exact NE|exact NV|exact NN|eapply env_always; exact H]].
  cbv beta. intros evs' r od B. apply rest_fun; [exact NF|]. rewrite app_assoc. eapply clause_done with (rs := [doc; dv]); [exact KS|eapply kinds_next; [exact GV|exact I|eapply kinds_next; [exact GV2|exact I|constructor]]|].
  exists yes. split; [exact HW|exact B].
Qed.
Lemma fun_in_spec k k1 x dc dvf k2 ef h G evs s : l = [k; k1; x; dc; dvf; k2; ef; h] -> Tr [v; n] G evs s -> all sv = all s ->
  wp (define_fun_in ev n v a env) (ends_at [v; n] evs (rest_run env sv n v d [k1; dc; dvf; k2; ef; h])) s.
Proof.
  intros EL H ES. unfold define_fun_in. apply wp_bind. eapply t_push_a; [exact IN|exact H|]. clear H. intros m1 H E1. assert (ES1 : all sv = all m1) by congruence.
  eapply (t_word 1 k1); [exact H|rewrite EL; reflexivity|exact ES1|]. intros ok1 OK1. destruct ok1; cbn [negb].
  2:{ eapply at_error1; [exact H|]. intros r d' ED. apply rest_fun_in, clause_syntax; [|exact ED]. intros (F & _). apply OK1 in F. discriminate. }
  assert (K1 : is_symbol sv k1 "as") by (now apply OK1). clear OK1.
  eapply (t_word 5 k2); [exact H|rewrite EL; reflexivity|exact ES1|]. intros ok2 OK2. destruct ok2; cbn [negb].
  2:{ eapply at_error1; [exact H|]. intros r d' ED. apply rest_fun_in, clause_syntax; [|exact ED]. intros (_ & F & _). apply OK2 in F. discriminate. }
  assert (K2 : is_symbol sv k2 "in") by (now apply OK2). clear OK2.
  eapply (t_howto 7 h); [exact H|rewrite EL; reflexivity|exact ES1| |].
  2:{ intros r d' NH ED. apply rest_fun_in, clause_syntax; [|exact ED]. intros (_ & _ & F). auto. }
  intros yes HW. assert (KS : is_symbol sv k1 "as" /\ is_symbol sv k2 "in" /\ exists ok, howto sv h ok) by eauto.
  set (L := [k1; dc; dvf; k2; ef; h]).
  eapply (t_kind 3 dc); [exact H|rewrite EL; reflexivity|]. clear H. intros doc dd m2 m3 GV H E3 ND. set (e1 := SpecTrace.Eval dc env m1 (Some doc) m2) in *.
  eapply (wp_at_ends _ evs [e1]).
  assert (BAD : ~ is_string dd -> wp (r <- new_error ;; pops [doc; a] ;;; ret r) (ends_at [v; n] (evs ++ [e1]) (fun evs' => rest_run env sv n v d L ([e1] ++ evs'))) m3).
  { intros NS. eapply (at_error [doc; a]); [exact H|]. intros r d' ED. rewrite app_nil_r. apply rest_fun_in. apply clause_kind; [exact KS|eapply kinds_wrong; eauto|exact ED]. }
  destruct dd; try (apply BAD; intros F; exact F). clear BAD.
  eapply (t_kind 6 ef); [exact H|rewrite EL; reflexivity|]. clear H. intros e de m4 m5 GV2 H E5 NE. set (e2 := SpecTrace.Eval ef env m3 (Some e) m4) in *.
  eapply (wp_at_ends _ _ [e2]).
  assert (BAD : ~ is_environment de -> wp (r <- new_error ;; pops [e; doc; a] ;;; ret r) (ends_at [v; n] ((evs ++ [e1]) ++ [e2]) (fun evs' => rest_run env sv n v d L ([e1] ++ [e2] ++ evs'))) m5).
  { intros NS. eapply (at_error [e; doc; a]); [exact H|]. intros r d' ED. cbn [app]. apply rest_fun_in. apply clause_kind; [exact KS|eapply kinds_later; [exact GV|exact I|eapply kinds_wrong; eauto]|exact ED]. }
  destruct de; try (apply BAD; intros F; exact F). clear BAD.
  eapply (t_kind 4 dvf); [exact H|rewrite EL; reflexivity|]. clear H. intros dv de m6 m7 GV3 H E7 NDV. set (e3 := SpecTrace.Eval dvf env m5 (Some dv) m6) in *.
  eapply (wp_at_ends _ _ [e3]).
  assert (BAD : ~ is_vec de -> wp (r <- new_error ;; pops [dv; e; doc; a] ;;; ret r) (ends_at [v; n] (((evs ++ [e1]) ++ [e2]) ++ [e3]) (fun evs' => rest_run env sv n v d L ([e1] ++ [e2] ++ [e3] ++ evs'))) m7).
  { intros NS. eapply (at_error [dv; e; doc; a]); [exact H|]. intros r d' ED. cbn [app]. apply rest_fun_in. apply clause_kind; [exact KS|eapply kinds_later; [exact GV|exact I|eapply kinds_later; [exact GV2|exact I|eapply kinds_wrong; eauto]]|exact ED]. }
  destruct de; try (apply BAD; intros F; exact F). clear BAD.
  eapply wp_at_mono; [|eapply (finish_spec yes [dv; e; doc; a] e n v doc dv _ _ _ m6); [exact H|symmetry; exact E7|now left|right; right; now left|exact ND|exact NDV|exact NV|exact NN|apply used_env; [exact NE|right; now left]]].
  cbv beta. intros evs' r od B. apply rest_fun_in. change ([e1] ++ [e2] ++ [e3] ++ evs') with ([e1; e2; e3] ++ evs').
  eapply clause_done with (rs := [doc; e; dv]); [exact KS|eapply kinds_next; [exact GV|exact I|eapply kinds_next; [exact GV2|exact I|eapply kinds_next; [exact GV3|exact I|constructor]]]|].
  exists yes. split; [exact HW|exact B].
Qed.
End Parts.
Lemma define_spec fuel : wp (s_define fuel ev a env) (ends ev P s0 [] (define_run env s0 l)) s0.
Proof.
  unfold s_define. pose proof (tr_start ev P s0 A0) as H. apply wp_bind. eapply (t_nargs ev P a s0 c0 l IN L0 E0); [exact H|].
  destruct (_ || _)%bool eqn:EB; cbn [negb].
  2:{ eapply t_error; [exact H|reflexivity|]. intros r d ED. apply define_bad_arity; [|exact ED]. rewrite !orb_false_iff, !Nat.eqb_neq in EB. unfold define_arity. lia. }
  assert (AR : define_arity (List.length l)) by (rewrite !orb_true_iff, !Nat.eqb_eq in EB; unfold define_arity; lia).
  assert (SPLIT : exists k k1 x l', l = k :: k1 :: x :: l') by (destruct l as [|k [|k1 [|x l']]]; cbn in AR; unfold define_arity in AR; try lia; eauto).
  destruct SPLIT as (k & k1 & x & l' & EL).
  apply wp_bind. eapply (t_arg ev P a s0 c0 l IN L0 E0); [exact H|]. intros k0 N0 GK. assert (k0 = k) as -> by (rewrite EL in N0; now injection N0). clear N0.
  apply wp_bind, t_get. intros dk DK. apply wp_bind.
  (* the name *)
  apply (wp_mono true _ (fun o s => exists evs, match o with
      | inr r => exists d, Tr [] (eq r) evs s /\ name_fails env s0 k evs r d /\ data_at s r = Some d
      | inl n => Tr [] (eq n) evs s /\ forall d, data_at s n = Some d -> (forall t, d = DSym t -> name_run env s0 k evs n) /\ (~ is_sym d -> forall r d', is_err d' -> name_fails env s0 k evs r d')
      end)).
  { assert (W : ~ is_vec dk -> wp (ret (@inl ref ref k)) (fun o s => exists evs, match o with
      | inr r => exists d, Tr [] (eq r) evs s /\ name_fails env s0 k evs r d /\ data_at s r = Some d
      | inl n => Tr [] (eq n) evs s /\ forall d, data_at s n = Some d -> (forall t, d = DSym t -> name_run env s0 k evs n) /\ (~ is_sym d -> forall r d', is_err d' -> name_fails env s0 k evs r d')
      end) s0).
    { intros NVc. apply wp_ret. exists []. split; [eapply tr_weaken; [exact H|]; intros y <-; exact GK|]. rewrite DK. intros d [= <-]. split.
      - intros t ->. eapply name_symbol. exact DK.
      - intros NSy r d' ED. eapply name_not_form; eauto. }
    destruct dk; try (apply W; intros F; exact F). clear W.
    apply wp_bind. eapply (t_ev ev EV P s0); [exact H|exact GK|eapply tr_env; [exact GE|exact H]|]. intros o s1 H1. apply wp_bind, wp_need. intros r ->. apply wp_bind, t_is_error. intros d b D1 EE.
    assert (GV : gives (SpecTrace.Eval k env s0 (Some r) s1) k env r d) by (now apply gives_eval).
    apply wp_ret. eexists. destruct b.
    - exists d. split; [eapply tr_eq; [exact H1|reflexivity]|]. split; [|exact D1]. eapply name_error; [exact DK|exact GV|now apply EE].
    - split; [eapply tr_eq; [exact H1|reflexivity]|]. rewrite D1. intros d0 [= <-]. split.
      + intros t ->. eapply name_form; eauto.
      + intros NSy r' d' ED. eapply name_not_symbol; eauto. intros F. apply EE in F. discriminate. }
  clear H. intros [n|r] s1 (evs & K).
  2:{ destruct K as (d & T & NF & D). apply wp_ret. exists evs, (Some d). split; [exact T|]. split; [|now apply result_refl]. eapply define_bad_name; eauto. }
  destruct K as (T & K). apply wp_bind, t_get. intros dn DN. destruct (K _ DN) as (K1 & K2). clear K.
  assert (SY : (exists t, dn = DSym t) \/ ~ is_sym dn) by (destruct dn; cbn; eauto). destruct SY as [(t & ->)|NS].
  2:{ assert (W : wp new_error (ends ev P s0 [] (define_run env s0 l)) s1).
      { apply (wp_ends ev P s0 [] evs). eapply t_error; [exact T|reflexivity|]. intros r d ED. rewrite app_nil_r. eapply define_bad_name; eauto. }
      destruct dn; try exact W. exfalso. apply NS. exact I. }
  specialize (K1 t eq_refl). clear K2.
  assert (NN : ~ In n P) by apply (tr_good _ _ _ _ _ _ _ n T eq_refl).
  apply wp_bind. eapply t_push; [exact T|reflexivity|]. clear T. intros s2 H E2.
  eapply (t_evarg ev EV P a s0 c0 l IN L0 E0); [exact H|eapply tr_env; [exact GE|exact H]|]. clear H. intros x' v s3 NX H. assert (x' = x) as -> by (rewrite EL in NX; now injection NX). clear NX.
  assert (NV : ~ In v P) by apply (tr_good _ _ _ _ _ _ _ v H eq_refl).
  apply wp_bind, t_is_error. intros d b D3 EE. assert (GV : gives (SpecTrace.Eval x env s2 (Some v) s3) x env v d) by (now apply gives_eval). set (e1 := SpecTrace.Eval x env s2 (Some v) s3) in *.
  destruct b.
  { apply wp_bind. eapply (tr_pop ev P s0 n []); [exact H|]. intros s4 H4 E4. apply wp_ret. exists (evs ++ [e1]), (Some d). split; [eapply tr_eq; [exact H4|now right]|].
    split; [|apply result_refl; now rewrite (data_same s3)]. eapply define_bad_value; eauto. now apply EE. }
  assert (NE : ~ is_err d) by (intros F; apply EE in F; discriminate).
  apply wp_bind. eapply t_push; [exact H|reflexivity|]. clear H. intros s4 H E4. apply wp_bind, t_get. intros d' D4. assert (d' = d) as -> by (rewrite (data_same s3 s4), D3 in D4 by exact E4; now injection D4).
  apply wp_bind. eapply (wp_mono true _ (ends_at [v; n] (evs ++ [e1]) (rest_run env s3 n v d (k1 :: l')))).
  { assert (ES : all s3 = all s4) by congruence. destruct (Nat.eqb_spec (List.length l) 4) as [E|NE4].
    { rewrite EL in E. destruct l' as [|dc [|? ?]]; try discriminate. eapply var_spec; eauto. }
    destruct (Nat.eqb_spec (List.length l) 6) as [E|NE6].
    { rewrite EL in E. destruct l' as [|dc [|y2 [|y3 [|? ?]]]]; try discriminate.
      assert (V : ~ is_function d -> wp (define_var_in fuel ev n v a env) (ends_at [v; n] (evs ++ [e1]) (rest_run env s3 n v d [k1; dc; y2; y3])) s4) by (intros; eapply var_in_spec; eauto).
      destruct d; try (apply V; intros F; exact F); eapply fun_spec; eauto; exact I. }
    destruct AR as [E|[E|E]]; try lia. rewrite EL in E. destruct l' as [|y1 [|y2 [|y3 [|y4 [|y5 [|? ?]]]]]]; try discriminate. eapply fun_in_spec; eauto. }
  clear H. intros r s5 (evs2 & od & H & RR & RI). apply wp_bind. eapply (tr_pops ev P s0 [v; n] []); [exact H|]. intros s6 H6 E6. apply wp_ret.
  exists (evs ++ e1 :: evs2), od. split; [|split].
  - cbn [app]. rewrite <- app_assoc in H6. eapply tr_eq; [exact H6|now right].
  - eapply define_value; eauto.
  - eapply result_same; [|exact RI]. congruence.
Qed.
End Spec.
