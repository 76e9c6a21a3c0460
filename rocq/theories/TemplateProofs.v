(** template does what SpecTemplate.v says. *)
From Coq Require Import NArith ZArith Bool Lia Arith List String.
From Coq Require Import ZifyBool ZifyNat ZifyN.
From Verif Require Import Base OString HMap Heap SpecHeap GcProofs VmProofs ValueOps Env Copy Builtins Specials Eval SafeBase SafeRead SafeLib SafeBuiltins SafeSpecials SafeEval EnvProofs SpecTrace SpecSpecial SpecForm SpecDefine SpecTemplate TraceProofs SpecialProofs SpecialEval SpecialForms DefineProofs PrivateProofs GenerateProofs.
Import ListNotations.
Local Open Scope N_scope.

(** ** The relations *)
Lemma at_end_app sv a b : at_end sv (a ++ b) = at_end (at_end sv a) b.
Proof.
  unfold at_end. rewrite rev_app_distr. destruct (rev b) as [|e t] eqn:E; [reflexivity|]. reflexivity.
Qed.
Lemma at_end_snoc sv a e : at_end sv (a ++ [e]) = after e.
Proof. rewrite at_end_app. reflexivity. Qed.
Lemma adds_same p s1 s2 xs evs : all s2 = all s1 -> adds p s1 xs evs -> adds p s2 xs evs.
Proof. intros E H. destruct H; [constructor|constructor|]. econstructor; eauto. congruence. Qed.
Lemma at_end_any s1 s2 evs : evs <> [] -> at_end s1 evs = at_end s2 evs.
Proof. intros N. destruct (exists_last N) as (t & e & ->). now rewrite !at_end_snoc. Qed.
Lemma adds_events p s1 x xs evs : adds (Some p) s1 (x :: xs) evs -> evs <> [].
Proof. intros H. inversion H; discriminate. Qed.
Lemma piece_later env res src s i j evs s1 xs : piece env res src s i j evs s1 xs -> (i < j)%nat.
Proof. intros H. destruct H; lia. Qed.

Lemma wp_unbind {X Y} (m : M X) (k : X -> M Y) (Q : Y -> vm -> Prop) s : SafeBase.wp true (bind m k) Q s -> SafeBase.wp true m (fun x s' => SafeBase.wp true (k x) Q s') s.
Proof. unfold SafeBase.wp, bind. destruct (m s) as [[x s']| | | | |]; auto. Qed.
Section Spec.
Context (ev : evaluator) (EV : ev_ok true ev) (P : list ref) (a env : ref) (s0 : vm) (c0 : cell) (l : list ref).
Context (IN : In a P) (L0 : lookup (all s0) a = Some c0) (E0 : cdata c0 = DVec l) (GE : good P s0 env) (A0 : Inv P s0).
Notation Tr := (Tr ev P s0).
Notation Pt := (Pt ev P s0).
Notation ends := (ends ev P s0).
Implicit Types (pre H : list ref) (G : ref -> Prop) (s : vm) (evs : list event) (src : source).

Lemma pt_put_event H h d pre G evs (Q : unit -> vm -> Prop) s : Pt H pre G evs s -> In h H -> (forall y, dref d y -> good (H ++ P) s y) ->
  (forall s', Pt H pre G (evs ++ [Put h d s s']) s' -> data_at s' h = Some d -> (forall y, y <> h -> lookup (all s') y = lookup (all s) y) -> nextId s' = nextId s -> Q tt s') -> wp (put h d) Q s.
Proof.
  intros T IH GD K.
  pose proof (pt_put ev P s0 H h d pre G evs (fun _ s' => Pt H pre G evs s' /\ data_at s' h = Some d /\ (forall y, y <> h -> lookup (all s') y = lookup (all s) y) /\ nextId s' = nextId s) s T IH GD (fun s' a1 a2 a3 a4 => conj a1 (conj a2 (conj a3 a4)))) as W.
  apply wp_record in W. eapply wp_mono; [exact W|]. intros [] s' ((T1 & D1 & O1 & N1) & E). apply K; auto.
  destruct T1 as [B1 B2 B3 B4 B5]. constructor; auto. split; [exact (tr_at _ _ _ _ _ _ _ B1)|].
  exact (trace_snoc ev _ _ _ (Put h d s s') (tr_tr _ _ _ _ _ _ _ (p_tr _ _ _ _ _ _ _ _ T)) E).
Qed.
Lemma push_event H r x cur pre G evs (Q : unit -> vm -> Prop) s : Pt H pre G evs s -> In r H -> data_at s r = Some (DVec cur) -> good (H ++ P) s x ->
  (forall s', Pt H pre G (evs ++ [Put r (DVec (cur ++ [x])) s s']) s' -> data_at s' r = Some (DVec (cur ++ [x])) -> (forall y, y <> r -> lookup (all s') y = lookup (all s) y) -> nextId s' = nextId s -> Q tt s') -> wp (vec_push r x) Q s.
Proof.
  intros T IH DH GX K. unfold vec_push. apply wp_bind, t_get. intros d D. rewrite DH in D. injection D as <-.
  eapply pt_put_event; [exact T|exact IH| |exact K]. intros y [J|[<-|[]]]%in_app_or; [|exact GX]. unfold data_at in DH. destruct (lookup (all s) r) as [c|] eqn:L; [|discriminate]. cbn in DH. injection DH as DH.
  eapply good_dref; [apply T|exact L|now rewrite DH].
Qed.
(** The result so far and what became of it. *)
Definition holding H s (res : option ref) cur : Prop := match res with Some r => In r H /\ data_at s r = Some (DVec cur) | None => True end.
Definition now_holds H s s' (G : ref -> Prop) (res o : option ref) (cur xs : list ref) : Prop :=
  (forall h, In h H -> res <> Some h -> lookup (all s') h = lookup (all s) h) /\
  match res with
  | Some r => o = Some r /\ data_at s' r = Some (DVec (cur ++ xs))
  | None => exists x, xs = [x] /\ o = Some x /\ G x
  end.
Definition pair_of (res : option ref) (cur : list ref) : option (ref * list ref) := option_map (fun r => (r, cur)) res.
Lemma insert_spec H res x cur pre G evs (Q : option ref -> vm -> Prop) s : Pt H pre G evs s -> holding H s res cur -> good (H ++ P) s x -> G x ->
  (forall o evs2 s', Pt H pre G (evs ++ evs2) s' -> adds (pair_of res cur) s [x] evs2 -> now_holds H s s' G res o cur [x] -> all s' = all (at_end s evs2) -> Q o s') -> wp (insert res x) Q s.
Proof.
  intros T HR GX IG K. destruct res as [r|]; cbn [insert].
  - destruct HR as (IR & DR). apply wp_bind. eapply push_event; [exact T|exact IR|exact DR|exact GX|]. intros s' T' D' O' _. apply wp_ret. eapply K; [exact T'| | |reflexivity].
    + econstructor; [reflexivity|exact DR|exact D'|exact O'|constructor].
    + split; [intros h J N; apply O'; congruence|auto].
  - apply wp_ret. apply (K _ []); [now rewrite app_nil_r|constructor| |reflexivity]. split; [reflexivity|eauto].
Qed.
Lemma splice_all H r pre G (Q : unit -> vm -> Prop) : In r H -> forall ws cur evs s, Pt H pre G evs s -> data_at s r = Some (DVec cur) -> (forall x, In x ws -> good (H ++ P) s x) ->
  (forall evs2 s', Pt H pre G (evs ++ evs2) s' -> adds (Some (r, cur)) s ws evs2 -> data_at s' r = Some (DVec (cur ++ ws)) -> (forall h, h <> r -> lookup (all s') h = lookup (all s) h) -> all s' = all (at_end s evs2) -> Q tt s') ->
  wp (iterM (vec_push r) ws) Q s.
Proof.
  intros IR ws. induction ws as [|w ws IH]; intros cur evs s T D GW K; cbn [iterM].
  - apply wp_ret. apply (K []); [now rewrite app_nil_r|constructor|now rewrite app_nil_r|reflexivity|reflexivity].
  - apply wp_bind. eapply push_event; [exact T|exact IR|exact D|apply GW; now left|]. intros s1 T1 D1 O1 N1. eapply IH; [exact T1|exact D1| |].
    + intros x J. destruct (GW x (or_intror J)) as (X1 & X2 & X3). repeat split; [now rewrite N1|exact X2|discriminate].
    + intros evs2 s2 T2 AD D2 O2 E2. rewrite <- app_assoc in T2. rewrite <- app_assoc in D2. eapply K; [exact T2| |exact D2| |].
      * cbn [app]. econstructor; [reflexivity|exact D|exact D1|exact O1|exact AD].
      * intros h N. rewrite O2 by exact N. now apply O1.
      * rewrite at_end_app. exact E2.
Qed.
Lemma pt_missing H pre G evs (Q : ref -> vm -> Prop) s : Pt H pre G evs s ->
  (forall r s' d, Pt H pre (eq r) evs s' -> data_at s' r = Some d -> is_err d -> data_at s r = None -> (forall h, In h H -> lookup (all s') h = lookup (all s) h) -> Q r s') -> wp new_error Q s.
Proof.
  intros T K. pose proof (p_inv _ _ _ _ _ _ _ _ T) as A. unfold new_error.
  assert (W : wp (maybe_gc ;;; (fun s => fresh (DErr (msgs s (nextAddr s)) 0) s)) (fun r s' => At true (H ++ P) s [] (eq r) s' /\ (exists d, data_at s' r = Some d /\ is_err d) /\ nextId s <= r) s).
  { apply (r_alloc_gen true true (H ++ P) s (fun s => DErr (msgs s (nextAddr s)) 0) [] (fun _ => False)); [now apply at_start|easy|discriminate|].
    intros r s' s1 H' AL M. split; [exact H'|]. split; [|now apply M]. destruct (al_cell _ _ _ _ _ _ AL) as (addr & L). unfold data_at. rewrite L. eexists. split; [reflexivity|exact I]. }
  eapply wp_mono; [exact W|]. intros r s' (A' & (d & E & R) & NX). eapply K; [|exact E|exact R|eapply data_none; eauto|].
  - exact (pt_quiet ev P s0 H pre G evs s [] _ _ T A').
  - intros h J. apply (a_same _ _ _ _ _ _ _ A'). left. apply in_or_app. auto.
Qed.

(** ** Reading the template *)
Definition SRC (v : ref) src : Prop := (v = a /\ src = given l) \/ src = contents v.
Lemma src_vec v src H pre G evs (Q : list ref -> vm -> Prop) s sv : SRC v src -> Pt H pre G evs s -> all s = all sv ->
  (forall l', src sv = Some l' -> (forall x, In x l' -> good (H ++ P) s x) -> Q l' s) -> wp (vec_of v) Q s.
Proof.
  intros S T E K. destruct S as [(-> & ->)| ->].
  - destruct (tr_vec ev P s0 a l c0 _ _ _ _ (p_tr _ _ _ _ _ _ _ _ T) IN L0 E0) as (L & _). apply wp_vec_of; [discriminate|]. intros c l' L' E'.
    rewrite L in L'. injection L' as <-. rewrite E0 in E'. injection E' as <-. apply K; [reflexivity|]. intros x J.
    pose proof (tr_start ev P s0 A0) as H0. destruct (tr_vec ev P s0 a l c0 _ _ _ _ H0 IN L0 E0) as (_ & GL). destruct (GL x J) as (X1 & X2 & _). eapply pt_old; eauto.
  - apply wp_vec_of; [discriminate|]. intros c l' L' E'. apply K.
    + unfold contents, data_at. rewrite <- E, L'. cbn. now rewrite E'.
    + intros x J. eapply good_dref; [apply T|exact L'|now rewrite E'].
Qed.

(** One element. *)
Definition item_done H s sv (res : option ref) cur src i pre evs (Q : option ref * nat -> vm -> Prop) : Prop :=
  forall j evs1 s1 xs evs2 o G s', Pt H pre G (evs ++ evs1 ++ evs2) s' -> piece env res src sv i j evs1 s1 xs -> adds (pair_of res cur) s1 xs evs2 ->
    now_holds H s s' G res o cur xs -> (res <> None -> all s' = all (at_end sv (evs1 ++ evs2))) -> (res = None -> all s' = all s1) -> Q (o, j) s'.
Definition item_ok (f : nat) : Prop := forall v src i res H cur pre G evs s sv (Q : option ref * nat -> vm -> Prop), SRC v src -> all s = all sv -> Pt H pre G evs s -> incl H pre -> holding H s res cur ->
  (res = None -> exists l', src sv = Some l' /\ (List.length l' <= 1)%nat) -> item_done H s sv res cur src i pre evs Q -> wp (template_item f ev env v i res) Q s.
(** All elements from one on. *)
Lemma loop_spec f : item_ok f -> forall k v src n r i H cur pre G evs s sv (Q : option ref -> vm -> Prop), SRC v src -> all s = all sv -> Pt H pre G evs s -> incl H pre -> In r H -> data_at s r = Some (DVec cur) ->
  (forall evs1 out s', Pt H pre (fun _ => False) (evs ++ evs1) s' -> fill env src r sv i n cur evs1 out -> data_at s' r = Some (DVec out) ->
     (forall h, In h H -> h <> r -> lookup (all s') h = lookup (all s) h) -> all s' = all (at_end sv evs1) -> Q (Some r) s') ->
  wp (template_loop k (template_item f ev env v) n i (Some r)) Q s.
Proof.
  intros IT k. induction k as [|k IH]; intros v src n r i H cur pre G evs s sv Q S E T IP IR D K; cbn [template_loop]; [apply wp_nofuel|].
  apply wp_bind. eapply (IT v src i (Some r) H cur); [exact S|exact E|exact T|exact IP|split; assumption|discriminate|].
  intros j evs1 s1 xs evs2 o G' s' T' PC AD (OT & Eo & D') EA _. subst o. specialize (EA ltac:(discriminate)). cbn [fst snd].
  assert (OT' : forall h, In h H -> h <> r -> lookup (all s') h = lookup (all s) h) by (intros h J N; apply OT; congruence).
  destruct (Nat.leb_spec n j) as [LE|LT].
  - apply wp_ret. eapply (K (evs1 ++ evs2)); [eapply pt_weaken; [exact T'|easy]|econstructor; eauto|exact D'|exact OT'|exact EA].
  - eapply (IH v src n r j H (cur ++ xs)); [exact S|exact EA|exact T'|exact IP|exact IR|exact D'|]. intros evs3 out s2 T2 F2 D2 O2 E2.
    rewrite <- !app_assoc in T2. eapply (K (evs1 ++ evs2 ++ evs3)); [exact T2|eapply fill_next; eauto|exact D2| |].
    + intros h J N. rewrite O2 by assumption. now apply OT'.
    + rewrite app_assoc, at_end_app. exact E2.
Qed.
(** A value becomes part of the result and what was pushed is popped. *)
Definition clears H pre used (m : M unit) : Prop := forall G evs s (Q : unit -> vm -> Prop), Pt H (used ++ pre) G evs s ->
  (forall s', Pt H pre G evs s' -> all s' = all s -> Q tt s') -> wp m Q s.
Lemma clears1 H pre r : incl H pre -> clears H pre [r] (pop r).
Proof. intros IP G evs s Q T K. eapply pt_pop; [exact T|exact IP|]. intros s' T' E'. apply K; [|exact E']. eapply pt_weaken; [exact T'|]. intros x J. apply (p_good _ _ _ _ _ _ _ _ T'). now right. Qed.
Lemma clears2 H pre r r2 : incl H pre -> clears H pre [r; r2] (pops [r; r2]).
Proof.
  intros IP G evs s Q T K. unfold pops. cbn [iterM]. apply wp_bind. eapply (clears1 H (r2 :: pre) r); [intros x J; right; now apply IP|exact T|]. intros s1 T1 E1.
  apply wp_bind. eapply (clears1 H pre r2); [exact IP|exact T1|]. intros s2 T2 E2. apply wp_ret. apply K; [exact T2|congruence].
Qed.
Lemma holding_same H s s' res cur : holding H s res cur -> (forall h, In h H -> lookup (all s') h = lookup (all s) h) -> holding H s' res cur.
Proof. destruct res as [r|]; [|easy]. intros (J & D) K. split; [exact J|]. unfold data_at in *. now rewrite K. Qed.
Lemma insert_clear H res cur pre used m G evs evs1 x s sv j src i s1 s2 (Q : option ref * nat -> vm -> Prop) : clears H pre used m ->
  Pt H (used ++ pre) G (evs ++ evs1) s2 -> holding H s2 res cur -> G x -> piece env res src sv i j evs1 s1 [x] -> all s2 = all s1 ->
  (forall h, In h H -> res <> Some h -> lookup (all s2) h = lookup (all s) h) -> item_done H s sv res cur src i pre evs Q ->
  wp (r <- insert res x ;; m ;;; ret (r, j)) Q s2.
Proof.
  intros CL T HR GX PC E OT K. apply wp_bind. eapply insert_spec; [exact T|exact HR|now apply (p_good _ _ _ _ _ _ _ _ T)|exact GX|]. intros o evs2 s3 T3 AD (O3 & NH) E3.
  apply wp_bind. eapply CL; [exact T3|]. intros s4 T4 E4. apply wp_ret. rewrite <- app_assoc in T4.
  eapply (K j evs1 s1 [x] evs2 o G s4); [exact T4|exact PC|eapply adds_same; [|exact AD]; congruence| | |].
  - split; [intros h J N; rewrite E4, O3 by assumption; now apply OT|]. destruct res as [r|]; [|exact NH]. destruct NH as (N1 & N2). split; [exact N1|]. unfold data_at in *. now rewrite E4.
  - intros NN. destruct res as [r|]; [|now elim NN]. rewrite at_end_app, (at_end_any _ s2), E4 by (eapply adds_events; exact AD). exact E3.
  - intros ->. inversion AD; subst. rewrite E4, E3. exact E.
Qed.
Lemma first_is text c : text_eqb (firstn 1 text) [c] = true -> exists t, text = c :: t.
Proof. rewrite text_eqb_true. destruct text as [|x t]; cbn; [discriminate|]. intros [= ->]. eauto. Qed.
Lemma item_spec : forall f, item_ok f.
Proof.
  intros f. induction f as [|f IHf]; intros v src i res H cur pre G evs s sv Q S E T IP HR ONE K; cbn [template_item]; [apply wp_nofuel|].
  assert (ENV : good (H ++ P) s env) by (eapply p_env; eauto).
  unfold nargs. apply wp_bind, wp_bind. eapply src_vec; [exact S|exact T|exact E|]. intros lv SV GV. apply wp_ret.
  unfold arg at 1. apply wp_bind, wp_bind. eapply src_vec; [exact S|exact T|exact E|]. intros lv' SV' _. rewrite SV in SV'. injection SV' as <-. apply wp_need. intros x NX.
  assert (GX : good (H ++ P) s x) by (apply GV; eapply nth_error_In; eauto).
  assert (EL : element src sv i x) by (exists lv; auto).
  assert (LEN : res = None -> i = O /\ List.length lv = 1%nat).
  { intros RN. destruct (ONE RN) as (l' & SL & LL). rewrite SV in SL. injection SL as <-. assert ((i < List.length lv)%nat) by (apply nth_error_Some; congruence). lia. }
  apply wp_bind, t_get. intros d DX. assert (DX' : data_at sv x = Some d) by (unfold data_at in *; now rewrite <- E).
  assert (OTHER : (forall t, d <> DSym (44 :: t)) -> (forall l, d <> DVec l) -> wp (r <- insert res x ;; ret (r, Datatypes.S i)) Q s).
  { intros N1 N2. apply wp_bind. eapply insert_spec; [eapply (pt_weaken ev P s0 H pre G (eq x)); [exact T|now intros y <-]|exact HR|exact GX|reflexivity|]. intros o evs2 s' T' AD NH EA. apply wp_ret.
    apply (K _ [] s [x] evs2 o _ s' T'); [|exact AD|exact NH| |].
    - eapply piece_other; eauto. 
    - intros NN. destruct res as [r|]; [|now elim NN]. rewrite at_end_app, (at_end_any _ s) by (eapply adds_events; exact AD). exact EA.
    - intros ->. inversion AD; subst. exact EA. }
  destruct d as [ |db|dz|df|dt|dt|t|dmsg dline|lx|m|lx max|lx|db denc|df|df|dp|dp|dv]; try (apply OTHER; discriminate).
  - destruct (text_eqb t (asc ",") || text_eqb t (asc ",@"))%bool eqn:EC.
    + assert (CT : t = asc "," \/ t = asc ",@") by (apply orb_true_iff in EC as [EC|EC]; apply text_eqb_true in EC; auto).
      destruct (Nat.eqb_spec (Datatypes.S i) (List.length lv)) as [EI|NI].
      * assert (LA : is_last src sv i) by (exists lv; auto).
        apply wp_bind. eapply pt_missing; [exact T|]. intros r s1 dr T1 D1 R1 NR O1. apply wp_bind. eapply pt_push; [exact T1|now left|]. intros s2 T2 E2.
        assert (D2 : data_at s2 r = Some dr) by (unfold data_at in *; now rewrite E2).
        eapply (insert_clear H res cur pre [r] (pop r) (eq r) evs [] r s sv (Datatypes.S i) src i s2 s2); [now apply clears1|rewrite app_nil_r; exact T2| |reflexivity| |reflexivity| |exact K].
        -- eapply holding_same; [exact HR|]. intros h J. rewrite E2. now apply O1.
        -- eapply piece_missing; eauto. unfold data_at in *. now rewrite <- E.
        -- intros h J _. rewrite E2. now apply O1.
      * assert (NL : ~ is_last src sv i) by (intros (l' & X1 & X2); rewrite SV in X1; injection X1 as <-; lia).
        assert (SOME : res <> None) by (intros RN; destruct (LEN RN); lia).
        unfold arg. apply wp_bind, wp_bind. eapply src_vec; [exact S|exact T|exact E|]. intros lv' SV' _. rewrite SV in SV'. injection SV' as <-. apply wp_need. intros y NY.
        assert (EY : element src sv (Datatypes.S i) y) by (exists lv; auto).
        apply wp_bind. eapply pt_eval; [exact EV|exact T|apply GV; eapply nth_error_In; eauto|exact ENV|]. intros o s1 T1 O1. apply wp_bind, wp_need. intros w ->.
        apply wp_bind. eapply pt_push; [exact T1|now left|]. intros s2 T2 E2.
        assert (HR2 : holding H s2 res cur) by (eapply holding_same; [exact HR|]; intros h J; rewrite E2; now apply O1).
        assert (OT : forall h, In h H -> res <> Some h -> lookup (all s2) h = lookup (all s) h) by (intros h J _; rewrite E2; now apply O1).
        assert (PLAIN : (t = asc "," \/ (t = asc ",@" /\ forall ws, data_at s1 w <> Some (DVec ws))) -> wp (r <- insert res w ;; pop w ;;; ret (r, Datatypes.S (Datatypes.S i))) Q s2).
        { intros CT2. eapply (insert_clear H res cur pre [w] (pop w) _ evs _ w s sv (Datatypes.S (Datatypes.S i)) src i s1 s2); [now apply clears1|exact T2|exact HR2|reflexivity| |exact E2|exact OT|exact K].
          destruct CT2 as [->|(-> & NV)]; [eapply piece_value; eauto|eapply piece_element; eauto]. }
        destruct (text_eqb t (asc ",")) eqn:E1; [apply PLAIN; left; now apply text_eqb_true|].
        assert (CT2 : t = asc ",@") by (destruct CT as [->|]; [discriminate E1|assumption]).
        unfold splice. apply wp_bind, wp_bind, t_get. intros dw DW. assert (DW1 : data_at s1 w = Some dw) by (unfold data_at in *; now rewrite <- E2).
        assert (GO : (forall ws, dw <> DVec ws) -> wp (insert res w) (fun r s' => wp (pop w ;;; ret (r, Datatypes.S (Datatypes.S i))) Q s') s2) by (intros NV; apply wp_unbind, PLAIN; right; split; [exact CT2|congruence]).
        destruct dw as [ |db|dz|df|dt|dt|dt|dmsg dline|ws|m|ws max|ws|db denc|df|df|dp|dp|dv]; try (apply GO; discriminate). clear GO PLAIN.
        destruct res as [r|]; [|now elim SOME]. destruct HR2 as (IR & DR). apply wp_bind. eapply (splice_all H r (w :: pre)); [exact IR|exact T2|exact DR| |].
        { intros y' J. unfold data_at in DW. destruct (lookup (all s2) w) as [cw|] eqn:LW; [|discriminate]. cbn in DW. injection DW as DW. eapply good_dref; [apply T2|exact LW|now rewrite DW]. }
        intros evs2 s3 T3 AD D3 O3 E3. apply wp_ret. apply wp_bind. eapply (clears1 H pre w); [exact IP|exact T3|]. intros s4 T4 E4. apply wp_ret. rewrite <- app_assoc in T4.
        eapply (K _ [SpecTrace.Eval y env s (Some w) s1] s2 ws evs2 (Some r) _ s4); [exact T4|eapply piece_elements; eauto; congruence|exact AD| | |discriminate].
        -- split; [intros h J N; rewrite E4, O3 by congruence; now apply OT|]. split; [reflexivity|]. unfold data_at in *. now rewrite E4.
        -- intros _. rewrite at_end_app, E4, E3. change (at_end sv [SpecTrace.Eval y env s (Some w) s1]) with s1. destruct evs2 as [|e t']; [exact E2|]. now rewrite (at_end_any s1 s2) by discriminate.
    + apply orb_false_iff in EC as (EC1 & EC2). destruct (text_eqb (firstn 1 t) (asc ",")) eqn:EF.
      * change (asc ",") with [44] in EF. apply first_is in EF as (t1 & ->).
        assert (N1 : t1 <> []) by (intros ->; discriminate EC1). assert (N2 : t1 <> asc "@") by (intros ->; discriminate EC2).
        apply wp_bind, wp_lift; [discriminate|]. intros t' ET. apply c_string_through in ET.
        apply wp_bind. eapply pt_alloc; [exact T|easy|]. intros k s1 T1 NK DK S1 NX1. apply wp_bind. eapply pt_push; [exact T1|now left|]. intros s2 T2 E2.
        apply wp_bind. eapply pt_eval; [exact EV|exact T2|apply (p_good _ _ _ _ _ _ _ _ T2); reflexivity|eapply p_env; eauto|]. intros o s3 T3 O3. apply wp_bind, wp_need. intros w ->.
        apply wp_bind. eapply pt_push; [exact T3|now left|]. intros s4 T4 E4.
        assert (OT : forall h, In h H -> lookup (all s4) h = lookup (all s) h).
        { intros h J. rewrite E4, O3 by exact J. rewrite E2. apply S1. apply re_root. rewrite (pt_stack _ _ _ _ _ _ _ _ T). apply in_or_app. left. now apply IP. }
        eapply (insert_clear H res cur pre [w; k] (pops [w; k]) _ evs _ w s sv (Datatypes.S i) src i s3 s4); [now apply clears2|exact T4|eapply holding_same; eauto|reflexivity| |exact E4|intros h J _; now apply OT|exact K].
        eapply piece_name; [exact EL|exact DX'|exact N1|exact N2|exact ET| | |reflexivity].
        -- unfold data_at. rewrite <- E. change (data_at s k = None). eapply data_none; [apply T|exact NX1].
        -- unfold data_at in *. rewrite E2. exact DK.
      * apply OTHER; [|discriminate]. intros t1 [= ->]. discriminate EF.
  - apply (pt_own ev P s0 H (DVec []) pre G evs); [exact T|easy|]. intros b s1 T1 NB DB NXB S1 SUB.
    assert (NBP : ~ In b P /\ ~ In b H) by (split; intros J; apply NB, in_or_app; auto).
    assert (OS : forall h, In h H -> lookup (all s1) h = lookup (all s) h).
    { intros h J. apply S1. apply re_root. rewrite (pt_stack _ _ _ _ _ _ _ _ T). apply in_or_app. left. now apply IP. }
    apply wp_bind. eapply (loop_spec f IHf (Datatypes.S (List.length lx)) x (contents x) (List.length lx) b 0 (b :: H) [] (b :: pre) _ evs s1 s1);
      [now right|reflexivity|exact T1|intros y [<-|J]; [now left|right; now apply IP]|now left|exact DB|].
    intros evs1 out s2 T2 F2 D2 O2 E2. apply (pt_open ev P s0) in T2; [|apply NBP|now left].
    assert (OT : forall h, In h H -> lookup (all s2) h = lookup (all s) h).
    { intros h J. rewrite O2; [now apply OS|now right|]. intros ->. now apply NBP. }
    eapply (insert_clear H res cur pre [b] (pop b) _ evs evs1 b s sv (Datatypes.S i) src i s2 s2); [now apply clears1|exact T2|eapply holding_same; eauto|now left| |reflexivity|intros h J _; now apply OT|exact K].
    eapply (piece_vector env res src sv i x lx b s1); [exact EL|exact DX'| | | |exact DB|exact F2|exact D2|exact E2].
    + unfold data_at. rewrite <- E. change (data_at s b = None). eapply data_none; [apply T|exact NXB].
    + intros ->. destruct HR as (J & _). now apply NBP.
    + intros y c NY LY. rewrite <- E. now apply SUB.
Qed.

(** ** The special *)
Lemma template_spec fuel : wp (s_template fuel ev a env) (ends [] (template_run env s0 l)) s0.
Proof.
  pose proof (tr_start ev P s0 A0) as H0. unfold s_template. apply wp_bind. eapply (t_nargs ev P a s0 c0 l IN L0 E0); [exact H0|].
  apply wp_bind. eapply (t_push_a ev P a s0 IN); [exact H0|]. intros s1 H1 E1.
  assert (RL : forall x, reachable (all s0) l x -> reach s1 x).
  { intros x R. unfold reach. rewrite E1. induction R as [x J|x c y R IHR L F]; [|eapply re_step; eauto]. rewrite <- E1. eapply t_reach; [exact IN|exact L0|exact E0|exact H1|exact J]. }
  destruct (Nat.ltb_spec 1 (List.length l)).
  - apply (pt_own ev P s0 [] (DVec []) [a] (fun _ => False) [] _ _ s1 (pt_start ev P s0 _ _ _ _ H1)); [easy|]. intros r s2 T2 NR D2 NX S2 _.
    apply wp_bind. eapply (loop_spec fuel (item_spec fuel) _ a (given l) (List.length l) r 0 [r] [] [r; a] _ [] s2 s2); [left; auto|reflexivity|exact T2|intros y [<-|[]]; now left|now left|exact D2|].
    intros evs out s3 T3 F3 D3 _ _. cbn [app] in T3. apply (wp_ends ev P s0 [] evs). eapply t_pops_ret; [exact (p_tr _ _ _ _ _ _ _ _ T3)|now left|exact NR|exact D3|].
    rewrite app_nil_r. exists s2. split.
    + intros x R. rewrite S2 by (now apply RL). now rewrite E1.
    + apply template_more; [lia| |exact D2|exact F3]. pose proof (a_next _ _ _ _ _ _ _ (tr_at _ _ _ _ _ _ _ H1)). lia.
  - cbn [template_loop]. apply wp_bind, wp_bind. 
    eapply (item_spec fuel a (given l) 0%nat None [] [] [a] _ [] s1 s1); [left; auto|reflexivity|exact (pt_start ev P s0 _ _ _ _ H1)|easy|exact I|intros _; exists l; split; [reflexivity|lia]|].
    intros j evs1 s2 xs evs2 o G s' T' PC AD (_ & (x & -> & -> & GX)) _ EA. specialize (EA eq_refl). cbn [fst snd].
    assert (EL : exists y, l = [y]). { assert (exists y, element (given l) s1 0%nat y) as (y & l' & X1 & X2) by (inversion PC; eauto). injection X1 as <-. destruct l as [|z [|z' l']]; cbn in *; [discriminate|eauto|lia]. }
    destruct EL as (y & EL). pose proof (piece_later _ _ _ _ _ _ _ _ _ PC) as LJ. destruct (Nat.leb_spec (List.length l) j) as [_|B]; [|rewrite EL in B; cbn in B; lia]. apply wp_ret.
    inversion AD; subst evs2. rewrite app_nil_r in T'. cbn [app] in T'. apply (wp_ends ev P s0 [] evs1). cbn [need].
    eapply t_fin; [exact (p_tr _ _ _ _ _ _ _ _ T')|exact GX| |]; [|instantiate (1 := data_at s2 x)].
    + rewrite app_nil_r. exists s1. split; [intros z R; now rewrite E1|]. rewrite EL in *. now apply (template_one _ _ _ y j).
    + destruct (data_at s2 x) as [dx|] eqn:DX; [|exact I]. exists dx. split; [|now left]. unfold data_at in *. now rewrite EA.
Qed.
End Spec.
Lemma template_forms : special_form SpTemplate (fun _ env s => template_run env s).
Proof.
  apply special_form_of.
  - intros fuel env ev EV P a s0 c0 l IN L0 E0 GE IE A0. cbn [special_call]. now apply template_spec with (c0 := c0).
  - intros _ env s s' l evs r od K NX (s2 & K2 & T). exists s2. split.
    + intros x R. rewrite K2; [symmetry|]; [apply K|]; (induction R as [x J|x c y R IHR L F]; [now apply re_root|eapply re_step; [exact IHR| |exact F]; now rewrite <- K]).
    + destruct T as [x j evs s1 r P1|l r evs out G1 G2 G3 G4]; [now apply (template_one _ _ _ x j)|]. apply template_more; auto. lia.
Qed.
