(** Histories of ports (C109-C113). *)
From Coq Require Import List NArith ZArith Bool Lia.
From Verif Require Utf8Proofs.
From Verif Require Import Base SpecText SpecDefine SpecOutput OString OStringProofs ValueOps Builtins OutputProofs Port SpecPort PortProofs.
Import ListNotations.
Local Open Scope N_scope.

Lemma call_wf y c h r h' : wf h -> run_call y c h = Ret (r, h') -> wf h' /\ grows (here h) (here h').
Proof.
  intros W E. destruct (call_effect y c h r h' W E) as [(-> & _)|[(i & q & q' & w' & o & N & -> & A)|(p & k & q & w' & _ & -> & O)]].
  - split; [exact W|]. apply same_grows. intro. reflexivity.
  - pose proof (ac_moves _ _ _ _ _ _ _ _ A) as M. split; [|exact (mv_grows _ _ _ _ _ M)]. unfold wf, with_port. cbn [here ports]. apply set_forall; [|exact (mv_wf _ _ _ _ _ M)].
    eapply Forall_impl; [|exact W]. intros q0. apply grows_wf, (mv_grows _ _ _ _ _ M).
  - split; [|exact (op_grows _ _ _ _ _ O)]. unfold wf. cbn [here ports]. apply Forall_app. split; [|constructor; [exact (op_wf _ _ _ _ _ O)|constructor]].
    eapply Forall_impl; [|exact W]. intros q0. apply grows_wf, (op_grows _ _ _ _ _ O).
Qed.
Lemma history_wf y h l h' : wf h -> history y h l h' -> wf h' /\ grows (here h) (here h').
Proof.
  intros W H. induction H as [h|h c r h1 l h' E _ IH]; [split; [exact W|]; apply same_grows; intro; reflexivity|].
  destruct (call_wf y c h r h1 W E) as (W1 & G1). destruct (IH W1) as (W2 & G2). split; [exact W2|]. eapply grows_trans; eauto.
Qed.
Lemma reachable_wf y h : reachable y h -> wf h.
Proof. intros (w & l & H). eapply history_wf; [|exact H]. constructor. Qed.

Lemma path_other t p p' : octets_of t = Ret p' -> other_path p t -> p' <> p.
Proof. intros E (F & N). apply octets_spec in E. rewrite (E F). exact N. Qed.

Lemma nth_snoc {X} (l : list X) x j y : nth_error (l ++ [x]) j = Some y -> nth_error l j = Some y \/ (j = List.length l /\ y = x).
Proof.
  intro N. destruct (Nat.lt_ge_cases j (List.length l)) as [L|L]; [rewrite nth_error_app1 in N by exact L; auto|]. rewrite nth_error_app2 in N by exact L. destruct (j - List.length l)%nat as [|k] eqn:D.
  - injection N as <-. right. split; [lia|reflexivity].
  - destruct k; discriminate N.
Qed.
Lemma snoc_nth {X} (l : list X) x j y : nth_error l j = Some y -> nth_error (l ++ [x]) j = Some y.
Proof. intro N. rewrite nth_error_app1; [exact N|]. apply nth_error_Some. congruence. Qed.

(** Who writes to [p] after a call: who did before, or the copy of one who did. *)
Lemma writers y c h r h' p j : wf h -> run_call y c h = Ret (r, h') -> leaves_alone p c -> is_open for_output h' j p ->
  is_open for_output h j p \/ (exists i, c = CCopy i /\ is_open for_output h i p /\ j = List.length (ports h)).
Proof.
  intros W E LA (q & N & NM & K). destruct (call_effect y c h r h' W E) as [(-> & _)|[(i & q0 & q' & w' & o & N0 & -> & A)|(p0 & k & q0 & w' & OA & -> & O)]].
  - left. exists q. auto.
  - unfold with_port in N. cbn [ports] in N. rewrite nth_set in N. destruct (Nat.eqb i j) eqn:EJ; [|left; exists q; auto]. apply Nat.eqb_eq in EJ. subst j. rewrite N0 in N. injection N as <-. left. exists q0. split; [exact N0|].
    pose proof (ac_moves _ _ _ _ _ _ _ _ A) as M. rewrite <- (mv_name _ _ _ _ _ M). split; [exact NM|]. destruct (mv_kind _ _ _ _ _ M) as [<-|C]; [exact K|]. rewrite C in K. cbn in K. intuition discriminate.
  - cbn [ports] in N. apply nth_snoc in N as [N|(J & ->)]; [left; exists q; auto|]. rewrite (op_name _ _ _ _ _ O) in NM. subst p0. destruct (op_kind _ _ _ _ _ O) as [KK|C]; [|rewrite C in K; cbn in K; intuition discriminate].
    rewrite KK in K. clear KK. destruct c as [a|a|a|a|a|a|a|a|a|a|a|a|i|i]; cbn [opens_at] in OA; try contradiction.
    + destruct a as [|[] [|? ?]]; try contradiction. destruct OA as (_ & ->). cbn in K. intuition discriminate.
    + destruct a as [|[] [|? ?]]; try contradiction. destruct OA as (P & ->). exfalso. eapply path_other; eauto.
    + destruct a as [|[] [|? ?]]; try contradiction. destruct OA as (P & ->). exfalso. eapply path_other; eauto.
    + destruct OA as (q1 & N1 & NM1 & <-). right. exists i. split; [reflexivity|]. split; [exists q1; auto|exact J].
Qed.
Lemma call_untouched y c h r h' p : wf h -> run_call y c h = Ret (r, h') -> leaves_alone p c -> (forall j, ~ is_open for_output h j p) -> file_at h' p = file_at h p /\ (forall j, ~ is_open for_output h' j p).
Proof.
  intros W E LA NW. split.
  - unfold file_at. destruct (call_effect y c h r h' W E) as [(-> & _)|[(i & q0 & q' & w' & o & N0 & -> & A)|(p0 & k & q0 & w' & OA & -> & O)]]; [reflexivity| |].
    + pose proof (ac_moves _ _ _ _ _ _ _ _ A) as M. cbn [with_port here]. destruct (in_dec (fun x y : tag => ltac:(decide equality) : {x = y} + {x <> y}) (kind q0) for_output) as [K|K]; [|apply (mv_quiet _ _ _ _ _ M K)].
      apply (mv_only _ _ _ _ _ M). intros ->. apply (NW i). exists q0. auto.
    + cbn [here]. destruct (in_dec (fun x y : tag => ltac:(decide equality) : {x = y} + {x <> y}) (kind q0) for_output) as [K|K]; [|apply (op_quiet _ _ _ _ _ O K)].
      apply (op_only _ _ _ _ _ O). intros ->. destruct (op_kind _ _ _ _ _ O) as [KK|C]; [|rewrite C in K; cbn in K; intuition discriminate]. rewrite KK in K.
      destruct c as [a|a|a|a|a|a|a|a|a|a|a|a|i|i]; cbn [opens_at] in OA; try contradiction.
      * destruct a as [|[] [|? ?]]; try contradiction. destruct OA as (_ & ->). cbn in K. intuition discriminate.
      * destruct a as [|[] [|? ?]]; try contradiction. destruct OA as (P & ->). eapply path_other; eauto.
      * destruct a as [|[] [|? ?]]; try contradiction. destruct OA as (P & ->). eapply path_other; eauto.
      * destruct OA as (q1 & N1 & NM1 & <-). apply (NW i). exists q1. auto.
  - intros j Wj. destruct (writers y c h r h' p j W E LA Wj) as [X|(i & _ & X & _)]; eapply NW; eauto.
Qed.
Lemma history_untouched y h l h' p : wf h -> history y h l h' -> Forall (fun cr => leaves_alone p (fst cr)) l -> (forall j, ~ is_open for_output h j p) -> file_at h' p = file_at h p /\ (forall j, ~ is_open for_output h' j p).
Proof.
  intros W H. induction H as [h|h c r h1 l h' E _ IH]; intros F NW; [auto|]. inversion F as [|? ? LA F']; subst. cbn [fst] in LA. destruct (call_untouched y c h r h1 p W E LA NW) as (A & B). destruct (call_wf y c h r h1 W E) as (W1 & _).
  destruct (IH W1 F' B) as (C & D). split; [congruence|exact D].
Qed.

(** ** Writing *)
Definition content_at (h : host) (p : path) : list N := content (here h) p.
Lemma octets_content h p : octets_at h p = content_at h p.
Proof. reflexivity. Qed.
Record collects (h : host) (i : nat) (p : path) (all : list N) : Prop := mkCollects {
  co_wf : wf h;
  co_alone : forall j, j <> i -> ~ is_open for_output h j p;
  co_port : exists q, nth_error (ports h) i = Some q /\ name q = p /\
    ((In (kind q) for_output /\ exists st, file q = Some st /\ content_at h p ++ pending st = all) \/ (kind q = NotOpen /\ exists rest, content_at h p ++ rest = all)) }.

Lemma out_not_closed q : In (kind q) for_output -> kind q <> NotOpen.
Proof. intros O C. rewrite C in O. cbn in O. intuition discriminate. Qed.

Lemma collects_step y c h r h' i p all : collects h i p all -> run_call y c h = Ret (r, h') -> leaves_alone p c -> c <> CCopy i -> (forall v, c = CWrite [VPort i; v] -> scalar_value v /\ (size v <= INT32_MAX)%Z /\ r = AnInt (size v)) ->
  exists os, Forall2 spelled (written_by i c) os /\ collects h' i p (all ++ List.concat os) /\ (passes_on i c -> r = ABool true -> content_at h' p = all ++ List.concat os).
Proof.
  intros [W AL (q & N & NM & ST)] E LA NC WR. destruct (call_wf y c h r h' W E) as (W' & _).
  assert (AL' : forall j, j <> i -> ~ is_open for_output h' j p).
  { intros j J O. destruct (writers y c h r h' p j W E LA O) as [X|(j0 & -> & X & _)]; [exact (AL j J X)|]. destruct (Nat.eq_dec j0 i) as [->|D]; [apply NC; reflexivity|exact (AL j0 D X)]. }
  destruct (call_effect y c h r h' W E) as [(-> & NW & NP)|[(j & q0 & q' & w' & o & N0 & -> & A)|(p0 & k & q0 & w' & OA & -> & O)]].
  - exists []. rewrite NW. split; [constructor|]. cbn [List.concat]. rewrite app_nil_r. split; [split; [exact W|exact AL|exists q; auto]|]. intros P R. exfalso. eapply NP; eauto.
  - destruct (Nat.eq_dec j i) as [->|D].
    + rewrite N in N0. injection N0 as <-. pose proof (ac_moves _ _ _ _ _ _ _ _ A) as M.
      assert (SP : exists os, Forall2 spelled (written_by i c) os /\ (kind q <> NotOpen -> List.concat os = o) /\ (kind q = NotOpen -> os = [])).
      { destruct (written_by i c) as [|v [|v2 t]] eqn:WB.
        - exists []. split; [constructor|]. split; [|reflexivity]. intros _. symmetry. apply (ac_nothing _ _ _ _ _ _ _ _ A). exact WB.
        - assert (CE : c = CWrite [VPort i; v]).
          { destruct c as [a|a|a|a|a|a|a|a|a|a|a|a|k|k]; try discriminate WB. cbn [written_by] in WB. destruct a as [|[] [|v1 [|v2 a]]]; try discriminate WB. destruct (Nat.eqb i i0) eqn:EI; [|discriminate WB]. apply Nat.eqb_eq in EI. subst i0. injection WB as ->. reflexivity. }
          destruct (WR v CE) as (SC & LE & ->). exists [o]. split; [constructor; [|constructor]|].
          + apply (ac_written _ _ _ _ _ _ _ _ A v WB eq_refl SC LE).
          + split; [intros _; cbn [List.concat]; apply app_nil_r|]. intro K. destruct (ac_refused _ _ _ _ _ _ _ _ A K) as (X & _). rewrite WB in X. specialize (X ltac:(discriminate)). discriminate X.
        - exfalso. destruct c as [a|a|a|a|a|a|a|a|a|a|a|a|k|k]; try discriminate WB. cbn [written_by] in WB. destruct a as [|[] [|v1 [|v3 a]]]; try discriminate WB. destruct (Nat.eqb i i0); discriminate WB. }
      destruct SP as (os & FS & CO & CN). exists os. split; [exact FS|].
      assert (NI : nth_error (ports (with_port h i q' w')) i = Some q') by (unfold with_port; cbn [ports]; rewrite nth_set, Nat.eqb_refl, N; reflexivity).
      destruct ST as [(KO & st & F & T)|(KN & rest & T)].
      * rewrite (CO (out_not_closed q KO)). destruct (mv_text _ _ _ _ _ M KO) as (st1 & rest & F1 & T1 & R1). rewrite F in F1. injection F1 as <-. rewrite NM in T1.
        assert (TT : content w' p ++ rest = all ++ o) by (rewrite T1, app_assoc; unfold content_at in T; rewrite T; reflexivity).
        split; [split; [exact W'|exact AL'|exists q'; split; [exact NI|]; split; [rewrite (mv_name _ _ _ _ _ M); exact NM|]]|].
        -- unfold content_at. cbn [with_port here]. destruct (mv_kind _ _ _ _ _ M) as [K|K]; [left; rewrite K; split; [exact KO|]|right; eauto]. destruct R1 as (st' & F' & <-); [rewrite K; apply out_not_closed, KO|]. eauto.
        -- intros P R. destruct (ac_passed _ _ _ _ _ _ _ _ A P R KO) as (st2 & F2 & T2). rewrite F in F2. injection F2 as <-. rewrite NM in T2. unfold content_at. cbn [with_port here]. rewrite T2. unfold content_at in T. rewrite T.
           assert (o = []) as ->; [|rewrite app_nil_r; reflexivity]. apply (ac_nothing _ _ _ _ _ _ _ _ A). destruct P as [->|[->|(n & t & ->)]]; reflexivity.
      * rewrite (CN KN). cbn [List.concat]. rewrite app_nil_r. destruct (ac_closed _ _ _ _ _ _ _ _ A KN) as (Q & ->). split; [split; [exact W'|exact AL'|exists q'; split; [exact NI|]; split; [rewrite (mv_name _ _ _ _ _ M); exact NM|]]|].
        -- right. split; [rewrite Q; reflexivity|]. exists rest. exact T.
        -- intros P R. destruct (ac_refused _ _ _ _ _ _ _ _ A KN) as (_ & X). rewrite (X P) in R. discriminate R.
    + assert (WB : written_by i c = []).
      { pose proof (ac_target _ _ _ _ _ _ _ _ A) as T. destruct c as [a|a|a|a|a|a|a|a|a|a|a|a|k|k]; try reflexivity. cbn [written_by target] in *. destruct a as [|[] [|v1 [|v2 a]]]; try reflexivity. destruct (Nat.eqb i i0) eqn:EI; [|reflexivity]. apply Nat.eqb_eq in EI. congruence. }
      exists []. rewrite WB. split; [constructor|]. cbn [List.concat]. rewrite app_nil_r. pose proof (ac_moves _ _ _ _ _ _ _ _ A) as M.
      assert (CS : content w' p = content (here h) p).
      { destruct (path_dec (name q0) p) as [NP|NP]; [|apply content_only with (p := name q0); [exact (mv_only _ _ _ _ _ M)|congruence]].
        apply same_content. apply (mv_quiet _ _ _ _ _ M). intro O. apply (AL j D). exists q0. auto. }
      split; [split; [exact W'|exact AL'|exists q; split; [unfold with_port; cbn [ports]; rewrite nth_set; destruct (Nat.eqb j i) eqn:EJ; [apply Nat.eqb_eq in EJ; contradiction|exact N]|split; [exact NM|]]]|].
      * unfold content_at. cbn [with_port here]. rewrite CS. exact ST.
      * intros P R. exfalso. pose proof (ac_target _ _ _ _ _ _ _ _ A) as T. destruct P as [->|[->|(n & t & ->)]]; cbn in T; congruence.
  - assert (WB : forall i, written_by i c = []) by (intro j; destruct c; try reflexivity; contradiction).
    exists []. rewrite WB. split; [constructor|]. cbn [List.concat]. rewrite app_nil_r.
    assert (CS : content w' p = content (here h) p).
    { destruct (path_dec p0 p) as [->|NP]; [|apply content_only with (p := p0); [exact (op_only _ _ _ _ _ O)|congruence]].
      destruct (in_dec (fun x y : tag => ltac:(decide equality) : {x = y} + {x <> y}) (kind q0) for_output) as [K|K]; [exact (op_text _ _ _ _ _ O K)|apply same_content, (op_quiet _ _ _ _ _ O K)]. }
    split; [split; [exact W'|exact AL'|exists q; split; [apply snoc_nth, N|split; [exact NM|]]]|].
    + unfold content_at. cbn [here]. rewrite CS. exact ST.
    + intros P. exfalso. destruct P as [->|[->|(n & t & ->)]]; contradiction.
Qed.
Lemma collects_history y h l h' i p all : history y h l h' -> collects h i p all -> Forall (fun cr => leaves_alone p (fst cr)) l -> ~ In (CCopy i) (map fst l) -> all_written i l ->
  exists os, Forall2 spelled (written i l) os /\ collects h' i p (all ++ List.concat os) /\ (forall l0 c, l = l0 ++ [(c, ABool true)] -> passes_on i c -> content_at h' p = all ++ List.concat os).
Proof.
  intros H. revert all. induction H as [h|h c r h1 l h' E H IH]; intros all CO F NC AW.
  - exists []. split; [constructor|]. cbn [List.concat]. rewrite app_nil_r. split; [exact CO|]. intros l0 c X. destruct l0; discriminate X.
  - inversion F as [|? ? LA F']; subst. cbn [fst map] in *.
    destruct (collects_step y c h r h1 i p all CO E LA) as (os1 & S1 & C1 & P1).
    { intro X. apply NC. left. exact X. }
    { intros v ->. apply AW. left. reflexivity. }
    destruct (IH (all ++ List.concat os1) C1 F') as (os2 & S2 & C2 & P2).
    { intro X. apply NC. right. exact X. }
    { intros v r0 X. apply AW. right. exact X. }
    exists (os1 ++ os2). unfold written. cbn [flat_map fst]. split; [apply Forall2_app; assumption|]. rewrite concat_app, app_assoc. split; [exact C2|].
    intros l0 c0 X P. destruct l0 as [|x l0]; cbn [app] in X.
    + injection X as -> -> ->. inversion H; subst. inversion S2; subst. cbn [List.concat]. rewrite app_nil_r. apply P1; [exact P|reflexivity].
    + injection X as _ X. eapply P2; eauto.
Qed.

Lemma open_collects y c h i h1 p t : wf h -> (forall j, ~ is_open for_output h j p) -> (c = COpenOutput [VStr t] \/ c = COpenIo [VStr t]) -> Forall scalar t -> utf8_text (before_nul t) = p -> run_call y c h = Ret (APort i, h1) -> is_open for_output h1 i p ->
  collects h1 i p (octets_at h p).
Proof.
  intros W NW C F PT E (q & N & NM & K). destruct (call_wf y c h (APort i) h1 W E) as (W1 & _).
  destruct (call_effect y c h (APort i) h1 W E) as [(-> & _)|[(j & q0 & q' & w' & o & N0 & -> & A)|(p0 & k & q0 & w' & OA & -> & O)]].
  - exfalso. apply (NW i). exists q. auto.
  - exfalso. pose proof (ac_target _ _ _ _ _ _ _ _ A) as T. destruct C as [->| ->]; exact T.
  - assert (p0 = p) as -> by (destruct C as [->| ->]; cbn [opens_at] in OA; destruct OA as (OA & _); apply octets_spec in OA; rewrite (OA F); exact PT).
    cbn [ports] in N. apply nth_snoc in N as [N|(J & ->)]; [exfalso; apply (NW i); exists q; auto|]. split; [exact W1| |].
    + intros j J' (q1 & N1 & NM1 & K1). cbn [ports] in N1. apply nth_snoc in N1 as [N1|(J1 & _)]; [apply (NW j); exists q1; auto|congruence].
    + exists q0. cbn [ports]. split; [rewrite J, nth_error_app2 by lia; rewrite Nat.sub_diag; reflexivity|]. split; [exact NM|]. left. split; [exact K|].
      destruct (op_wf _ _ _ _ _ O) as [(KN & _)|(_ & _ & st & FI & _)]; [apply out_not_closed in K; contradiction|]. exists st. split; [exact FI|]. destruct (op_pending _ _ _ _ _ O st FI) as (-> & _). rewrite app_nil_r. unfold content_at. cbn [here]. rewrite (op_text _ _ _ _ _ O K). reflexivity.
Qed.

(** ** Reading *)
Lemma signed_octet_spec b : octet b -> read_as b (signed_octet b).
Proof.
  unfold octet, read_as, signed_octet. intro B. destruct (b <? 128) eqn:E; [apply N.ltb_lt in E|apply N.ltb_ge in E].
  - split; [apply Z.mod_small|]; lia.
  - split; [|lia]. symmetry. apply (Z.mod_unique _ 256 (-1)); lia.
Qed.
Lemma len_take n l : (n <= len l) -> len (take n l) = n.
Proof. unfold len, take. intro H. rewrite firstn_length. lia. Qed.
Lemma len_take_le n l : len (take n l) <= n.
Proof. unfold len, take. rewrite firstn_length. lia. Qed.
Lemma skip_skip a b l : skip a (skip b l) = skip (b + a) l.
Proof. unfold skip. rewrite N2Nat.inj_add. revert l. induction (N.to_nat b) as [|n IH]; intro l; [reflexivity|]. destruct l; [cbn; apply skipn_nil|]. cbn. apply IH. Qed.
Lemma take_one l : take 1 l = match l with [] => [] | b :: _ => [b] end.
Proof. unfold take. cbn. destruct l; reflexivity. Qed.

Lemma port_read_one q w o q' w' st : In (kind q) for_input -> file q = Some st -> at_path st = name q -> port_read 1 q w = Ret (o, q', w') ->
  o = Some (match skip (position st) (content w (name q)) with [] => [] | b :: _ => [b] end) /\ same w w' /\ name q' = name q /\ kind q' = kind q /\
  exists st', file q' = Some st' /\ at_path st' = name q /\ position st' = position st + (match skip (position st) (content w (name q)) with [] => 0 | _ => 1 end).
Proof.
  intros K F AP E. unfold port_read in E. destruct (kind q) eqn:KQ; try (cbn in K; intuition discriminate).
  all: rewrite F in E; destruct (fread 1 st w) as [((b, st'), w1)| | | | |] eqn:FR; try discriminate E; cbn [obind] in E; injection E as <- <- <-; apply fread_reads in FR as (E1 & E2 & E3 & E4 & E5 & E6 & E7).
  all: rewrite take_one, AP in E1; subst b; split; [reflexivity|]; split; [exact E2|]; split; [reflexivity|]; split; [reflexivity|]; exists st'; cbn [file]; split; [reflexivity|]; split; [congruence|].
  all: rewrite E5; destruct (skip (position st) (content w (name q))); reflexivity.
Qed.
Lemma skip_next k l b t : skip k l = b :: t -> skip (k + 1) l = t.
Proof. intro E. rewrite <- skip_skip, E. reflexivity. Qed.
Lemma skip_end k l : skip k l = [] -> skip (k + 0) l = [].
Proof. intro E. rewrite N.add_0_r. exact E. Qed.
Lemma read_octets_spec n : forall q w l q' w' st, In (kind q) for_input -> file q = Some st -> at_path st = name q -> read_octets n q w = Ret (l, q', w') ->
  l = map signed_octet (firstn n (skip (position st) (content w (name q)))) /\ same w w' /\ name q' = name q /\ kind q' = kind q /\
  exists st', file q' = Some st' /\ at_path st' = name q /\ position st' = position st + N.of_nat (List.length l).
Proof.
  induction n as [|n IH]; intros q w l q' w' st K F AP E; cbn [read_octets] in E.
  - injection E as <- <- <-. cbn [firstn map]. split; [reflexivity|]. split; [intro; reflexivity|]. split; [reflexivity|]. split; [reflexivity|]. exists st. cbn. rewrite N.add_0_r. auto.
  - destruct (port_read 1 q w) as [((o, q1), w1)| | | | |] eqn:PR; try discriminate E. cbn [obind] in E. destruct (port_read_one q w o q1 w1 st K F AP PR) as (-> & S1 & NM1 & K1 & st1 & F1 & AP1 & P1).
    destruct (skip (position st) (content w (name q))) as [|b t] eqn:SK.
    + injection E as <- <- <-. cbn [firstn map]. split; [reflexivity|]. split; [exact S1|]. split; [exact NM1|]. split; [exact K1|]. exists st1. cbn. auto.
    + destruct (read_octets n q1 w1) as [((l2, q2), w2)| | | | |] eqn:RO; try discriminate E. cbn [obind] in E. injection E as <- <- <-.
      destruct (IH q1 w1 l2 q2 w2 st1) as (L2 & S2 & NM2 & K2 & st2 & F2 & AP2 & P2); [congruence|exact F1|congruence|exact RO|].
      rewrite NM1, (same_content _ _ _ S1), P1, (skip_next _ _ _ _ SK) in L2. cbn [firstn map]. split; [rewrite L2; reflexivity|]. split; [eapply same_trans; eauto|]. split; [congruence|]. split; [congruence|]. exists st2. split; [exact F2|]. split; [congruence|].
      rewrite P2, P1. cbn [List.length]. lia.
Qed.

Lemma stands_stream h i p k : wf h -> stands h i p k -> exists q st, nth_error (ports h) i = Some q /\ name q = p /\ In (kind q) for_input /\ file q = Some st /\ position st = k /\ at_path st = name q /\ wf_port (here h) q.
Proof.
  intros W (q & st & N & NM & K & F & P). exists q, st. repeat (split; [assumption|]). pose proof (wf_nth h i q W N) as WP. split; [|exact WP]. destruct WP as [(KN & FN & _)|(_ & _ & st' & F' & AP & _)]; [congruence|]. rewrite F in F'. injection F' as <-. exact AP.
Qed.
Lemma stands_with h i q' w' p k st : (exists q, nth_error (ports h) i = Some q) -> name q' = p -> In (kind q') for_input -> file q' = Some st -> position st = k -> stands (with_port h i q' w') i p k.
Proof. intros (q & N) NM K F P. exists q', st. split; [unfold with_port; cbn [ports]; rewrite nth_set, Nat.eqb_refl, N; reflexivity|auto]. Qed.

(** Everything that a call of port-read on a standing port does. *)
Lemma read_call y h i p k a r h' : wf h -> stands h i p k -> run_call y (CRead (VPort i :: a)) h = Ret (r, h') ->
  exists n, numbers r = map signed_octet (firstn n (skip k (octets_at h p))) /\ stands h' i p (k + N.of_nat (List.length (numbers r))) /\ same (here h) (here h') /\
    (a = [] -> n = 1%nat /\ (r = AnError \/ exists z, r = AnInt z)) /\ (forall z, a = [VInt z] -> n = Z.to_nat z /\ exists l, r = AVec l).
Proof.
  intros W ST E. destruct (stands_stream h i p k W ST) as (q & st & N & NM & K & F & P & AP & WP). cbn [run_call] in E. unfold b_read in E.
  destruct a as [|v [|v2 a]].
  - rewrite N in E. destruct (port_read 1 q (here h)) as [((o, q1), w1)| | | | |] eqn:PR; try discriminate E. cbn [obind] in E. destruct (port_read_one q (here h) o q1 w1 st K F AP PR) as (-> & S1 & NM1 & K1 & st1 & F1 & AP1 & P1).
    exists 1%nat. unfold octets_at, file_at. fold (content (here h) p). rewrite NM, P in P1. rewrite NM, P in E. destruct (skip k (content (here h) p)) as [|b t]; injection E as <- <-; cbn [numbers firstn map List.length].
    + split; [reflexivity|]. split; [eapply stands_with; eauto; congruence|]. split; [exact S1|]. split; [auto|discriminate].
    + split; [reflexivity|]. split; [eapply stands_with; eauto; congruence|]. split; [exact S1|]. split; [eauto|discriminate].
  - destruct v; try (injection E as <- <-; exists 0%nat; cbn [numbers firstn map List.length]; rewrite N.add_0_r; split; [reflexivity|]; split; [exact ST|]; split; [intro; reflexivity|]; split; discriminate).
    rewrite N in E. destruct (read_octets (Z.to_nat z) q (here h)) as [((l, q1), w1)| | | | |] eqn:PR; try discriminate E. cbn [obind] in E. injection E as <- <-. destruct (read_octets_spec _ q (here h) l q1 w1 st K F AP PR) as (L & S1 & NM1 & K1 & st1 & F1 & AP1 & P1).
    exists (Z.to_nat z). cbn [numbers]. rewrite NM, P in L. split; [exact L|]. split; [eapply stands_with; eauto; congruence|]. split; [exact S1|]. split; [discriminate|]. intros z0 X. injection X as ->. eauto.
  - assert (X : Ret (AnError, h) = Ret (r, h')) by (destruct v; exact E). injection X as <- <-. exists 0%nat. cbn [numbers firstn map List.length]. rewrite N.add_0_r. split; [reflexivity|]. split; [exact ST|]. split; [intro; reflexivity|]. split; discriminate.
Qed.
Lemma seek_call y h i p k n hr r h' : wf h -> stands h i p k -> (forall q st, nth_error (ports h) i = Some q -> file q = Some st -> pending st = []) -> run_call y (CSeek (VPort i :: VInt n :: if hr : bool then [VSym] else [])) h = Ret (r, h') ->
  let t := seek_aim n hr k (N.of_nat (List.length (octets_at h p))) in r = ABool (0 <=? t)%Z /\ stands h' i p (if (0 <=? t)%Z then Z.to_N t else k) /\ same (here h) (here h').
Proof.
  intros W ST PE E. destruct (stands_stream h i p k W ST) as (q & st & N & NM & K & F & P & AP & WP). assert (P0 : pending st = []) by (eapply PE; eauto).
  assert (X : exists b q' w', port_seek y n hr q (here h) = Ret (b, q', w') /\ r = ABool b /\ h' = with_port h i q' w').
  { cbn [run_call] in E. unfold b_seek in E. destruct hr; rewrite N in E; (destruct (port_seek y n _ q (here h)) as [((b, q'), w')| | | | |]; try discriminate E); cbn [obind] in E; injection E as <- <-; exists b, q', w'; auto. }
  destruct X as (b & q' & w' & PS & -> & ->). apply port_seek_moves in PS as (M & KK & _ & D); [|exact WP]. destruct D as (st0 & st1 & F0 & F1 & _ & D). { intro C. rewrite C in K. cbn in K. intuition discriminate. }
  rewrite F in F0. injection F0 as <-. specialize (D P0). cbv zeta in D. rewrite P, NM in D. fold (content (here h) p) in D. cbv zeta. unfold octets_at, file_at. fold (content (here h) p). unfold len in D. destruct D as (B & Q). rewrite B in *. split; [reflexivity|]. split.
  - eapply stands_with; eauto; [rewrite (mv_name _ _ _ _ _ M); exact NM|congruence].
  - cbn [with_port here]. destruct (in_dec (fun x y : tag => ltac:(decide equality) : {x = y} + {x <> y}) (kind q) for_output) as [KO|KO]; [|apply (mv_quiet _ _ _ _ _ M KO)].
    destruct (mv_text _ _ _ _ _ M KO) as (st2 & rest & F2 & T & _). rewrite F in F2. injection F2 as <-. rewrite P0, !app_nil_r in T. intro p'. destruct (path_dec p' (name q)) as [->|NP]; [|apply (mv_only _ _ _ _ _ M), NP].
    destruct WP as [(KN & FN & _)|(_ & DN & _)]; [congruence|]. destruct (disk (here h) (name q)) as [o|] eqn:DO; [|contradiction]. destruct (mv_grows _ _ _ _ _ M _ _ DO) as (o' & DO'). rewrite DO'. unfold content in T. rewrite DO, DO' in T.
    rewrite <- app_assoc in T. rewrite <- (app_nil_r o) in T at 2. apply app_inv_head in T. apply app_eq_nil in T as [-> _]. rewrite app_nil_r. reflexivity.
Qed.

Lemma stands_kept y c h r h' i p k : wf h -> stands h i p k -> run_call y c h = Ret (r, h') -> does_not_move i c -> (forall a, c <> CRead (VPort i :: a)) -> stands h' i p k.
Proof.
  intros W ST E D NR. pose proof ST as (q & st & N & NM & K & F & P). destruct (call_effect y c h r h' W E) as [(-> & _)|[(j & q0 & q' & w' & o & N0 & H & A)|(p0 & k0 & q0 & w' & OA & -> & O)]]; [exact ST| |].
  - destruct (Nat.eq_dec j i) as [->|DJ].
    + pose proof (ac_target _ _ _ _ _ _ _ _ A) as T. destruct c as [a|a|a|a|a|a|a|a|a|a|a|a|n|n]; cbn [target] in T; try contradiction; try (destruct a as [|[] a]; try contradiction; subst; cbn in D; congruence).
      * destruct a as [|[] a]; try contradiction. subst i0. cbn [run_call] in E. unfold b_flush in E. destruct a as [|v a]; [|injection E as <- <-; exact ST]. rewrite N in E. destruct (port_flush y q (here h)) as [((b, q1), w1)| | | | |] eqn:PF; try discriminate E. cbn [obind] in E. injection E as <- E2. rewrite <- E2.
        apply port_flush_moves in PF as (M & KK & _ & X); [|eapply wf_nth; eauto]. destruct X as (st0 & st1 & F0 & F1 & _ & PP). { intro C. rewrite C in K. cbn in K. intuition discriminate. } rewrite F in F0. injection F0 as <-.
        eapply stands_with; eauto; [rewrite (mv_name _ _ _ _ _ M); exact NM|congruence|congruence].
      * subst. cbn in D. congruence.
    + rewrite H. exists q, st. split; [unfold with_port; cbn [ports]; rewrite nth_set; destruct (Nat.eqb j i) eqn:EJ; [apply Nat.eqb_eq in EJ; contradiction|exact N]|auto].
  - exists q, st. split; [apply snoc_nth, N|auto].
Qed.
Lemma read_history y h l h' i p : wf h -> history y h l h' -> (forall j, ~ is_open for_output h j p) -> Forall (fun cr => leaves_alone p (fst cr) /\ does_not_move i (fst cr)) l -> forall k, stands h i p k ->
  exists bs, read_from i l = map signed_octet bs /\ bs = firstn (List.length bs) (skip k (octets_at h p)) /\ stands h' i p (k + N.of_nat (List.length bs)).
Proof.
  intros W H. induction H as [h|h c r h1 l h' E _ IH]; intros NW F k ST.
  - exists []. cbn. rewrite N.add_0_r. auto.
  - inversion F as [|? ? (LA & DM) F']; subst. cbn [fst] in *. destruct (call_untouched y c h r h1 p W E LA NW) as (SF & NW1). destruct (call_wf y c h r h1 W E) as (W1 & _).
    assert (SO : octets_at h1 p = octets_at h p) by (unfold octets_at; rewrite SF; reflexivity).
    assert (X : exists b1, reads_of i (c, r) = map signed_octet b1 /\ b1 = firstn (List.length b1) (skip k (octets_at h p)) /\ stands h1 i p (k + N.of_nat (List.length b1))).
    { assert (Y : (exists a, c = CRead (VPort i :: a)) \/ (forall a, c <> CRead (VPort i :: a))).
      { destruct c as [a|a|a|a|a|a|a|a|a|a|a|a|n|n]; try (right; intros; discriminate). destruct a as [|[z|t|t|x| |j|] a]; try (right; intros; discriminate). destruct (Nat.eq_dec j i) as [->|D]; [left; eauto|right; congruence]. }
      destruct Y as [(a & ->)|NR].
      - destruct (read_call y h i p k a r h1 W ST E) as (n & NU & ST1 & _). unfold reads_of. cbn [fst snd]. rewrite Nat.eqb_refl. exists (firstn n (skip k (octets_at h p))). rewrite NU, map_length in ST1. split; [exact NU|]. split; [|exact ST1].
        rewrite firstn_length. destruct (Nat.min_spec n (List.length (skip k (octets_at h p)))) as [(_ & ->)|(L & ->)]; [reflexivity|]. rewrite firstn_all. apply firstn_all2. exact L.
      - exists []. cbn [List.length firstn map]. rewrite N.add_0_r. split; [|split; [reflexivity|exact (stands_kept y c h r h1 i p k W ST E DM NR)]]. unfold reads_of. cbn [fst snd]. destruct c as [a|a|a|a|a|a|a|a|a|a|a|a|n|n]; try reflexivity. destruct a as [|[z|t|t|x| |j|] a]; try reflexivity. destruct (Nat.eqb i j) eqn:EJ; [|reflexivity]. apply Nat.eqb_eq in EJ. subst j. exfalso. eapply NR; reflexivity. }
    destruct X as (b1 & R1 & B1 & ST1). destruct (IH W1 NW1 F' _ ST1) as (b2 & R2 & B2 & ST2). exists (b1 ++ b2). unfold read_from. cbn [flat_map]. fold (read_from i l). rewrite R1, R2, map_app. split; [reflexivity|]. rewrite app_length. split.
    + rewrite SO in B2. rewrite <- skip_skip in B2. rewrite B1 at 1. rewrite B2 at 1. unfold skip at 2. rewrite Nat2N.id. clear. generalize (skip k (octets_at h p)). generalize (List.length b2). induction (List.length b1) as [|n IH]; intros m x; [reflexivity|]. destruct x as [|a x]; [cbn; rewrite firstn_nil; reflexivity|]. cbn [firstn skipn app Nat.add]. f_equal. apply IH.
    + rewrite Nat2N.inj_add, N.add_assoc. exact ST2.
Qed.

(** ** Ports that are not open *)
Lemma set_same {X} i (x : X) l : nth_error l i = Some x -> set_nth i x l = l.
Proof. revert i. induction l as [|a l IH]; intros [|i] N; cbn in *; try discriminate; [injection N as ->; reflexivity|]. rewrite IH by exact N. reflexivity. Qed.
Lemma with_same h i q : nth_error (ports h) i = Some q -> with_port h i q (here h) = h.
Proof. intro N. unfold with_port. rewrite set_same by exact N. destruct h; reflexivity. Qed.
Lemma write_closed y v q w : kind q = NotOpen -> write_value y v q w = Ret (None, q, w).
Proof. intro K. destruct v; cbn [write_value]; unfold supports_output; rewrite K; reflexivity. Qed.
Lemma read_closed n q w : kind q = NotOpen -> read_octets n q w = Ret ([], q, w).
Proof. intro K. destruct n; cbn [read_octets]; [reflexivity|]. unfold port_read. rewrite K. reflexivity. Qed.
Lemma closed_calls y h i : not_open h i ->
  run_call y (CRead [VPort i]) h = Ret (AnError, h) /\ (forall n, run_call y (CRead [VPort i; VInt n]) h = Ret (AVec [], h)) /\ (forall v, run_call y (CWrite [VPort i; v]) h = Ret (AnError, h)) /\
  (forall n, run_call y (CSeek [VPort i; VInt n]) h = Ret (ABool false, h)) /\ (forall n, run_call y (CSeek [VPort i; VInt n; VSym]) h = Ret (ABool false, h)) /\ run_call y (CFlush [VPort i]) h = Ret (ABool false, h) /\
  run_call y (CClose [VPort i]) h = Ret (ABool false, h) /\ run_call y (CDist [VPort i]) h = Ret (AnInt (-1), h) /\ run_call y (CSupportsInput [VPort i]) h = Ret (ABool false, h) /\ run_call y (CSupportsOutput [VPort i]) h = Ret (ABool false, h).
Proof.
  intros (q & N & K). cbn [run_call]. unfold b_read, b_write, b_seek, b_flush, b_close, b_dist, b_supports, port_read, port_seek, port_flush, port_close, port_distance, supports_input, supports_output. rewrite N, K.
  cbn [obind]. rewrite (with_same h i q N). repeat split; try reflexivity.
  - intro n. rewrite (read_closed _ q (here h) K). cbn [obind]. rewrite (with_same h i q N). reflexivity.
  - intro v. rewrite (write_closed y v q (here h) K). cbn [obind]. rewrite (with_same h i q N). reflexivity.
Qed.
Lemma stays_closed y c h r h' i : wf h -> not_open h i -> run_call y c h = Ret (r, h') -> not_open h' i.
Proof.
  intros W (q & N & K) E. destruct (call_effect y c h r h' W E) as [(-> & _)|[(j & q0 & q' & w' & o & N0 & -> & A)|(p0 & k0 & q0 & w' & OA & -> & O)]]; [exists q; auto| |exists q; split; [apply snoc_nth, N|exact K]].
  unfold not_open. cbn [with_port ports]. setoid_rewrite nth_set. destruct (Nat.eqb j i) eqn:EJ; [|exists q; auto]. apply Nat.eqb_eq in EJ. subst j. rewrite N in N0. injection N0 as <-. rewrite N. exists q'. split; [reflexivity|].
  destruct (mv_kind _ _ _ _ _ (ac_moves _ _ _ _ _ _ _ _ A)) as [KK|KK]; congruence.
Qed.
Lemma history_closed y h l h' i : wf h -> history y h l h' -> not_open h i -> not_open h' i.
Proof. intros W H. induction H as [h|h c r h1 l h' E _ IH]; intro N; [exact N|]. apply IH; [eapply call_wf; eauto|eapply stays_closed; eauto]. Qed.
Lemma close_closes y h i r h' : wf h -> run_call y (CClose [VPort i]) h = Ret (r, h') -> not_open h' i.
Proof.
  intros W E. cbn [run_call] in E. unfold b_close in E. destruct (nth_error (ports h) i) as [q|] eqn:N; [|discriminate E]. destruct (port_close y q (here h)) as [((b, q'), w')| | | | |] eqn:PC; try discriminate E. cbn [obind] in E. injection E as <- <-.
  apply port_close_moves in PC as (_ & K & _); [|eapply wf_nth; eauto]. exists q'. split; [unfold with_port; cbn [ports]; rewrite nth_set, Nat.eqb_refl, N; reflexivity|exact K].
Qed.

(** ** The length *)
Lemma history_length y h l h' i q : wf h -> history y h l h' -> nth_error (ports h) i = Some q -> exists q', nth_error (ports h') i = Some q' /\ name q' = name q /\ (kind q' <> NotOpen -> kind q <> NotOpen /\ octet_count q' = octet_count q).
Proof.
  intros W H. revert q. induction H as [h|h c r h1 l h' E _ IH]; intros q N; [exists q; auto|].
  assert (X : exists q1, nth_error (ports h1) i = Some q1 /\ name q1 = name q /\ (kind q1 <> NotOpen -> kind q <> NotOpen /\ octet_count q1 = octet_count q)).
  { destruct (call_effect y c h r h1 W E) as [(-> & _)|[(j & q0 & q' & w' & o & N0 & -> & A)|(p0 & k0 & q0 & w' & OA & -> & O)]]; [exists q; auto| |exists q; split; [apply snoc_nth, N|auto]].
    cbn [with_port ports]. setoid_rewrite nth_set. destruct (Nat.eqb j i) eqn:EJ; [|exists q; auto]. apply Nat.eqb_eq in EJ. subst j. rewrite N in N0. injection N0 as <-. rewrite N. exists q'. split; [reflexivity|]. pose proof (ac_moves _ _ _ _ _ _ _ _ A) as M. split; [exact (mv_name _ _ _ _ _ M)|].
    intro K. split; [|exact (mv_count _ _ _ _ _ M K)]. destruct (mv_kind _ _ _ _ _ M) as [KK|KK]; congruence. }
  destruct X as (q1 & N1 & NM1 & K1). destruct (IH ltac:(eapply call_wf; eauto) q1 N1) as (q2 & N2 & NM2 & K2). exists q2. split; [exact N2|]. split; [congruence|]. intro K. destruct (K2 K) as (A & B). destruct (K1 A) as (C & D). split; [exact C|congruence].
Qed.

(** ** Calls that return *)
Lemma wf_supports_output w q : wf_port w q -> exists b, supports_output q = Ret b.
Proof. intros [(K & F & F2)|(K & _ & st & F & _)]; unfold supports_output; rewrite F; destruct (kind q); eauto; congruence. Qed.
Lemma wf_supports_input w q : wf_port w q -> exists b, supports_input q = Ret b.
Proof. intros [(K & F & F2)|(K & _ & st & F & _)]; unfold supports_input; rewrite F; destruct (kind q); eauto; congruence. Qed.
Lemma wf_file w q : wf_port w q -> kind q <> NotOpen -> exists st, file q = Some st.
Proof. intros [(K & F & F2)|(K & _ & st & F & _)] N; [contradiction|eauto]. Qed.
Lemma open_pending y b p w st w' : open_append y b p w = (Some st, w') -> pending st = [].
Proof. intro E. apply open_append_spec in E as (-> & _). reflexivity. Qed.
Lemma open_read_pending y p w st w' : open_read y p w = (Some st, w') -> pending st = [].
Proof. intro E. apply open_read_spec in E as (_ & X). destruct (X st eq_refl) as (-> & _). reflexivity. Qed.
Lemma new_input_fine y p w : exists q w', new_input y p w = Ret (q, w').
Proof.
  unfold new_input. destruct (open_read y p w) as ([st|], w1) eqn:O; [|eauto]. destruct (measure_fine y st w1 (open_read_pending y p w st w1 O)) as (n & st' & w' & ->). cbn [obind]. eauto.
Qed.
Lemma new_output_fine y p w : exists q w', new_output y p w = Ret (q, w').
Proof. unfold new_output. destruct (open_append y true p w) as ([st|], w1); eauto. Qed.
Lemma new_io_fine y p w : exists q w', new_io y p w = Ret (q, w').
Proof.
  unfold new_io. destruct (open_append y false p w) as ([st|], w1) eqn:O; [|eauto]. destruct (measure_fine y st w1 (open_pending y false p w st w1 O)) as (n & st' & w' & ->). cbn [obind]. eauto.
Qed.
Lemma b_open_fine make checked t h : (forall p w, exists q w', make p w = Ret (q, w') /\ wf_port w' q) -> Forall scalar t -> exists r h', b_open make checked [VStr t] h = Ret (r, h').
Proof.
  intros MK F. unfold b_open. destruct (get_c_string_scalar (text_str t) (or_introl eq_refl) F) as (s' & G & _). rewrite G. cbn [obind snd]. destruct (MK (cstr (utf8_text (ucs (text_str t)) ++ [0])) (here h)) as (q & w' & -> & WQ). cbn [obind].
  destruct checked; [|eexists; eexists; reflexivity]. destruct (wf_supports_output w' q WQ) as (b1 & ->). destruct (wf_supports_input w' q WQ) as (b2 & ->). cbn [obind]. destruct (b1 && b2); eexists; eexists; reflexivity.
Qed.

Definition unread (q : port) : Prop := forall st, file q = Some st -> last st <> Reading.
Definition unwritten (q : port) : Prop := forall st, file q = Some st -> last st <> Writing.
Lemma port_read_fine n q w : wf_port w q -> unwritten q -> exists o q' w', port_read n q w = Ret (o, q', w') /\ wf_port w' q' /\ unwritten q'.
Proof.
  intros W U. destruct (in_dec (fun x y : tag => ltac:(decide equality) : {x = y} + {x <> y}) (kind q) for_input) as [K|K].
  - assert (KN : kind q <> NotOpen) by (intro C; rewrite C in K; cbn in K; intuition discriminate). destruct (wf_file w q W KN) as (st & F).
    assert (X : exists o st' w', fread n st w = Ret (o, st', w')) by (unfold fread; specialize (U st F); destruct (last st); [eauto|eauto|contradiction]). destruct X as (o & st' & w' & FR).
    assert (E : port_read n q w = Ret (Some o, mkPort (name q) (kind q) (Some st') (octet_count q), w')) by (unfold port_read; rewrite F, FR; destruct (kind q); try reflexivity; cbn in K; intuition discriminate).
    exists (Some o), (mkPort (name q) (kind q) (Some st') (octet_count q)), w'. split; [exact E|]. apply port_read_moves in E as (M & _); [|exact W]. split; [exact (mv_wf _ _ _ _ _ M)|]. apply fread_reads in FR as (_ & _ & _ & _ & _ & _ & L). intros st0 F0. injection F0 as <-. exact L.
  - exists None, q, w. unfold port_read. destruct (kind q); try (exfalso; apply K; cbn; auto; fail); auto.
Qed.
Lemma read_octets_fine n : forall q w, wf_port w q -> unwritten q -> exists l q' w', read_octets n q w = Ret (l, q', w').
Proof.
  induction n as [|n IH]; intros q w W U; cbn [read_octets]; [eauto|]. destruct (port_read_fine 1 q w W U) as (o & q1 & w1 & -> & W1 & U1). cbn [obind]. destruct o as [[|b [|b2 t]]|]; eauto. destruct (IH q1 w1 W1 U1) as (l & q2 & w2 & ->). cbn [obind]. eauto.
Qed.
Lemma port_write_fine y o q w : wf_port w q -> unread q -> In (kind q) for_output -> exists k q' w', port_write y o q w = Ret (k, q', w') /\ wf_port w' q' /\ unread q' /\ kind q' = kind q /\ (0 <= k <= Z.of_N (len o))%Z.
Proof.
  intros W U K. destruct (wf_file w q W (out_not_closed q K)) as (st & F).
  assert (X : exists k st' w', fwrite y o st w = Ret (k, st', w')) by (unfold fwrite; specialize (U st F); destruct (last st); [|contradiction|]; destruct (drain _ _ w); eauto). destruct X as (k & st' & w' & FW).
  assert (E : port_write y o q w = Ret (Z.of_N k, mkPort (name q) (kind q) (Some st') (octet_count q), w')) by (unfold port_write; rewrite F, FW; destruct (kind q); try reflexivity; cbn in K; intuition discriminate).
  exists (Z.of_N k), (mkPort (name q) (kind q) (Some st') (octet_count q)), w'. split; [exact E|]. apply port_write_moves in E as [(C & _)|(_ & KK & R & M)]; [contradiction| |exact W]. split; [exact (mv_wf _ _ _ _ _ M)|]. apply fwrite_flows in FW as (_ & _ & L & _). split; [intros st0 F0; injection F0 as <-; rewrite L; discriminate|]. auto.
Qed.
Lemma write_value_fine y v : forall q w, wf_port w q -> unread q -> scalar_value v -> (size v <= INT32_MAX)%Z -> exists k q' w', write_value y v q w = Ret (k, q', w') /\ wf_port w' q' /\ unread q'.
Proof.
  assert (TEXT : forall t q w, Forall scalar t -> wf_port w q -> unread q -> In (kind q) for_output -> exists k q' w', write_text y t q w = Ret (k, q', w') /\ wf_port w' q' /\ unread q').
  { intros t q w F W U O. unfold write_text. rewrite octets_to_write_fine by exact F. cbn [obind]. destruct (port_write_fine y (utf8_text t) q w W U O) as (k & q' & w' & -> & W' & U' & _). cbn [obind]. destruct (k =? _)%Z; eauto 8. }
  induction v as [z|t|t|l IH| |i|] using value_rec2; intros q w W U SC LE.
  4: { rewrite write_vec. destruct (wf_supports_output w q W) as (b & SO). rewrite SO. cbn [obind]. destruct b; [|eauto 8]. assert (O : In (kind q) for_output) by (apply (supports_output_spec w q true W SO); reflexivity).
       assert (X : forall c, (0 <= c)%Z -> (c + sizes l <= INT32_MAX)%Z -> exists k q' w', write_all y l c q w = Ret (k, q', w') /\ wf_port w' q' /\ unread q'); [|apply X; [lia|exact LE]].
       clear SO LE. cbn [scalar_value] in SC. fold (scalar_values l) in SC. revert q w W U O SC. induction IH as [|v l IHv _ IHl]; intros q w W U O SC c C0 LE; cbn [write_all]; [eauto 8|]. destruct SC as (SC1 & SC2). cbn [sizes] in LE. pose proof (size_nonneg v) as N1. pose proof (sizes_nonneg l) as N2.
       destruct (IHv q w W U SC1 ltac:(lia)) as (k & q1 & w1 & E1 & W1 & U1). rewrite E1. cbn [obind]. destruct k as [k|]; [|eauto 8]. destruct (write_value_wrote y v q w (Some k) q1 w1 W E1) as [(NO & _)|(_ & K1 & o & M & S)]; [contradiction|]. destruct (S k eq_refl SC1 ltac:(lia)) as (R & _).
       unfold int32_op. assert (in_int32 (c + k) = true) as ->. { unfold in_int32, INT32_MIN. apply andb_true_intro. split; apply Z.leb_le; lia. } cbn [obind]. apply IHl; auto; try lia. congruence. }
  all: cbn [write_value]; destruct (wf_supports_output w q W) as (b & SO); rewrite SO; cbn [obind]; destruct b; [|eauto 8]; assert (O : In (kind q) for_output) by (apply (supports_output_spec w q true W SO); reflexivity).
  - destruct (port_write_fine y [octet_of z] q w W U O) as (k & q' & w' & -> & W' & U' & _ & R). cbn [obind]. assert ((k <? 0)%Z = false) as -> by (apply Z.ltb_ge; lia). eauto 8.
  - apply TEXT; assumption.
  - apply TEXT; assumption.
  - eauto 8.
  - eauto 8.
  - eauto 8.
Qed.
Lemma new_copy_fine y q w : wf_port w q -> opens y (time w) = true -> exists q' w', new_copy y q w = Ret (q', w').
Proof.
  intros W O. unfold new_copy. destruct (kind q) eqn:K.
  - destruct W as [(C & _)|(_ & D & _)]; [congruence|]. destruct (open_read y (name q) w) as ([st|], w1) eqn:OR.
    + destruct (measure_fine y st w1 (open_read_pending _ _ _ _ _ OR)) as (n & st' & w' & ->). cbn [obind]. eauto.
    + unfold open_read in OR. destruct (disk w (name q)); [|contradiction]. rewrite O in OR. discriminate OR.
  - destruct (open_append y true (name q) w) as ([st|], w1) eqn:OR; [eauto|]. unfold open_append in OR. rewrite O in OR. discriminate OR.
  - destruct (open_append y false (name q) w) as ([st|], w1) eqn:OR.
    + destruct (measure_fine y st w1 (open_pending _ _ _ _ _ _ OR)) as (n & st' & w' & ->). cbn [obind]. eauto.
    + unfold open_append in OR. rewrite O in OR. discriminate OR.
  - eauto.
Qed.
Lemma there_nth h i : there h i -> exists q, nth_error (ports h) i = Some q.
Proof. intro T. destruct (nth_error (ports h) i) eqn:N; [eauto|]. apply nth_error_None in N. unfold there in T. lia. Qed.

Theorem fine_returns y h c : wf h -> fine y h c -> exists r h', run_call y c h = Ret (r, h').
Proof.
  intros W FI. destruct c as [a|a|a|a|a|a|a|a|a|a|a|a|i|i]; cbn [run_call fine] in *.
  - destruct a as [|v [|v2 a]]; [eexists; eexists; reflexivity| |destruct v; eexists; eexists; reflexivity]. destruct FI as (t & -> & F). apply b_open_fine; [|exact F]. intros p w. destruct (new_input_fine y p w) as (q & w' & E). exists q, w'. split; [exact E|]. apply (op_wf _ _ _ _ _ (new_input_opened _ _ _ _ _ E)).
  - destruct a as [|v [|v2 a]]; [eexists; eexists; reflexivity| |destruct v; eexists; eexists; reflexivity]. destruct FI as (t & -> & F). apply b_open_fine; [|exact F]. intros p w. destruct (new_output_fine y p w) as (q & w' & E). exists q, w'. split; [exact E|]. apply (op_wf _ _ _ _ _ (new_output_opened _ _ _ _ _ E)).
  - destruct a as [|v [|v2 a]]; [eexists; eexists; reflexivity| |destruct v; eexists; eexists; reflexivity]. destruct FI as (t & -> & F). apply b_open_fine; [|exact F]. intros p w. destruct (new_io_fine y p w) as (q & w' & E). exists q, w'. split; [exact E|]. apply (op_wf _ _ _ _ _ (new_io_opened _ _ _ _ _ E)).
  - unfold b_close. destruct a as [|v [|v2 a]]; [eauto| |destruct v; eauto]. destruct FI as (i & -> & T). destruct (there_nth h i T) as (q & N). rewrite N. pose proof (wf_nth h i q W N) as WP. unfold port_close. destruct (kind q) eqn:K; try (cbn [obind]; eauto; fail).
    all: destruct (wf_file _ q WP ltac:(congruence)) as (st & ->). all: destruct (fclose y st (here h)); cbn [obind]; eauto.
  - unfold b_read. destruct a as [|[z|t|t|l| |i|] a]; eauto. destruct FI as (q & N & U). pose proof (wf_nth h i q W N) as WP. destruct a as [|v [|v2 a]]; [| |destruct v; eauto].
    + rewrite N. destruct (port_read_fine 1 q (here h) WP U) as (o & q' & w' & -> & _). cbn [obind]. destruct o as [[|b [|b2 t]]|]; eauto.
    + destruct v; eauto. rewrite N. destruct (read_octets_fine (Z.to_nat z) q (here h) WP U) as (l & q' & w' & ->). cbn [obind]. eauto.
  - unfold b_write. destruct a as [|[z|t|t|l| |i|] [|v [|v2 a]]]; eauto. destruct FI as ((q & N & U) & SC & LE). pose proof (wf_nth h i q W N) as WP. rewrite N. destruct (write_value_fine y v q (here h) WP U SC LE) as (k & q' & w' & -> & _). cbn [obind]. eauto.
  - unfold b_seek. destruct a as [|[z|t|t|l| |i|] a]; eauto. destruct (there_nth h i FI) as (q & N). pose proof (wf_nth h i q W N) as WP.
    assert (X : forall n hr, exists b q' w', port_seek y n hr q (here h) = Ret (b, q', w')).
    { intros n hr. unfold port_seek. destruct (kind q) eqn:K; eauto. all: destruct (wf_file _ q WP ltac:(congruence)) as (st & ->). all: destruct (n <? 0)%Z; match goal with |- context [fseek ?a1 ?a2 ?a3 ?a4 ?a5] => destruct (fseek a1 a2 a3 a4 a5) as ((?, ?), ?) end; eauto. }
    cbv zeta. destruct a as [|[z|t|t|l| |j|] a]; try (eexists; eexists; reflexivity). destruct a as [|[z2|t2|t2|l2| |j2|] a]; try (eexists; eexists; reflexivity); [|destruct a as [|v a]; try (eexists; eexists; reflexivity)]; rewrite N.
    + destruct (X z false) as (b & q' & w' & ->). cbn [obind]. eauto.
    + destruct (X z true) as (b & q' & w' & ->). cbn [obind]. eauto.
  - unfold b_dist. destruct a as [|[z|t|t|l| |i|] [|v a]]; eauto. destruct (there_nth h i FI) as (q & N). pose proof (wf_nth h i q W N) as WP. rewrite N. unfold port_distance. destruct (kind q) eqn:K; try (cbn [obind]; eauto; fail).
    all: destruct (wf_file _ q WP ltac:(congruence)) as (st & ->); cbn [obind]; eauto.
  - unfold b_length. destruct a as [|[z|t|t|l| |i|] [|v a]]; eauto. destruct (there_nth h i FI) as (q & N). rewrite N. eauto.
  - unfold b_flush. destruct a as [|[z|t|t|l| |i|] [|v a]]; eauto. destruct (there_nth h i FI) as (q & N). pose proof (wf_nth h i q W N) as WP. rewrite N. unfold port_flush. destruct (kind q) eqn:K; try (cbn [obind]; eauto; fail).
    all: destruct (wf_file _ q WP ltac:(congruence)) as (st & ->); destruct (fflush y st (here h)) as ((?, ?), ?); cbn [obind]; eauto.
  - unfold b_supports. destruct a as [|[z|t|t|l| |i|] [|v a]]; eauto. destruct (there_nth h i FI) as (q & N). pose proof (wf_nth h i q W N) as WP. rewrite N. destruct (wf_supports_output _ q WP) as (b & ->). cbn [obind]. eauto.
  - unfold b_supports. destruct a as [|[z|t|t|l| |i|] [|v a]]; eauto. destruct (there_nth h i FI) as (q & N). pose proof (wf_nth h i q W N) as WP. rewrite N. destruct (wf_supports_input _ q WP) as (b & ->). cbn [obind]. eauto.
  - destruct FI as (T & O). unfold copy_port. destruct (there_nth h i T) as (q & N). rewrite N. destruct (new_copy_fine y q (here h) (wf_nth h i q W N) O) as (q' & w' & ->). cbn [obind]. eexists; eexists; reflexivity.
  - destruct FI as (T & SY). unfold release_port. destruct (there_nth h i T) as (q & N). rewrite N. pose proof (wf_nth h i q W N) as WP.
    assert (X : exists w', release y q (here h) = Ret w').
    { unfold release. destruct (kind q) eqn:K; eauto. all: destruct (wf_file _ q WP ltac:(congruence)) as (st & ->). all: unfold fclose, fflush; destruct (pending st) as [|b o]; eauto. all: rewrite SY; destruct (drain _ st (here h)); eauto. }
    destruct X as (w' & ->). cbn [obind]. eauto.
Qed.

(** ** Additions: seeking in general, opening, writing and reading back *)
Lemma seek_to_aim n hr k m : seek_to n hr k m = seek_aim n hr k m.
Proof. reflexivity. Qed.
Lemma fseek_stands y off from st w b st' w' : fseek y off from st w = (b, st', w') ->
  if b then let t := aim from (position st) (len (content w' (at_path st))) off in (0 <= t)%Z /\ position st' = Z.to_N t else position st' = position st.
Proof.
  intro E. unfold fseek in E. destruct (fflush y st w) as ((ok, st1), w1) eqn:F. apply fflush_flows in F as (F & Q & P & A & L). destruct ok.
  - destruct (_ <? 0)%Z eqn:B; injection E as <- <- <-; cbn [position]; [reflexivity|]. cbv zeta. unfold aim. rewrite Q in *. rewrite (fl_path _ _ _ _ _ _ F) in *. apply Z.ltb_ge in B. split; [|reflexivity]. destruct from; lia.
  - injection E as <- <- <-. exact Q.
Qed.
Lemma seek_stands y h i p k n hr r h' : wf h -> stands h i p k -> run_call y (seek_call_of i n hr) h = Ret (r, h') ->
  exists b, r = ABool b /\ (if b then let t := seek_to n hr k (octet_length h' p) in (0 <= t)%Z /\ stands h' i p (Z.to_N t) else stands h' i p k).
Proof.
  intros W ST E. destruct (stands_stream h i p k W ST) as (q & st & N & NM & K & F & P & AP & WP). unfold seek_call_of in E.
  assert (X : exists b q' w', port_seek y n hr q (here h) = Ret (b, q', w') /\ r = ABool b /\ h' = with_port h i q' w').
  { cbn [run_call] in E. unfold b_seek in E. destruct hr; rewrite N in E; (destruct (port_seek y n _ q (here h)) as [((b, q'), w')| | | | |]; try discriminate E); cbn [obind] in E; injection E as <- <-; exists b, q', w'; auto. }
  destruct X as (b & q' & w' & PS & -> & ->). exists b. split; [reflexivity|].
  assert (Y : exists st', q' = mkPort (name q) (kind q) (Some st') (octet_count q) /\ if b then let t := seek_aim n hr k (len (content w' p)) in (0 <= t)%Z /\ position st' = Z.to_N t else position st' = k).
  { unfold port_seek in PS. rewrite F in PS. destruct (kind q) eqn:KQ; [| | |cbn in K; intuition discriminate].
    all: destruct (n <? 0)%Z eqn:NN; match type of PS with context [fseek ?a1 ?a2 ?a3 ?a4 ?a5] => destruct (fseek a1 a2 a3 a4 a5) as ((b1, st1), w1) eqn:FS end; injection PS as <- <- <-; exists st1; (split; [reflexivity|]); apply fseek_stands in FS; rewrite AP, NM, P in FS; destruct b1; [|exact FS| |exact FS].
    all: cbv zeta in *; unfold aim in FS; unfold seek_aim; rewrite ?NN; destruct hr; destruct FS as (FA & FB); split; rewrite ?FB; try f_equal; lia. }
  destruct Y as (st' & -> & Y). assert (SW : stands (with_port h i (mkPort (name q) (kind q) (Some st') (octet_count q)) w') i p (position st')) by (eapply stands_with; cbn; eauto).
  destruct b.
  - cbv zeta in *. destruct Y as (Y1 & Y2). unfold octet_length, octets_at, file_at. cbn [with_port here]. fold (content w' p). rewrite seek_to_aim. split; [exact Y1|]. unfold len in *. rewrite <- Y2. exact SW.
  - rewrite <- Y. exact SW.
Qed.
Lemma input_nothing_waits h i p : wf h -> is_open [IsInput] h i p -> forall q st, nth_error (ports h) i = Some q -> file q = Some st -> pending st = [].
Proof.
  intros W (q0 & N0 & _ & K) q st N F. rewrite N in N0. injection N0 as <-. destruct (wf_nth h i q W N) as [(KN & FN & _)|(_ & _ & st' & F' & _ & X)]; [congruence|]. rewrite F in F'. injection F' as <-. apply X. cbn in K. intuition congruence.
Qed.

Definition kind_of_call (c : call) : tag := match c with COpenInput _ => IsInput | COpenOutput _ => IsOutput | _ => IsIo end.
Lemma open_call y c h p r h1 : opens_path p c -> run_call y c h = Ret (r, h1) ->
  exists q w', h1 = mkHost (ports h ++ [q]) w' /\ opened p (here h) q w' (kind_of_call c) /\ (r = APort (List.length (ports h)) \/ (r = AnError /\ kind q = NotOpen)) /\
    (kind q <> NotOpen <-> opens y (time (here h)) = true /\ (kind_of_call c = IsInput -> file_at h p <> None)).
Proof.
  intros (t & F & PT & C) E. destruct (get_c_string_scalar (text_str t) (or_introl eq_refl) F) as (s' & G & _).
  assert (CP : cstr (utf8_text (ucs (text_str t)) ++ [0]) = p).
  { assert (X : octets_of t = Ret (cstr (utf8_text (ucs (text_str t)) ++ [0]))) by (unfold octets_of; rewrite G; reflexivity). apply octets_spec in X. rewrite (X F). exact PT. }
  assert (OPEN : forall make checked k, (forall q w', make p (here h) = Ret (q, w') -> opened p (here h) q w' k /\ (checked = true -> kind q = IsIo \/ kind q = NotOpen) /\ (kind q <> NotOpen <-> opens y (time (here h)) = true /\ (k = IsInput -> file_at h p <> None))) -> b_open make checked [VStr t] h = Ret (r, h1) ->
    exists q w', h1 = mkHost (ports h ++ [q]) w' /\ opened p (here h) q w' k /\ (r = APort (List.length (ports h)) \/ (r = AnError /\ kind q = NotOpen)) /\ (kind q <> NotOpen <-> opens y (time (here h)) = true /\ (k = IsInput -> file_at h p <> None))).
  { intros make checked k MK B. unfold b_open in B. rewrite G in B. cbn [obind snd] in B. rewrite CP in B. destruct (make p (here h)) as [(q, w')| | | | |]; try discriminate B. cbn [obind] in B. destruct (MK q w' eq_refl) as (O & CK & IFF). exists q, w'.
    destruct checked; [|injection B as <- <-; auto]. destruct (wf_supports_output w' q (op_wf _ _ _ _ _ O)) as (b1 & S1). destruct (wf_supports_input w' q (op_wf _ _ _ _ _ O)) as (b2 & S2). rewrite S1, S2 in B. cbn [obind] in B.
    destruct (CK eq_refl) as [KQ|KQ]; unfold supports_output, supports_input in S1, S2; rewrite KQ in S1, S2.
    - destruct (file q); [|discriminate S1]. injection S1 as <-. injection S2 as <-. cbn [andb] in B. injection B as <- <-. auto.
    - injection S1 as <-. injection S2 as <-. cbn [andb] in B. injection B as <- <-. auto 6. }
  destruct C as [-> |[-> | ->]]; cbn [run_call kind_of_call] in *; unfold b_input_open, b_output_open, b_io_open in E; (eapply OPEN; [|exact E]); intros q w' M.
  - split; [apply (new_input_opened y), M|]. split; [discriminate|]. unfold new_input, open_read in M. unfold file_at. destruct (disk (here h) p) eqn:D; [destruct (opens y (time (here h))) eqn:O|].
    + destruct (measure y _ _) as [((n, st'), w2)| | | | |]; try discriminate M. cbn [obind] in M. injection M as <- <-. cbn [kind]. intuition discriminate.
    + injection M as <- <-. cbn [kind]. intuition discriminate.
    + injection M as <- <-. cbn [kind]. split; [congruence|]. intros (_ & X). exfalso. apply X; reflexivity.
  - split; [apply (new_output_opened y), M|]. split; [discriminate|]. unfold new_output, open_append in M. destruct (opens y (time (here h))) eqn:O; injection M as <- <-; cbn [kind]; intuition discriminate.
  - split; [apply (new_io_opened y), M|]. split; [intros _; destruct (op_kind _ _ _ _ _ (new_io_opened y p (here h) q w' M)); auto|]. unfold new_io, open_append in M. destruct (opens y (time (here h))) eqn:O.
    + destruct (measure y _ _) as [((n, st'), w2)| | | | |]; try discriminate M. cbn [obind] in M. injection M as <- <-. cbn [kind]. intuition discriminate.
    + injection M as <- <-. cbn [kind]. intuition discriminate.
Qed.
Lemma opened_same p w q w' k p' : opened p w q w' k -> content w' p' = content w p'.
Proof.
  intro O. destruct (path_dec p' p) as [->|D]; [|unfold content; rewrite (op_only _ _ _ _ _ O p' D); reflexivity].
  destruct (in_dec (fun x y : tag => ltac:(decide equality) : {x = y} + {x <> y}) (kind q) for_output) as [K|K]; [apply (op_text _ _ _ _ _ O K)|]. unfold content. rewrite (op_quiet _ _ _ _ _ O K p). reflexivity.
Qed.

(** Writing a value, going back by its size and reading so many octets. *)
Lemma spelled_octets v o : spelled v o -> scalar_value v -> Forall octet o /\ Z.of_nat (List.length o) = size v.
Proof.
  assert (TX : forall t, Forall scalar t -> Forall octet (utf8_text t)).
  { intros t F. unfold utf8_text. induction F as [|c t C _ IH]; [constructor|]. cbn [map List.concat]. apply Forall_app. split; [|exact IH]. apply Utf8Proofs.utf8_octets. unfold scalar in C. lia. }
  intro S. induction S as [z b B|t o T|t o T| |v l o o' S1 IH1 S2 IH2]; intro SC.
  - split; [|reflexivity]. constructor; [|constructor]. unfold octet. pose proof (Z.mod_pos_bound z 256). lia.
  - cbn [scalar_value size] in *. rewrite (T SC). split; [apply TX, SC|reflexivity].
  - cbn [scalar_value size] in *. rewrite (T SC). split; [apply TX, SC|reflexivity].
  - split; [constructor|reflexivity].
  - cbn [scalar_value] in SC. destruct SC as (SA & SB). destruct (IH1 SA) as (A1 & A2). destruct (IH2 SB) as (B1 & B2). split; [apply Forall_app; auto|]. rewrite app_length. cbn [size] in *. lia.
Qed.
Lemma io_stands h i p : wf h -> is_open [IsIo] h i p -> exists k, stands h i p k.
Proof.
  intros W (q & N & NM & K). cbn in K. destruct K as [K|[]]. destruct (wf_file _ q (wf_nth h i q W N) ltac:(congruence)) as (st & F). exists (position st), q, st. repeat split; auto. rewrite <- K. right. left. reflexivity.
Qed.
Lemma write_read_back y h i p v h1 b h2 r h3 : wf h -> is_open [IsIo] h i p -> scalar_value v -> (size v < INT32_MAX)%Z ->
  run_call y (CWrite [VPort i; v]) h = Ret (AnInt (size v), h1) -> run_call y (seek_call_of i (- (1 + size v)) false) h1 = Ret (ABool b, h2) -> b = true -> run_call y (CRead [VPort i; VInt (size v)]) h2 = Ret (r, h3) ->
  exists o l, spelled v o /\ r = AVec l /\ Forall2 read_as o l.
Proof.
  intros W OP SC LE WR SK -> RD. destruct (call_wf _ _ _ _ _ W WR) as (W1 & _). destruct (call_wf _ _ _ _ _ W1 SK) as (W2 & _).
  destruct OP as (q & N & NM & K). cbn in K. destruct K as [K|[]]. assert (KO : In (kind q) for_output) by (rewrite <- K; right; left; reflexivity).
  destruct (call_effect y _ h _ h1 W WR) as [(_ & X & _)|[(j & q0 & q1 & w1 & o & N0 & H1 & A)|(p0 & k0 & q0 & w' & OA & _)]]; [specialize (X i); cbn in X; rewrite Nat.eqb_refl in X; discriminate X| |destruct OA].
  pose proof (ac_target _ _ _ _ _ _ _ _ A) as TG. cbn in TG. subst j. rewrite N in N0. injection N0 as <-.
  assert (SP : spelled v o) by (apply (ac_written _ _ _ _ _ _ _ _ A v); [cbn; rewrite Nat.eqb_refl; reflexivity|reflexivity|exact SC|lia]).
  pose proof (ac_moves _ _ _ _ _ _ _ _ A) as M. pose proof (ac_moved _ _ _ _ _ _ _ _ A) as KM.
  assert (K1 : kind q1 = kind q).
  { clear KM. cbn [run_call] in WR. unfold b_write in WR. rewrite N in WR. destruct (write_value y v q (here h)) as [((kk, q'), w')| | | | |] eqn:WV; try discriminate WR. cbn [obind] in WR. injection WR as _ WR. apply write_value_wrote in WV; [|eapply wf_nth; eauto].
    assert (Q1 : Some q1 = Some q') by (apply (f_equal ports) in WR; rewrite H1 in WR; unfold with_port in WR; cbn [ports] in WR; apply (f_equal (fun l => nth_error l i)) in WR; rewrite !nth_set, Nat.eqb_refl, N in WR; symmetry; exact WR).
    injection Q1 as ->. destruct WV as [(C & _)|(_ & KK & _)]; [contradiction|exact KK]. }
  destruct (mv_text _ _ _ _ _ M KO) as (st & rest & F & T & R). destruct R as (st1 & F1 & P1); [rewrite K1, <- K; discriminate|].
  assert (N1 : nth_error (ports h1) i = Some q1) by (rewrite H1; unfold with_port; cbn [ports]; rewrite nth_set, Nat.eqb_refl, N; reflexivity).
  assert (ST1 : stands h1 i p (position st1)) by (exists q1, st1; repeat split; [exact N1|rewrite (mv_name _ _ _ _ _ M); exact NM|rewrite K1, <- K; right; left; reflexivity|exact F1]).
  destruct (seek_stands y h1 i p _ _ _ _ _ W1 ST1 SK) as (b & B & SS). injection B as <-. cbv zeta in SS. destruct SS as (TP & ST2).
  assert (C2 : octets_at h2 p = content_at h p ++ pending st ++ o).
  { destruct (call_effect y _ h1 _ h2 W1 SK) as [(_ & _ & X)|[(j & q0 & q2 & w2 & o2 & N0 & H2 & A2)|(p0 & k0 & q0 & w' & OA & _)]]; [exfalso; apply (X i); [right; right; eexists; eexists; reflexivity|reflexivity]| |destruct OA].
    pose proof (ac_target _ _ _ _ _ _ _ _ A2) as TG. cbn in TG. subst j. rewrite N1 in N0. injection N0 as <-. destruct (ac_passed _ _ _ _ _ _ _ _ A2) as (st2 & F2 & T2); [right; right; eexists; eexists; reflexivity|reflexivity|rewrite K1; exact KO|].
    rewrite F1 in F2. injection F2 as <-. rewrite H2. unfold octets_at, file_at. cbn [with_port here]. fold (content w2 p). rewrite (mv_name _ _ _ _ _ M), NM in T2. rewrite T2, P1. rewrite H1. cbn [with_port here]. unfold content_at. rewrite <- NM. exact T. }
  destruct (spelled_octets v o SP SC) as (OO & OL). unfold octet_length in ST2, TP. rewrite C2 in ST2, TP.
  assert (SZ : (0 <= size v)%Z) by lia. unfold seek_to in ST2, TP. replace (- (1 + size v) <? 0)%Z with true in ST2, TP by (symmetry; apply Z.ltb_lt; lia).
  destruct (read_call y h2 i p _ [VInt (size v)] r h3 W2 ST2 RD) as (n & NU & _ & _ & _ & RV). destruct (RV (size v) eq_refl) as (-> & l & ->). cbn [numbers] in NU. exists o, l. split; [exact SP|]. split; [reflexivity|]. subst l.
  rewrite C2. rewrite app_assoc. assert (SK2 : forall a c : list BinNums.N, skip (Z.to_N (Z.of_N (N.of_nat (List.length (a ++ c))) + - (1 + size v) + 1)) (a ++ c) = c \/ Z.of_nat (List.length c) <> size v).
  { intros a c. destruct (Z.eq_dec (Z.of_nat (List.length c)) (size v)) as [E|E]; [left|auto]. unfold skip. replace (N.to_nat _) with (List.length a) by (rewrite app_length; lia). rewrite skipn_app, skipn_all, Nat.sub_diag. reflexivity. }
  destruct (SK2 (content_at h p ++ pending st) o) as [->|C]; [|contradiction]. replace (Z.to_nat (size v)) with (List.length o) by lia. rewrite firstn_all.
  clear -OO. induction OO as [|x o OX _ IH]; constructor; [apply signed_octet_spec, OX|exact IH].
Qed.
