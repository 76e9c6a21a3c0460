(** Proofs about file ports (C109-C113). *)
From Coq Require Import List NArith ZArith Bool Lia.
From Verif Require Import Base SpecText SpecDefine SpecOutput OString OStringProofs ValueOps Builtins OutputProofs Port SpecPort.
Import ListNotations.
Local Open Scope N_scope.

Definition same (w w' : world) : Prop := forall p, disk w' p = disk w p.
Definition only (p : path) (w w' : world) : Prop := forall q, q <> p -> disk w' q = disk w q.
Definition grows (w w' : world) : Prop := forall p o, disk w p = Some o -> exists o', disk w' p = Some (o ++ o').

Lemma same_grows w w' : same w w' -> grows w w'.
Proof. intros H p o E. exists []. rewrite H, app_nil_r. exact E. Qed.
Lemma grows_trans w w1 w2 : grows w w1 -> grows w1 w2 -> grows w w2.
Proof. intros A B p o E. destruct (A p o E) as (o1 & E1). destruct (B p _ E1) as (o2 & E2). exists (o1 ++ o2). rewrite app_assoc. exact E2. Qed.
Lemma only_trans p w w1 w2 : only p w w1 -> only p w1 w2 -> only p w w2.
Proof. intros A B q H. rewrite (B q H). apply A, H. Qed.
Lemma same_content w w' p : same w w' -> content w' p = content w p.
Proof. intro H. unfold content. rewrite H. reflexivity. Qed.
Lemma same_only p w w' : same w w' -> only p w w'.
Proof. intros H q _. apply H. Qed.
Lemma same_trans w w1 w2 : same w w1 -> same w1 w2 -> same w w2.
Proof. intros A B q. rewrite B. apply A. Qed.
Lemma content_only p q w w' : only p w w' -> q <> p -> content w' q = content w q.
Proof. intros H N. unfold content. rewrite H by exact N. reflexivity. Qed.

Lemma put_same p o f : put_file p o f p = Some o.
Proof. unfold put_file. destruct (path_dec p p); [reflexivity|contradiction]. Qed.
Lemma put_other p o f q : q <> p -> put_file p o f q = f q.
Proof. intro H. unfold put_file. destruct (path_dec p q); [congruence|reflexivity]. Qed.

Lemma take_skip n l : take n l ++ skip n l = l.
Proof. apply firstn_skipn. Qed.
Lemma take_all l : take (len l) l = l.
Proof. unfold take, len. rewrite Nat2N.id. apply firstn_all. Qed.
Lemma skip_all l : skip (len l) l = [].
Proof. unfold skip, len. rewrite Nat2N.id. apply skipn_all. Qed.
Lemma len_app a b : len (a ++ b) = len a + len b.
Proof. unfold len. rewrite app_length. lia. Qed.

(** ** Streams *)
(** [st], [w] became [st'], [w'], and [o] was added to what is written to the file. *)
Record flows (p : path) (st : stream) (w : world) (st' : stream) (w' : world) (o : list N) : Prop := mkFlows {
  fl_path : at_path st' = p;
  fl_text : content w' p ++ pending st' = content w p ++ pending st ++ o;
  fl_only : only p w w';
  fl_grows : grows w w';
  fl_idle : pending st = [] -> o = [] -> same w w' /\ pending st' = [] }.

Lemma drain_flows n st w st' w' : drain n st w = (st', w') -> flows (at_path st) st w st' w' [] /\ position st' = position st /\ last st' = last st /\
  (n = len (pending st) -> pending st' = []).
Proof.
  intro E. unfold drain in E. destruct (take n (pending st)) as [|b o] eqn:T.
  - injection E as <- <-. split; [split; cbn; auto|split; [reflexivity|split; [reflexivity|]]].
    + rewrite app_nil_r. reflexivity.
    + intros q _. reflexivity.
    + apply same_grows. intro q. reflexivity.
    + intros P _. split; [intro q; reflexivity|exact P].
    + intros ->. rewrite take_all in T. exact T.
  - rewrite <- T in E. injection E as <- <-. cbn [pending position last]. split; [split; cbn [at_path pending]|split; [reflexivity|split; [reflexivity|]]].
    + reflexivity.
    + unfold content at 1. cbn [disk tick]. rewrite put_same, <- app_assoc, take_skip, app_nil_r. reflexivity.
    + intros q N. cbn [disk tick]. apply put_other, N.
    + intros q x Q. cbn [disk tick]. destruct (path_dec q (at_path st)) as [->|N].
      * rewrite put_same. exists (take n (pending st)). unfold content. rewrite Q. reflexivity.
      * rewrite put_other by exact N. exists []. rewrite app_nil_r. exact Q.
    + intros P _. rewrite P in T. unfold take in T. rewrite firstn_nil in T. discriminate T.
    + intros ->. apply skip_all.
Qed.

Lemma flows_refl st w w' : same w w' -> flows (at_path st) st w st w' [].
Proof.
  intro S. split; [reflexivity| | | |].
  - rewrite app_nil_r, (same_content w w' _ S). reflexivity.
  - apply same_only, S.
  - apply same_grows, S.
  - auto.
Qed.
Lemma flows_trans p st w st1 w1 st2 w2 o o' : flows p st w st1 w1 o -> flows p st1 w1 st2 w2 o' -> flows p st w st2 w2 (o ++ o').
Proof.
  intros [A1 A2 A3 A4 A5] [B1 B2 B3 B4 B5]. split.
  - exact B1.
  - rewrite B2, app_assoc, A2, <- !app_assoc. reflexivity.
  - eapply only_trans; eauto.
  - eapply grows_trans; eauto.
  - intros P O. apply app_eq_nil in O as [-> ->]. destruct (A5 P eq_refl) as (S1 & P1). destruct (B5 P1 eq_refl) as (S2 & P2). split; [|exact P2]. eapply same_trans; eauto.
Qed.
(** Position and direction do not matter. *)
Lemma flows_other p st w st' w' o n d : flows p st w st' w' o -> flows p st w (mkStream (at_path st') n (pending st') d) w' o.
Proof. intros [A1 A2 A3 A4 A5]. split; auto. Qed.

Lemma fwrite_flows y o st w k st' w' : fwrite y o st w = Ret (k, st', w') -> flows (at_path st) st w st' w' (take k o) /\ k <= len o /\ last st' = Writing /\ last st <> Reading /\
  position st' = len (content w' (at_path st)) + len (pending st').
Proof.
  intro E. unfold fwrite in E. assert (N : last st <> Reading) by (intro L; rewrite L in E; discriminate E).
  assert (E' : (let k := N.min (len o) (takes y (time w)) in
      let (st', w') := drain (drains y (time w)) (mkStream (at_path st) (position st) (pending st ++ take k o) Writing) w in
      Ret (k, mkStream (at_path st') (len (content w' (at_path st')) + len (pending st')) (pending st') Writing, w')) = Ret (k, st', w')) by (destruct (last st); [exact E|contradiction|exact E]). clear E.
  cbv zeta in E'. destruct (drain _ _ w) as (st1, w1) eqn:D. injection E' as <- <- <-. apply drain_flows in D as (F & P & L & _). cbn [at_path pending last position] in *.
  split; [|split; [lia|split; [reflexivity|split; [exact N|]]]].
  - destruct F as [A1 A2 A3 A4 A5]. cbn [pending] in *. split; cbn [at_path pending]; auto.
    + rewrite A2, app_nil_r. reflexivity.
    + intros P0 T. apply A5; [rewrite P0, T; reflexivity|reflexivity].
  - rewrite (fl_path _ _ _ _ _ _ F). reflexivity.
Qed.
Lemma fread_reads n st w o st' w' : fread n st w = Ret (o, st', w') -> o = take n (skip (position st) (content w (at_path st))) /\ same w w' /\ at_path st' = at_path st /\ pending st' = pending st /\
  position st' = position st + len o /\ last st <> Writing /\ last st' <> Writing.
Proof.
  intro E. unfold fread in E. destruct (last st); try discriminate E; injection E as <- <- <-; cbn [at_path pending position last]; repeat split; try discriminate;
    destruct (_ <? n); discriminate.
Qed.
Lemma fflush_flows y st w b st' w' : fflush y st w = (b, st', w') -> flows (at_path st) st w st' w' [] /\ position st' = position st /\ (b = true -> pending st' = []) /\
  (pending st = [] -> b = true) /\ last st' = (if b then settled (last st) else last st).
Proof.
  intro E. unfold fflush in E. destruct (pending st) as [|x o] eqn:P.
  - injection E as <- <- <-. assert (S : same w (tick w)) by (intro q; reflexivity). split; [|auto]. split; cbn [at_path pending].
    + reflexivity.
    + rewrite P, !app_nil_r. reflexivity.
    + apply same_only, S.
    + apply same_grows, S.
    + auto.
  - rewrite <- P in E. destruct (syncs y (time w)).
    + destruct (drain _ st w) as (st1, w1) eqn:D. injection E as <- <- <-. apply drain_flows in D as (F & Q & L & A). cbn [pending position last]. rewrite L. split; [apply flows_other; exact F|].
      split; [exact Q|]. split; [intros _; apply A; reflexivity|]. split; [discriminate|reflexivity].
    + destruct (drain _ st w) as (st1, w1) eqn:D. injection E as <- <- <-. apply drain_flows in D as (F & Q & L & A). split; [exact F|]. split; [exact Q|]. split; [discriminate|]. split; [discriminate|exact L].
Qed.
Definition aim (from : whence) (k : N) (n : N) (off : Z) : Z :=
  (match from with FromStart => 0 | FromHere => Z.of_N k | FromEnd => Z.of_N n end + off)%Z.
Lemma fseek_flows y off from st w b st' w' : fseek y off from st w = (b, st', w') -> flows (at_path st) st w st' w' [] /\ (b = true -> pending st' = [] /\ last st' = Still) /\
  (pending st = [] -> let t := aim from (position st) (len (content w (at_path st))) off in b = (0 <=? t)%Z /\ position st' = (if b then Z.to_N t else position st)) /\ (last st' = Writing -> last st = Writing).
Proof.
  intro E. unfold fseek in E. destruct (fflush y st w) as ((ok, st1), w1) eqn:F. apply fflush_flows in F as (F & Q & P & A & L). destruct ok.
  - assert (T : pending st = [] -> Z.of_N (len (content w1 (at_path st1))) = Z.of_N (len (content w (at_path st)))).
    { intro P0. destruct (fl_idle _ _ _ _ _ _ F P0 eq_refl) as (S & _). rewrite (fl_path _ _ _ _ _ _ F), (same_content _ _ _ S). reflexivity. }
    destruct (_ <? 0)%Z eqn:B; injection E as <- <- <-; cbn [pending position last].
    + split; [|split; [discriminate|split; [|auto]]].
      * rewrite <- (fl_path _ _ _ _ _ _ F) at 2. apply flows_other, F.
      * intro P0. specialize (T P0). unfold aim. rewrite Q in B. apply Z.ltb_lt in B. split; [|reflexivity]. symmetry. apply Z.leb_gt. destruct from; lia.
    + split; [apply flows_other, F|]. split; [intros _; split; [apply P|]; reflexivity|]. split; [|discriminate].
      intro P0. specialize (T P0). unfold aim. rewrite Q in *. apply Z.ltb_ge in B. split; [symmetry; apply Z.leb_le|f_equal]; destruct from; lia.
  - injection E as <- <- <-. split; [exact F|]. split; [discriminate|]. split; [|rewrite L; auto]. intro P0. specialize (A P0). discriminate A.
Qed.

(** ** Ports *)
Definition wf_port (w : world) (q : port) : Prop :=
  (kind q = NotOpen /\ file q = None /\ octet_count q = (-1)%Z) \/
  (kind q <> NotOpen /\ disk w (name q) <> None /\ exists st, file q = Some st /\ at_path st = name q /\ (kind q = IsInput -> pending st = [] /\ last st <> Writing)).

Record moves (q : port) (w : world) (q' : port) (w' : world) (o : list N) : Prop := mkMoves {
  mv_name : name q' = name q;
  mv_kind : kind q' = kind q \/ kind q' = NotOpen;
  mv_grows : grows w w';
  mv_only : only (name q) w w';
  mv_quiet : ~ In (kind q) for_output -> same w w';
  mv_wf : wf_port w' q';
  mv_count : kind q' <> NotOpen -> octet_count q' = octet_count q;
  mv_text : In (kind q) for_output -> exists st rest, file q = Some st /\ content w' (name q) ++ rest = content w (name q) ++ pending st ++ o /\
    (kind q' <> NotOpen -> exists st', file q' = Some st' /\ pending st' = rest) }.

Lemma grows_wf w w' q : grows w w' -> wf_port w q -> wf_port w' q.
Proof.
  intros G [H|(K & D & st & H)]; [left; exact H|right]. split; [exact K|]. split; [|exists st; exact H].
  destruct (disk w (name q)) as [o|] eqn:E; [|contradiction]. destruct (G _ _ E) as (o' & E'). rewrite E'. discriminate.
Qed.

Lemma out_kind q : In (kind q) for_output <-> kind q = IsOutput \/ kind q = IsIo.
Proof. unfold for_output. cbn. intuition. Qed.

Lemma moves_refl q w : wf_port w q -> moves q w q w [].
Proof.
  intro W. split; auto; try (intros ? ?; intros; auto).
  - exists []. rewrite app_nil_r. assumption.
  - intros O. destruct W as [(K & _)|(K & D & st & F & P & I)]; [apply out_kind in O; destruct O; congruence|].
    exists st, (pending st). split; [exact F|]. split; [rewrite app_nil_r; reflexivity|]. intros _. exists st. auto.
Qed.
Lemma moves_trans q w q1 w1 q2 w2 o o' : kind q1 = kind q -> moves q w q1 w1 o -> moves q1 w1 q2 w2 o' -> moves q w q2 w2 (o ++ o').
Proof.
  intros K [A1 A2 A3 A4 A5 A6 A7 A8] [B1 B2 B3 B4 B5 B6 B7 B8]. rewrite A1 in *. rewrite K in *. split; auto.
  - eapply grows_trans; eauto.
  - eapply only_trans; eauto.
  - intro O. eapply same_trans; eauto.
  - intro O. rewrite (B7 O). apply A7. destruct B2 as [B2|B2]; [congruence|contradiction].
  - intro O. destruct (A8 O) as (st & rest & F & T & R). destruct (B8 O) as (st1 & rest2 & F1 & T1 & R1).
    destruct R as (st1' & F1' & P1). { apply out_kind in O. intro C. destruct O; congruence. }
    rewrite F1 in F1'. injection F1' as <-. exists st, rest2. split; [exact F|]. split; [|exact R1].
    rewrite T1, P1, app_assoc, T, <- !app_assoc. reflexivity.
Qed.

(** One operation on the stream of an open port. *)
Lemma stream_moves q w st st' w' o : wf_port w q -> file q = Some st -> flows (at_path st) st w st' w' o -> (kind q = IsInput -> o = [] /\ last st' <> Writing) ->
  moves q w (mkPort (name q) (kind q) (Some st') (octet_count q)) w' o.
Proof.
  intros [(K & C & C2)|(K & D & st0 & F & P & I)] F' [A1 A2 A3 A4 A5] X; [congruence|]. rewrite F in F'. injection F' as ->. rewrite P in *. split; cbn [name kind file octet_count]; auto.
  - intro NO. destruct (kind q) eqn:EK.
    + destruct (I eq_refl) as (P0 & _). apply A5; [exact P0|apply X; reflexivity].
    + exfalso. apply NO. cbn. auto.
    + exfalso. apply NO. cbn. auto.
    + contradiction.
  - right. cbn [name kind file]. split; [exact K|]. split.
    + destruct (disk w (name q)) as [c|] eqn:E; [|contradiction]. destruct (A4 _ _ E) as (o' & E'). rewrite E'. discriminate.
    + exists st'. split; [reflexivity|]. split; [exact A1|]. intro KI. destruct (I KI) as (P0 & _). destruct (X KI) as (O0 & L0). split; [apply A5; assumption|exact L0].
  - intros _. exists st, (pending st'). split; [exact F|]. split; [exact A2|]. intros _. exists st'. auto.
Qed.

Lemma port_write_moves y o q w k q' w' : wf_port w q -> port_write y o q w = Ret (k, q', w') ->
  (~ In (kind q) for_output /\ k = (-1)%Z /\ q' = q /\ w' = w) \/
  (In (kind q) for_output /\ kind q' = kind q /\ (0 <= k <= Z.of_N (len o))%Z /\ moves q w q' w' (take (Z.to_N k) o)).
Proof.
  intros W E. unfold port_write in E. destruct (kind q) eqn:K; try (injection E as <- <- <-; left; split; [intro C; cbn in C; intuition discriminate|auto]).
  all: right; destruct (file q) as [st|] eqn:F; [|discriminate E]; destruct (fwrite y o st w) as [((k0, st0), w0)| | | | |] eqn:FW; try discriminate E; cbn [obind] in E; injection E as <- <- <-.
  all: apply fwrite_flows in FW as (FL & LE & LW & NR & PP).
  all: split; [cbn; auto|]. all: cbn [kind]. all: split; [reflexivity|]. all: split; [lia|]. all: rewrite N2Z.id. all: rewrite <- K.
  all: apply (stream_moves q w st st0 w0 _ W F FL). all: intro C; congruence.
Qed.
Lemma port_read_moves n q w o q' w' : wf_port w q -> port_read n q w = Ret (o, q', w') -> moves q w q' w' [] /\ kind q' = kind q /\ same w w' /\
  match o with
  | None => ~ In (kind q) for_input /\ q' = q
  | Some b => In (kind q) for_input /\ exists st st', file q = Some st /\ file q' = Some st' /\ b = take n (skip (position st) (content w (name q))) /\ position st' = position st + len b /\ last st <> Writing
  end.
Proof.
  intros W E. unfold port_read in E.
  destruct (kind q) eqn:K; try (injection E as <- <- <-; split; [apply moves_refl, W|split; [exact K|split; [intro; reflexivity|split; [intro C; cbn in C; intuition discriminate|reflexivity]]]]).
  all: destruct (file q) as [st|] eqn:F; [|discriminate E]; destruct (fread n st w) as [((k0, st0), w0)| | | | |] eqn:FR; try discriminate E; cbn [obind] in E; injection E as <- <- <-.
  all: apply fread_reads in FR as (E1 & E2 & E3 & E4 & E5 & E6 & E7).
  all: assert (AP : at_path st = name q) by (destruct W as [(C & _)|(_ & _ & st1 & F1 & P1 & _)]; [congruence|rewrite F in F1; injection F1 as <-; exact P1]).
  all: split; [|split; [reflexivity|split; [exact E2|split; [cbn; auto|exists st, st0; rewrite <- AP; cbn [file]; auto 8]]]].
  all: rewrite <- K; apply (stream_moves q w st st0 w0 [] W F); [|intros _; split; [reflexivity|exact E7]].
  all: split; [exact E3|rewrite (same_content _ _ _ E2), E4, app_nil_r; reflexivity|apply same_only, E2|apply same_grows, E2|intros P0 _; split; [exact E2|rewrite E4; exact P0]].
Qed.
Lemma close_moves y q w st ok w' : wf_port w q -> file q = Some st -> kind q <> NotOpen -> fclose y st w = (ok, w') ->
  moves q w (mkPort (name q) NotOpen None (-1)) w' [] /\ (ok = true -> In (kind q) for_output -> content w' (name q) = content w (name q) ++ pending st).
Proof.
  intros W F NK E. unfold fclose in E. destruct (fflush y st w) as ((b, st1), w1) eqn:FF. injection E as <- <-. apply fflush_flows in FF as (FL & Q & P & A & L).
  destruct W as [(K & _)|(K & D & st0 & F' & AP & I)]; [contradiction|]. rewrite F in F'. injection F' as <-. rewrite AP in *. destruct FL as [A1 A2 A3 A4 A5]. rewrite app_nil_r in A2. split.
  - split; cbn [name kind file octet_count]; auto.
    + intro NO. destruct (kind q) eqn:EK.
      * destruct (I eq_refl) as (P0 & _). apply A5; auto.
      * exfalso. apply NO. cbn. auto.
      * exfalso. apply NO. cbn. auto.
      * contradiction.
    + left. auto.
    + contradiction.
    + intros _. exists st, (pending st1). split; [exact F|]. split; [rewrite app_nil_r; exact A2|contradiction].
  - intros -> _. rewrite (P eq_refl), app_nil_r in A2. exact A2.
Qed.
Lemma port_close_moves y q w b q' w' : wf_port w q -> port_close y q w = Ret (b, q', w') -> moves q w q' w' [] /\ kind q' = NotOpen /\
  (b = true -> In (kind q) for_output -> exists st, file q = Some st /\ content w' (name q) = content w (name q) ++ pending st) /\ (kind q = NotOpen -> b = false /\ q' = q /\ w' = w).
Proof.
  intros W E. unfold port_close in E. destruct (kind q) eqn:K; try (injection E as <- <- <-; split; [apply moves_refl, W|split; [exact K|split; [discriminate|auto]]]).
  all: destruct (file q) as [st|] eqn:F; [|discriminate E]; destruct (fclose y st w) as (ok, w1) eqn:FC; injection E as <- <- <-.
  all: destruct (close_moves y q w st ok w1 W F ltac:(congruence) FC) as (M & C).
  all: split; [exact M|split; [reflexivity|split; [|discriminate]]]. all: intros B O; exists st; split; [reflexivity|]. all: rewrite <- K in O; apply C; assumption.
Qed.
Lemma release_moves y q w w' : wf_port w q -> release y q w = Ret w' -> moves q w (mkPort (name q) NotOpen None (-1)) w' [].
Proof.
  intros W E. unfold release in E. destruct (kind q) eqn:K; [| | |injection E as <-; destruct W as [(_ & F & _)|(C & _)]; [|congruence]].
  4: { assert (S : same w w) by (intro; reflexivity). split; cbn [name kind file octet_count].
       - reflexivity.
       - auto.
       - apply same_grows, S.
       - apply same_only, S.
       - auto.
       - left. auto.
       - contradiction.
       - intro C. rewrite K in C. cbn in C. intuition discriminate. }
  all: destruct (file q) as [st|] eqn:F; [|discriminate E]; destruct (fclose y st w) as (ok, w1) eqn:FC; destruct ok; [|discriminate E]; injection E as <-.
  all: apply (proj1 (close_moves y q w st true w1 W F ltac:(congruence) FC)).
Qed.
Definition seek_aim (amount : Z) (here_ : bool) (k n : N) : Z :=
  if here_ then (Z.of_N k + amount)%Z else if (amount <? 0)%Z then (Z.of_N n + amount + 1)%Z else amount.
Lemma port_seek_moves y n hr q w b q' w' : wf_port w q -> port_seek y n hr q w = Ret (b, q', w') -> moves q w q' w' [] /\ kind q' = kind q /\
  (kind q = NotOpen -> b = false /\ q' = q /\ w' = w) /\
  (kind q <> NotOpen -> exists st st', file q = Some st /\ file q' = Some st' /\ (b = true -> pending st' = [] /\ last st' = Still) /\
    (pending st = [] -> let t := seek_aim n hr (position st) (len (content w (name q))) in b = (0 <=? t)%Z /\ position st' = (if b then Z.to_N t else position st))).
Proof.
  intros W E. unfold port_seek in E. destruct (kind q) eqn:K; try (injection E as <- <- <-; split; [apply moves_refl, W|split; [exact K|split; [auto|congruence]]]).
  all: destruct (file q) as [st|] eqn:F; [|discriminate E].
  all: destruct (n <? 0)%Z eqn:NZ.
  all: match type of E with context [fseek ?a1 ?a2 ?a3 ?a4 ?a5] => destruct (fseek a1 a2 a3 a4 a5) as ((ok, st1), w1) eqn:FS end; injection E as <- <- <-.
  all: assert (AP : at_path st = name q) by (destruct W as [(C & _)|(_ & _ & st2 & F1 & P1 & _)]; [congruence|rewrite F in F1; injection F1 as <-; exact P1]).
  all: assert (X : flows (at_path st) st w st1 w1 [] /\ (ok = true -> pending st1 = [] /\ last st1 = Still) /\ (last st1 = Writing -> last st = Writing) /\
    (pending st = [] -> let t := seek_aim n hr (position st) (len (content w (name q))) in ok = (0 <=? t)%Z /\ position st1 = (if ok then Z.to_N t else position st)))
    by (rewrite <- AP; unfold seek_aim; rewrite NZ; destruct hr; apply fseek_flows in FS as (X1 & X2 & X3 & X4); (split; [exact X1|split; [exact X2|split; [exact X4|]]]); intro P0; specialize (X3 P0); unfold aim in X3; cbv zeta in *; rewrite ?Z.add_assoc in X3; rewrite ?Z.add_0_l in X3; exact X3).
  all: destruct X as (X1 & X2 & X4 & X3). all: split; [|split; [reflexivity|split; [discriminate|intros _; exists st, st1; cbn [file]; auto]]].
  all: rewrite <- K; apply (stream_moves q w st st1 w1 [] W F X1); intro KI; split; [reflexivity|].
  all: intro C; destruct W as [(C' & _)|(_ & _ & st2 & F1 & P1 & I)]; [congruence|rewrite F in F1; injection F1 as <-; destruct (I KI) as (_ & NW); apply NW, X4, C].
Qed.
Lemma port_flush_moves y q w b q' w' : wf_port w q -> port_flush y q w = Ret (b, q', w') -> moves q w q' w' [] /\ kind q' = kind q /\
  (kind q = NotOpen -> b = false /\ q' = q /\ w' = w) /\
  (kind q <> NotOpen -> exists st st', file q = Some st /\ file q' = Some st' /\ (b = true -> pending st' = []) /\ position st' = position st).
Proof.
  intros W E. unfold port_flush in E. destruct (kind q) eqn:K; try (injection E as <- <- <-; split; [apply moves_refl, W|split; [exact K|split; [auto|congruence]]]).
  all: destruct (file q) as [st|] eqn:F; [|discriminate E]; destruct (fflush y st w) as ((ok, st1), w1) eqn:FF; injection E as <- <- <-.
  all: apply fflush_flows in FF as (X1 & X2 & X3 & X4 & X5).
  all: split; [|split; [reflexivity|split; [discriminate|intros _; exists st, st1; cbn [file]; auto]]].
  all: rewrite <- K; apply (stream_moves q w st st1 w1 [] W F X1); intro KI; split; [reflexivity|].
  all: destruct W as [(C' & _)|(_ & _ & st2 & F1 & P1 & I)]; [congruence|rewrite F in F1; injection F1 as <-; destruct (I KI) as (P0 & NW)]; rewrite X5, (X4 P0); destruct (last st); cbn; congruence.
Qed.

(** ** The builtins *)
Section ValueInd.
  Variable P : value -> Prop.
  Hypothesis Hint : forall z, P (VInt z).
  Hypothesis Hchar : forall t, P (VChar t).
  Hypothesis Hstr : forall t, P (VStr t).
  Hypothesis Hvec : forall l, Forall P l -> P (VVec l).
  Hypothesis Hsym : P VSym.
  Hypothesis Hport : forall i, P (VPort i).
  Hypothesis Hother : P VOther.
  Fixpoint value_rec2 (v : value) : P v :=
    match v with
    | VInt z => Hint z
    | VChar t => Hchar t
    | VStr t => Hstr t
    | VVec l => Hvec l ((fix go (l : list value) : Forall P l := match l with [] => Forall_nil P | v' :: l' => Forall_cons v' (value_rec2 v') (go l') end) l)
    | VSym => Hsym
    | VPort i => Hport i
    | VOther => Hother
    end.
End ValueInd.

Lemma octets_to_write_spec t o : octets_to_write t = Ret o -> text_octets t o.
Proof.
  intros E F. unfold octets_to_write in E. destruct (get_c_string_scalar (text_str t) (or_introl eq_refl) F) as (s' & G & _). rewrite G in E. cbn [obind snd] in E. injection E as <-.
  cbn [ucs text_str]. apply removelast_last.
Qed.
Lemma octets_to_write_fine t : Forall scalar t -> octets_to_write t = Ret (utf8_text t).
Proof.
  intro F. unfold octets_to_write. destruct (get_c_string_scalar (text_str t) (or_introl eq_refl) F) as (s' & G & _). rewrite G. cbn [obind snd ucs text_str]. f_equal. apply removelast_last.
Qed.
Lemma take_len n o : Z.of_N (len o) = n -> take (Z.to_N n) o = o.
Proof. intros <-. rewrite N2Z.id. apply take_all. Qed.

Fixpoint write_all (y : system) (l : list value) (c : Z) (q : port) (w : world) : outcome (option Z * port * world) :=
  match l with
  | [] => Ret (Some c, q, w)
  | v' :: l' => obind (write_value y v' q w) (fun '(k, q', w') =>
      match k with
      | Some k => obind (int32_op (c + k)) (fun c' => write_all y l' c' q' w')
      | None => Ret (None, q', w')
      end)
  end.
Lemma write_vec y l q w : write_value y (VVec l) q w = obind (supports_output q) (fun can : bool => if can then write_all y l 0 q w else Ret (None, q, w)).
Proof.
  cbn [write_value]. destruct (supports_output q) as [[]| | | | |]; try reflexivity. cbn [obind]. generalize 0%Z. revert q w.
  induction l as [|v l IH]; intros q w c; [reflexivity|]. cbn [write_all]. destruct (write_value y v q w) as [(([k|], q1), w1)| | | | |]; try reflexivity. cbn [obind]. destruct (int32_op _); try reflexivity. cbn [obind]. apply IH.
Qed.

Lemma supports_output_spec w q b : wf_port w q -> supports_output q = Ret b -> b = true <-> In (kind q) for_output.
Proof.
  intros W E. unfold supports_output in E. rewrite out_kind. destruct (kind q), (file q); try discriminate E; injection E as <-; intuition discriminate.
Qed.

Fixpoint sizes (l : list value) : Z := match l with [] => 0%Z | v :: l' => (size v + sizes l')%Z end.
Fixpoint scalar_values (l : list value) : Prop := match l with [] => True | v :: l' => scalar_value v /\ scalar_values l' end.
Lemma size_vec l : size (VVec l) = sizes l.
Proof. reflexivity. Qed.
Lemma size_nonneg v : (0 <= size v)%Z.
Proof.
  induction v as [z|t|t|l IH| |i|] using value_rec2; try (cbn; lia). rewrite size_vec. induction IH; cbn [sizes]; lia.
Qed.
Lemma sizes_nonneg l : (0 <= sizes l)%Z.
Proof. rewrite <- size_vec. apply size_nonneg. Qed.

(** What one write did. *)
Definition wrote (v : value) (q : port) (w : world) (k : option Z) (q' : port) (w' : world) : Prop :=
  (~ In (kind q) for_output /\ k = None /\ q' = q /\ w' = w) \/
  (In (kind q) for_output /\ kind q' = kind q /\ exists o, moves q w q' w' o /\
    forall z, k = Some z -> scalar_value v -> (size v <= INT32_MAX)%Z -> (0 <= z <= size v)%Z /\ (z = size v -> spelled v o)).

Lemma octet_of_spec z : Z.of_N (octet_of z) = (z mod 256)%Z.
Proof. unfold octet_of. rewrite Z2N.id; [reflexivity|]. apply Z.mod_pos_bound. lia. Qed.
Lemma wrap_small z : (0 <= z <= INT32_MAX)%Z -> wrap32 z = z.
Proof. intros H. apply wrap32_id. unfold in_int32, INT32_MIN, INT32_MAX in *. lia. Qed.

Lemma write_value_wrote y v : forall q w k q' w', wf_port w q -> write_value y v q w = Ret (k, q', w') -> wrote v q w k q' w'.
Proof.
  assert (TEXT : forall t v q w k q' w', (forall o, text_octets t o -> spelled v o) -> (scalar_value v -> Forall scalar t) -> size v = Z.of_nat (List.length (utf8_text t)) ->
    wf_port w q -> In (kind q) for_output -> write_text y t q w = Ret (k, q', w') -> wrote v q w k q' w').
  { intros t v0 q w k q' w' S SV SZ W O E. unfold write_text in E. destruct (octets_to_write t) as [o| | | | |] eqn:OT; try discriminate E. cbn [obind] in E. apply octets_to_write_spec in OT.
    destruct (port_write y o q w) as [((n, q1), w1)| | | | |] eqn:PW; try discriminate E. cbn [obind] in E. destruct (port_write_moves y o q w n q1 w1 W PW) as [(C & _)|(_ & KK & R & M)]; [contradiction|]. right.
    split; [exact O|]. destruct (n =? Z.of_N (len o))%Z eqn:NE; injection E as <- <- <-; (split; [exact KK|]); eexists; (split; [exact M|]).
    - intros z Z0 SC LE. injection Z0 as <-. specialize (SV SC). pose proof (OT SV) as EO. apply Z.eqb_eq in NE. rewrite SZ in *. unfold len. rewrite EO. rewrite nat_N_Z. rewrite wrap_small by lia.
      split; [lia|]. intros _. subst o. rewrite take_len by congruence. apply S, OT.
    - congruence. }
  induction v as [z|t|t|l IH| |i|] using value_rec2; intros q w k q' w' W E.
  4: { rewrite write_vec in E. destruct (supports_output q) as [b| | | | |] eqn:SO; try discriminate E. cbn [obind] in E. pose proof (supports_output_spec w q b W SO) as SP. destruct b; [|injection E as <- <- <-; left; repeat split; intro C; apply SP in C; discriminate C].
       assert (O : In (kind q) for_output) by (apply SP; reflexivity). right. split; [exact O|]. clear SO SP.
       assert (X : forall c, write_all y l c q w = Ret (k, q', w') -> kind q' = kind q /\ exists o, moves q w q' w' o /\ forall z, k = Some z -> scalar_values l -> (sizes l <= INT32_MAX)%Z -> (0 <= z - c <= sizes l)%Z /\ ((z - c)%Z = sizes l -> spelled (VVec l) o)).
       { clear E. revert q w W O. induction IH as [|v l IHv _ IHl]; intros q w W O c E; cbn [write_all] in E.
         - injection E as <- <- <-. split; [reflexivity|]. exists []. split; [apply moves_refl, W|]. intros z Z0 _ _. injection Z0 as <-. cbn [sizes]. split; [lia|]. intros _. constructor.
         - destruct (write_value y v q w) as [((k1, q1), w1)| | | | |] eqn:E1; try discriminate E. cbn [obind] in E. destruct (IHv q w k1 q1 w1 W E1) as [(C & _)|(_ & K1 & o1 & M1 & S1)]; [contradiction|]. destruct k1 as [k1|].
           + destruct (int32_op (c + k1)) as [c'| | | | |] eqn:IO; try discriminate E. cbn [obind] in E. destruct (IHl q1 w1 (mv_wf _ _ _ _ _ M1) ltac:(congruence) c' E) as (K2 & o2 & M2 & S2). split; [congruence|]. exists (o1 ++ o2). split; [eapply moves_trans; eauto|].
             intros z Z0 (SC1 & SC2) LE. cbn [sizes] in LE. pose proof (size_nonneg v) as N1. pose proof (sizes_nonneg l) as N2. destruct (S1 k1 eq_refl SC1 ltac:(lia)) as (R1 & Q1). destruct (S2 z Z0 SC2 ltac:(lia)) as (R2 & Q2).
             unfold int32_op in IO. destruct (in_int32 (c + k1)); [|discriminate IO]. injection IO as <-. cbn [sizes]. split; [lia|]. intro ZE. constructor; [apply Q1; lia|apply Q2; lia].
           + injection E as <- <- <-. split; [exact K1|]. exists o1. split; [exact M1|congruence]. }
       destruct (X 0%Z E) as (K & o & M & S). split; [exact K|]. exists o. split; [exact M|]. intros z Z0 SC LE. specialize (S z Z0 SC LE). rewrite Z.sub_0_r in S. exact S. }
  all: cbn [write_value] in E; destruct (supports_output q) as [b| | | | |] eqn:SO; try discriminate E; cbn [obind] in E; pose proof (supports_output_spec w q b W SO) as SP;
    (destruct b; [|injection E as <- <- <-; left; repeat split; intro C; apply SP in C; discriminate C]); assert (O : In (kind q) for_output) by (apply SP; reflexivity).
  - destruct (port_write y _ q w) as [((n, q1), w1)| | | | |] eqn:PW; try discriminate E. cbn [obind] in E. destruct (port_write_moves y _ q w n q1 w1 W PW) as [(C & _)|(_ & KK & R & M)]; [contradiction|]. destruct (n <? 0)%Z; [discriminate E|]. injection E as <- <- <-.
    right. split; [exact O|]. split; [exact KK|]. exists (take (Z.to_N n) [octet_of z]). split; [exact M|]. intros z0 Z0 _ _. injection Z0 as <-. cbn in R. cbn [size]. rewrite wrap_small by (unfold INT32_MAX; lia). split; [lia|].
    intros ->. rewrite take_len by reflexivity. constructor. apply octet_of_spec.
  - apply (TEXT t (VChar t) q w k q' w'); auto. intros o H. constructor. exact H.
  - apply (TEXT t (VStr t) q w k q' w'); auto. intros o H. constructor. exact H.
  - injection E as <- <- <-. right. split; [exact O|]. split; [reflexivity|]. exists []. split; [apply moves_refl, W|congruence].
  - injection E as <- <- <-. right. split; [exact O|]. split; [reflexivity|]. exists []. split; [apply moves_refl, W|congruence].
  - injection E as <- <- <-. right. split; [exact O|]. split; [reflexivity|]. exists []. split; [apply moves_refl, W|congruence].
Qed.

(** ** Calls *)
Definition wf (h : host) : Prop := Forall (wf_port (here h)) (ports h).

Lemma nth_set {X} i (x : X) l : forall j, nth_error (set_nth i x l) j = if Nat.eqb i j then match nth_error l j with Some _ => Some x | None => None end else nth_error l j.
Proof.
  revert i. induction l as [|a l IH]; intros i j; destruct i, j; cbn; try reflexivity; try (destruct (Nat.eqb _ _); reflexivity). apply IH.
Qed.
Lemma set_length {X} i (x : X) l : List.length (set_nth i x l) = List.length l.
Proof. revert i. induction l as [|a l IH]; intros [|i]; cbn; auto. Qed.
Lemma set_forall {X} (P : X -> Prop) i x l : Forall P l -> P x -> Forall P (set_nth i x l).
Proof. intros F H. revert i. induction F as [|a l Ha F IH]; intros [|i]; cbn; constructor; auto. Qed.

(** What a call may do: nothing, something with one port, or a new port. *)
Inductive effect (h : host) : host -> Prop :=
| eff_none h' : ports h' = ports h -> here h' = here h -> effect h h'
| eff_port i q q' w' o : nth_error (ports h) i = Some q -> moves q (here h) q' w' o -> effect h (with_port h i q' w')
| eff_new q w' : wf_port w' q -> grows (here h) w' -> only (name q) (here h) w' -> (~ In (kind q) for_output -> same (here h) w') -> (In (kind q) for_output -> content w' (name q) = content (here h) (name q)) ->
    (forall st, file q = Some st -> pending st = []) -> effect h (mkHost (ports h ++ [q]) w').

Record opened (p : path) (w : world) (q : port) (w' : world) (k : tag) : Prop := mkOpened {
  op_name : name q = p;
  op_kind : kind q = k \/ kind q = NotOpen;
  op_wf : wf_port w' q;
  op_grows : grows w w';
  op_only : only p w w';
  op_quiet : ~ In (kind q) for_output -> same w w';
  op_text : In (kind q) for_output -> content w' p = content w p;
  op_pending : forall st, file q = Some st -> pending st = [] /\ (In (kind q) for_input -> position st = 0);
  op_count : kind q <> NotOpen -> octet_count q = Z.of_N (len (content w' p)) }.

Lemma measure_spec y st w n st' w' : pending st = [] -> measure y st w = Ret (n, st', w') ->
  same w w' /\ at_path st' = at_path st /\ pending st' = [] /\ position st' = 0 /\ last st' = Still /\ n = Z.of_N (len (content w (at_path st))).
Proof.
  intros P0 E. unfold measure in E. destruct (fseek y 0 FromEnd st w) as ((ok, st1), w1) eqn:S1. destruct ok; [|discriminate E]. destruct (fseek y 0 FromStart st1 w1) as ((ok2, st2), w2) eqn:S2. destruct ok2; [|discriminate E]. injection E as <- <- <-.
  apply fseek_flows in S1 as (F1 & C1 & D1 & _). apply fseek_flows in S2 as (F2 & C2 & D2 & _). destruct (C1 eq_refl) as (P1 & _). destruct (C2 eq_refl) as (P2 & L2). specialize (D1 P0). specialize (D2 P1). cbv zeta in *. destruct D1 as (_ & Q1). destruct D2 as (_ & Q2).
  destruct (fl_idle _ _ _ _ _ _ F1 P0 eq_refl) as (A & _). destruct (fl_idle _ _ _ _ _ _ F2 P1 eq_refl) as (B & _). split; [eapply same_trans; eauto|]. split; [rewrite (fl_path _ _ _ _ _ _ F2); apply (fl_path _ _ _ _ _ _ F1)|].
  split; [exact P2|]. split; [rewrite Q2; reflexivity|]. split; [exact L2|]. rewrite Q1. unfold aim. lia.
Qed.
Lemma measure_fine y st w : pending st = [] -> exists n st' w', measure y st w = Ret (n, st', w').
Proof.
  intro P0. unfold measure. destruct (fseek y 0 FromEnd st w) as ((ok, st1), w1) eqn:S1. apply fseek_flows in S1 as (F1 & C1 & D1 & _). destruct (D1 P0) as (B & _). unfold aim in B. assert (ok = true) as -> by (rewrite B; apply Z.leb_le; lia).
  destruct (C1 eq_refl) as (P1 & _). destruct (fseek y 0 FromStart st1 w1) as ((ok2, st2), w2) eqn:S2. apply fseek_flows in S2 as (F2 & C2 & D2 & _). destruct (D2 P1) as (B2 & _). unfold aim in B2. assert (ok2 = true) as -> by (rewrite B2; reflexivity). eauto.
Qed.

Lemma open_read_spec y p w o w' : open_read y p w = (o, w') -> same w w' /\ forall st, o = Some st -> st = mkStream p 0 [] Still /\ disk w p <> None.
Proof.
  intro E. unfold open_read in E. destruct (disk w p) eqn:D; [destruct (opens y (time w))|]; injection E as <- <-; (split; [intro; reflexivity|]); intros st S; try discriminate S. injection S as <-. split; [reflexivity|discriminate].
Qed.
Lemma open_append_spec y b p w o w' : open_append y b p w = (o, w') -> match o with
  | None => same w w'
  | Some st => st = mkStream p (if b then len (content w p) else 0) [] Still /\ grows w w' /\ only p w w' /\ disk w' p = Some (content w p)
  end.
Proof.
  intro E. unfold open_append in E. destruct (opens y (time w)); injection E as <- <-; [|intro; reflexivity]. split; [reflexivity|]. cbn [disk tick]. split; [|split; [intros q N; apply put_other, N|apply put_same]].
  intros q x Q. cbn [disk tick]. destruct (path_dec q p) as [->|N]; [rewrite put_same; exists []; unfold content; rewrite Q, app_nil_r; reflexivity|]. rewrite put_other by exact N. exists []. rewrite app_nil_r. exact Q.
Qed.

Lemma closed_opened p w w' k : same w w' -> opened p w (mkPort p NotOpen None (-1)) w' k.
Proof.
  intro S. split; cbn [name kind file octet_count]; auto.
  - left. auto.
  - apply same_grows, S.
  - apply same_only, S.
  - intro C. cbn in C. intuition discriminate.
  - intros st C. discriminate C.
  - contradiction.
Qed.
Lemma input_opened y p w st w1 n st' w' : open_read y p w = (Some st, w1) -> measure y st w1 = Ret (n, st', w') -> opened p w (mkPort p IsInput (Some st') n) w' IsInput.
Proof.
  intros E M. apply open_read_spec in E as (S & X). destruct (X st eq_refl) as (-> & D). apply measure_spec in M as (S2 & A & P & Q & L & N); [|reflexivity]. cbn [at_path] in *. assert (S3 : same w w') by (eapply same_trans; eauto).
  split; cbn [name kind file octet_count]; auto.
  - right. cbn [name kind file]. split; [discriminate|]. split; [rewrite S3; exact D|]. exists st'. split; [reflexivity|]. split; [exact A|]. intros _. split; [exact P|rewrite L; discriminate].
  - apply same_grows, S3.
  - apply same_only, S3.
  - intros C. cbn in C. intuition discriminate.
  - intros st0 C. injection C as <-. auto.
  - intros _. rewrite N, (same_content _ _ _ S2). reflexivity.
Qed.
Lemma io_opened y p w st w1 n st' w' : open_append y false p w = (Some st, w1) -> measure y st w1 = Ret (n, st', w') -> opened p w (mkPort p IsIo (Some st') n) w' IsIo.
Proof.
  intros E M. apply open_append_spec in E as (-> & G & O & D). apply measure_spec in M as (S2 & A & P & Q & L & N); [|reflexivity]. cbn [at_path] in *.
  assert (D' : disk w' p = Some (content w p)) by (rewrite S2; exact D).
  split; cbn [name kind file octet_count]; auto.
  - right. cbn [name kind file]. split; [discriminate|]. split; [rewrite D'; discriminate|]. exists st'. split; [reflexivity|]. split; [exact A|]. discriminate.
  - eapply grows_trans; [exact G|apply same_grows, S2].
  - eapply only_trans; [exact O|apply same_only, S2].
  - intros C. exfalso. apply C. cbn. auto.
  - intros _. unfold content at 1. rewrite D'. reflexivity.
  - intros st0 C. injection C as <-. auto.
  - intros _. rewrite N, (same_content _ _ _ S2). reflexivity.
Qed.
Lemma output_opened y p w st w' : open_append y true p w = (Some st, w') -> opened p w (mkPort p IsOutput (Some st) (Z.of_N (position st))) w' IsOutput.
Proof.
  intros E. apply open_append_spec in E as (-> & G & O & D). cbn [position].
  split; cbn [name kind file octet_count]; auto.
  - right. cbn [name kind file]. split; [discriminate|]. split; [rewrite D; discriminate|]. eexists. split; [reflexivity|]. split; [reflexivity|]. discriminate.
  - intros C. exfalso. apply C. cbn. auto.
  - intros _. unfold content at 1. rewrite D. reflexivity.
  - intros st0 C. injection C as <-. split; [reflexivity|]. intro C. cbn in C. intuition discriminate.
  - intros _. unfold content at 2. rewrite D. reflexivity.
Qed.
Lemma new_input_opened y p w q w' : new_input y p w = Ret (q, w') -> opened p w q w' IsInput.
Proof.
  intro E. unfold new_input in E. destruct (open_read y p w) as ([st|], w1) eqn:O.
  - destruct (measure y st w1) as [((n, st'), w2)| | | | |] eqn:M; try discriminate E. cbn [obind] in E. injection E as <- <-. eapply input_opened; eauto.
  - injection E as <- <-. apply closed_opened. apply open_read_spec in O. apply O.
Qed.
Lemma new_output_opened y p w q w' : new_output y p w = Ret (q, w') -> opened p w q w' IsOutput.
Proof.
  intro E. unfold new_output in E. destruct (open_append y true p w) as ([st|], w1) eqn:O.
  - injection E as <- <-. eapply output_opened; eauto.
  - injection E as <- <-. apply closed_opened. apply open_append_spec in O. apply O.
Qed.
Lemma new_io_opened y p w q w' : new_io y p w = Ret (q, w') -> opened p w q w' IsIo.
Proof.
  intro E. unfold new_io in E. destruct (open_append y false p w) as ([st|], w1) eqn:O.
  - destruct (measure y st w1) as [((n, st'), w2)| | | | |] eqn:M; try discriminate E. cbn [obind] in E. injection E as <- <-. eapply io_opened; eauto.
  - injection E as <- <-. apply closed_opened. apply open_append_spec in O. apply O.
Qed.
Lemma new_copy_opened y q0 w q w' : wf_port w q0 -> new_copy y q0 w = Ret (q, w') -> opened (name q0) w q w' (kind q0).
Proof.
  intros W E. unfold new_copy in E. destruct (kind q0) eqn:K0.
  - destruct (open_read y (name q0) w) as ([st|], w1) eqn:O; [|discriminate E]. destruct (measure y st w1) as [((n, st'), w2)| | | | |] eqn:M; try discriminate E. cbn [obind] in E. injection E as <- <-. eapply input_opened; eauto.
  - destruct (open_append y true (name q0) w) as ([st|], w1) eqn:O; [|discriminate E]. injection E as <- <-. eapply output_opened; eauto.
  - destruct (open_append y false (name q0) w) as ([st|], w1) eqn:O; [|discriminate E]. destruct (measure y st w1) as [((n, st'), w2)| | | | |] eqn:M; try discriminate E. cbn [obind] in E. injection E as <- <-. eapply io_opened; eauto.
  - injection E as <- <-. destruct W as [(_ & _ & ->)|(C & _)]; [|contradiction]. apply closed_opened. intro. reflexivity.
Qed.
Lemma opened_effect p w q w' k h : here h = w -> opened p w q w' k -> effect h (mkHost (ports h ++ [q]) w').
Proof.
  intros <- O. apply eff_new; try apply O.
  - rewrite (op_name _ _ _ _ _ O). apply O.
  - rewrite (op_name _ _ _ _ _ O). apply O.
Qed.

Definition target (c : call) (i : nat) : Prop :=
  match c with
  | CClose (VPort j :: _) | CRead (VPort j :: _) | CWrite (VPort j :: _) | CSeek (VPort j :: _) | CFlush (VPort j :: _) => j = i
  | CRelease j => j = i
  | _ => False
  end.
Definition opens_at (c : call) (h : host) (p : path) (k : tag) : Prop :=
  match c with
  | COpenInput [VStr t] => octets_of t = Ret p /\ k = IsInput
  | COpenOutput [VStr t] => octets_of t = Ret p /\ k = IsOutput
  | COpenIo [VStr t] => octets_of t = Ret p /\ k = IsIo
  | CCopy i => exists q, nth_error (ports h) i = Some q /\ name q = p /\ kind q = k
  | _ => False
  end.
Record acted (c : call) (r : answer) (i : nat) (q : port) (w : world) (q' : port) (w' : world) (o : list N) : Prop := mkActed {
  ac_moves : moves q w q' w' o;
  ac_target : target c i;
  ac_nothing : written_by i c = [] -> o = [];
  ac_written : forall v, written_by i c = [v] -> r = AnInt (size v) -> scalar_value v -> (size v <= INT32_MAX)%Z -> spelled v o;
  ac_passed : passes_on i c -> r = ABool true -> In (kind q) for_output -> exists st, file q = Some st /\ content w' (name q) = content w (name q) ++ pending st;
  ac_moved : does_not_move i c -> kind q' = kind q;
  ac_closed : kind q = NotOpen -> q' = mkPort (name q) NotOpen None (octet_count q') /\ w' = w;
  ac_refused : kind q = NotOpen -> (written_by i c <> [] -> r = AnError) /\ (passes_on i c -> r = ABool false) }.

Lemma acted_plain c r i q w q' w' : moves q w q' w' [] -> target c i -> written_by i c = [] -> (passes_on i c -> r = ABool true -> In (kind q) for_output -> exists st, file q = Some st /\ content w' (name q) = content w (name q) ++ pending st) ->
  (does_not_move i c -> kind q' = kind q) -> (kind q = NotOpen -> (q' = mkPort (name q) NotOpen None (octet_count q') /\ w' = w) /\ (passes_on i c -> r = ABool false)) -> acted c r i q w q' w' [].
Proof. intros M T N P D C. split; auto. - intros v V. congruence. - apply C; assumption. - intro K. split; [congruence|apply C, K]. Qed.

Lemma moves_passed q w q' w' : moves q w q' w' [] -> In (kind q) for_output -> kind q' = kind q -> (forall st, file q' = Some st -> pending st = []) -> exists st, file q = Some st /\ content w' (name q) = content w (name q) ++ pending st.
Proof.
  intros M O K P. destruct (mv_text _ _ _ _ _ M O) as (st & rest & F & T & R). exists st. split; [exact F|]. destruct R as (st' & F' & <-). { rewrite K. apply out_kind in O. intro C. destruct O; congruence. }
  rewrite (P _ F'), !app_nil_r in T. exact T.
Qed.
Lemma wf_nth h i q : wf h -> nth_error (ports h) i = Some q -> wf_port (here h) q.
Proof. intros W N. eapply Forall_forall; [exact W|]. eapply nth_error_In; eauto. Qed.
Lemma not_open_file w q : wf_port w q -> kind q = NotOpen -> q = mkPort (name q) NotOpen None (octet_count q).
Proof. intros [(K & F & F2)|(K & _)] C; [|contradiction]. destruct q as [n k f c]. cbn in *. subst. reflexivity. Qed.

Lemma read_octets_moves n : forall q w l q' w', wf_port w q -> read_octets n q w = Ret (l, q', w') -> moves q w q' w' [] /\ kind q' = kind q /\ same w w'.
Proof.
  induction n as [|n IH]; intros q w l q' w' W E; cbn [read_octets] in E.
  - injection E as <- <- <-. split; [apply moves_refl, W|]. split; [reflexivity|intro; reflexivity].
  - destruct (port_read 1 q w) as [((o, q1), w1)| | | | |] eqn:PR; try discriminate E. cbn [obind] in E. apply port_read_moves in PR as (M & K & S & _); [|exact W].
    assert (X : (exists b, o = Some [b]) \/ Ret (@nil Z, q1, w1) = Ret (l, q', w')) by (destruct o as [[|b [|b2 t]]|]; eauto). destruct X as [(b & ->)|X]; [|injection X as <- <- <-; auto].
    destruct (read_octets n q1 w1) as [((l2, q2), w2)| | | | |] eqn:RO; try discriminate E. cbn [obind] in E. injection E as <- <- <-. destruct (IH q1 w1 l2 q2 w2 (mv_wf _ _ _ _ _ M) RO) as (M2 & K2 & S2).
    split; [|split; [congruence|eapply same_trans; eauto]]. apply (moves_trans q w q1 w1 q2 w2 [] []); assumption.
Qed.
Lemma read_octets_closed n q w l q' w' : kind q = NotOpen -> read_octets n q w = Ret (l, q', w') -> q' = q /\ w' = w /\ l = [].
Proof.
  intros K E. destruct n as [|n]; cbn [read_octets] in E; [injection E as <- <- <-; auto|]. unfold port_read in E. rewrite K in E. cbn [obind] in E. injection E as <- <- <-. auto.
Qed.

Lemma call_effect y c h r h' : wf h -> run_call y c h = Ret (r, h') ->
  (h' = h /\ (forall i, written_by i c = [])  /\ (forall i, passes_on i c -> r <> ABool true)) \/
  (exists i q q' w' o, nth_error (ports h) i = Some q /\ h' = with_port h i q' w' /\ acted c r i q (here h) q' w' o) \/
  (exists p k q w', opens_at c h p k /\ h' = mkHost (ports h ++ [q]) w' /\ opened p (here h) q w' k).
Proof.
  intros W E. unfold passes_on.
  assert (NONE : forall (c0 : call), (forall i, c0 <> CFlush [VPort i] /\ c0 <> CClose [VPort i] /\ forall n t, c0 <> CSeek (VPort i :: VInt n :: t)) -> forall i, (c0 = CFlush [VPort i] \/ c0 = CClose [VPort i] \/ exists n t, c0 = CSeek (VPort i :: VInt n :: t)) -> False).
  { intros c0 H i [X|[X|(n & t & X)]]; destruct (H i) as (A & B & C); [exact (A X)|exact (B X)|exact (C n t X)]. }
  assert (OPEN : forall make checked a k, (forall p w q w', make p w = Ret (q, w') -> opened p w q w' k) -> b_open make checked a h = Ret (r, h') ->
    (h' = h /\ r = AnError) \/ exists t p q w', a = [VStr t] /\ octets_of t = Ret p /\ h' = mkHost (ports h ++ [q]) w' /\ opened p (here h) q w' k).
  { intros make checked a k MK B. unfold b_open in B. destruct a as [|v [|v2 a]]; [injection B as <- <-; auto| |destruct v; injection B as <- <-; auto]. destruct v; try discriminate B.
    destruct (str_get_c_string (text_str t)) as [p| | | | |] eqn:G; try discriminate B. cbn [obind] in B. destruct (make (cstr (snd p)) (here h)) as [(q, w1)| | | | |] eqn:MM; try discriminate B. cbn [obind] in B. apply MK in MM.
    right. exists t, (cstr (snd p)), q, w1. split; [reflexivity|]. split; [unfold octets_of; rewrite G; reflexivity|]. split; [|exact MM].
    destruct checked; [|injection B as <- <-; reflexivity]. destruct (supports_output q) as [b1| | | | |]; try discriminate B. cbn [obind] in B. destruct (supports_input q) as [b2| | | | |]; try discriminate B. cbn [obind] in B. destruct (b1 && b2); injection B as <- <-; reflexivity. }
  assert (QUIET : h' = h -> (forall i, written_by i c = []) -> (forall i, (c = CFlush [VPort i] \/ c = CClose [VPort i] \/ exists n t, c = CSeek (VPort i :: VInt n :: t)) -> r <> ABool true) ->
    (h' = h /\ (forall i, written_by i c = [])  /\ (forall i, (c = CFlush [VPort i] \/ c = CClose [VPort i] \/ exists n t, c = CSeek (VPort i :: VInt n :: t)) -> r <> ABool true)) \/
  (exists i q q' w' o, nth_error (ports h) i = Some q /\ h' = with_port h i q' w' /\ acted c r i q (here h) q' w' o) \/
  (exists p k q w', opens_at c h p k /\ h' = mkHost (ports h ++ [q]) w' /\ opened p (here h) q w' k)) by auto.
  destruct c as [a|a|a|a|a|a|a|a|a|a|a|a|i|i]; cbn [run_call] in E.
  - destruct (OPEN _ _ a IsInput (new_input_opened y) E) as [(-> & ->)|(t & p & q & w' & -> & P & H & O)]; [apply QUIET; [reflexivity|reflexivity|discriminate]|]. right; right. exists p, IsInput, q, w'. cbn [opens_at]. auto.
  - destruct (OPEN _ _ a IsOutput (new_output_opened y) E) as [(-> & ->)|(t & p & q & w' & -> & P & H & O)]; [apply QUIET; [reflexivity|reflexivity|discriminate]|]. right; right. exists p, IsOutput, q, w'. cbn [opens_at]. auto.
  - destruct (OPEN _ _ a IsIo (new_io_opened y) E) as [(-> & ->)|(t & p & q & w' & -> & P & H & O)]; [apply QUIET; [reflexivity|reflexivity|discriminate]|]. right; right. exists p, IsIo, q, w'. cbn [opens_at]. auto.
  - unfold b_close in E. destruct a as [|v [|v2 a]]; [injection E as <- <-; apply QUIET; [reflexivity|reflexivity|discriminate]| |destruct v; injection E as <- <-; (apply QUIET; [reflexivity|reflexivity|discriminate])]. destruct v; try discriminate E.
    destruct (nth_error (ports h) i) as [q|] eqn:N; [|discriminate E]. destruct (port_close y q (here h)) as [((b, q'), w')| | | | |] eqn:PC; try discriminate E. cbn [obind] in E. injection E as <- <-. apply port_close_moves in PC as (M & K & P & C); [|eapply wf_nth; eauto].
    right; left. exists i, q, q', w', []. split; [exact N|]. split; [reflexivity|]. apply acted_plain; [exact M|reflexivity|reflexivity| | |].
    + intros _ B O. injection B as ->. apply P; auto.
    + intro D. cbn in D. congruence.
    + intro KN. destruct (C KN) as (-> & -> & ->). split; [|reflexivity]. split; [|reflexivity]. eapply not_open_file; [eapply wf_nth; eauto|exact KN].
  - assert (X : (h' = h /\ r = AnError) \/ (exists i n q l q' w', nth_error (ports h) i = Some q /\ a = VPort i :: n /\ h' = with_port h i q' w' /\ (moves q (here h) q' w' [] /\ kind q' = kind q) /\ (kind q = NotOpen -> q' = q /\ w' = here h) /\ (l : answer) = r)).
    { unfold b_read in E. destruct a as [|[z|t|t|l| |i|] a]; try (injection E as <- <-; auto; fail). destruct a as [|v [|v2 a]]; [| |destruct v; injection E as <- <-; auto].
      - destruct (nth_error (ports h) i) as [q|] eqn:N; [|discriminate E]. destruct (port_read 1 q (here h)) as [((o, q'), w')| | | | |] eqn:PR; try discriminate E. cbn [obind] in E.
        assert (C : kind q = NotOpen -> q' = q /\ w' = here h) by (intro K; unfold port_read in PR; rewrite K in PR; injection PR as <- <- <-; auto).
        apply port_read_moves in PR as (M & K & S & _); [|eapply wf_nth; eauto]. right. exists i, [], q, r, q', w'. split; [exact N|]. split; [reflexivity|]. split; [|auto]. destruct o as [[|b [|b2 t]]|]; injection E as <- <-; reflexivity.
      - destruct v; try (injection E as <- <-; auto; fail). destruct (nth_error (ports h) i) as [q|] eqn:N; [|discriminate E]. destruct (read_octets (Z.to_nat z) q (here h)) as [((l, q'), w')| | | | |] eqn:PR; try discriminate E. cbn [obind] in E. injection E as <- <-.
        right. exists i, [VInt z], q, (AVec l), q', w'. split; [exact N|]. split; [reflexivity|]. split; [reflexivity|]. split; [|split; [|reflexivity]].
        + apply read_octets_moves in PR as (M & K & S); [|eapply wf_nth; eauto]. auto.
        + intro K. destruct (read_octets_closed _ _ _ _ _ _ K PR) as (? & ? & ?). auto. }
    destruct X as [(-> & ->)|(i & n & q & l & q' & w' & N & -> & -> & (M & K) & C & _)]; [apply QUIET; [reflexivity|reflexivity|discriminate]|]. right; left. exists i, q, q', w', []. split; [exact N|]. split; [reflexivity|].
    apply acted_plain; [exact M|reflexivity|reflexivity| | |].
    + intros [B|[B|(? & ? & B)]]; discriminate B.
    + intros _. exact K.
    + intro KN. destruct (C KN) as (-> & ->). split; [|intros [B|[B|(? & ? & B)]]; discriminate B]. split; [|reflexivity]. eapply not_open_file; [eapply wf_nth; eauto|exact KN].
  - assert (X : (h' = h /\ r = AnError /\ (forall i, written_by i (CWrite a) = [])) \/ (exists i v q k q' w', nth_error (ports h) i = Some q /\ a = [VPort i; v] /\ h' = with_port h i q' w' /\ wrote v q (here h) k q' w' /\ r = match k with Some z => AnInt z | None => AnError end)).
    { unfold b_write in E. destruct a as [|[z|t|t|l| |i|] a]; try (injection E as <- <-; auto; fail). destruct a as [|v [|v2 a]]; try (injection E as <- <-; auto; fail).
      destruct (nth_error (ports h) i) as [q|] eqn:N; [|discriminate E]. destruct (write_value y v q (here h)) as [((k, q'), w')| | | | |] eqn:WV; try discriminate E. cbn [obind] in E. injection E as <- <-. right. exists i, v, q, k, q', w'. split; [exact N|]. split; [reflexivity|]. split; [reflexivity|]. split; [|reflexivity].
      eapply write_value_wrote; eauto. eapply wf_nth; eauto. }
    destruct X as [(-> & -> & Z)|(i & v & q & k & q' & w' & N & -> & -> & WR & ->)]; [apply QUIET; [reflexivity|exact Z|discriminate]|]. right; left.
    assert (WP : wf_port (here h) q) by (eapply wf_nth; eauto). destruct WR as [(NO & -> & -> & ->)|(O & K & o & M & SP)].
    + exists i, q, q, (here h), []. split; [exact N|]. split; [reflexivity|]. split; auto.
      * apply moves_refl, WP.
      * reflexivity.
      * intros v0 _ C. discriminate C.
      * intros [B|[B|(? & ? & B)]]; discriminate B.
      * intro KN. split; [|reflexivity]. eapply not_open_file; eauto.
      * intro KN. split; [reflexivity|]. intros [B|[B|(? & ? & B)]]; discriminate B.
    + exists i, q, q', w', o. split; [exact N|]. split; [reflexivity|]. split; auto.
      * reflexivity.
      * cbn [written_by]. rewrite Nat.eqb_refl. discriminate.
      * intros v0 V R SC LE. cbn [written_by] in V. rewrite Nat.eqb_refl in V. injection V as <-. destruct k as [z|]; [|discriminate R]. injection R as ->. apply (SP _ eq_refl SC LE). reflexivity.
      * intros [B|[B|(? & ? & B)]]; discriminate B.
      * intro KN. exfalso. rewrite KN in O. cbn in O. intuition discriminate.
      * intro KN. exfalso. rewrite KN in O. cbn in O. intuition discriminate.
  - assert (X : (h' = h /\ r = AnError) \/ (exists i n hr t q b q' w', nth_error (ports h) i = Some q /\ a = VPort i :: VInt n :: t /\ h' = with_port h i q' w' /\ port_seek y n hr q (here h) = Ret (b, q', w') /\ r = ABool b)).
    { unfold b_seek in E. destruct a as [|[z|t|t|l| |i|] a]; try (injection E as <- <-; auto; fail). destruct a as [|[z|t|t|l| |j|] a]; try (injection E as <- <-; auto; fail).
      destruct a as [|v [|v2 a]]; [| |destruct v; injection E as <- <-; auto]; [|destruct v; try (injection E as <- <-; auto; fail)].
      all: destruct (nth_error (ports h) i) as [q|] eqn:N; [|discriminate E]. all: match type of E with context [port_seek ?yy ?zz ?hr ?qq ?ww] => destruct (port_seek yy zz hr qq ww) as [((b, q'), w')| | | | |] eqn:PS; try discriminate E; cbn [obind] in E; injection E as <- <-; right; exists i, zz, hr end.
      - exists [], q, b, q', w'. auto.
      - exists [VSym], q, b, q', w'. auto. }
    destruct X as [(-> & ->)|(i & n & hr & t & q & b & q' & w' & N & -> & -> & PS & ->)]; [apply QUIET; [reflexivity|reflexivity|discriminate]|]. right; left. exists i, q, q', w', []. split; [exact N|]. split; [reflexivity|].
    apply port_seek_moves in PS as (M & K & C & D); [|eapply wf_nth; eauto]. apply acted_plain; [exact M|reflexivity|reflexivity| | |].
    + intros _ B O. injection B as ->. apply (moves_passed q (here h) q' w' M O K). intros st F. destruct D as (st0 & st1 & _ & F1 & P & _). { apply out_kind in O. intro X. destruct O; congruence. } rewrite F in F1. injection F1 as <-. apply P. reflexivity.
    + intros _. exact K.
    + intro KN. destruct (C KN) as (-> & -> & ->). split; [|reflexivity]. split; [|reflexivity]. eapply not_open_file; [eapply wf_nth; eauto|exact KN].
  - assert (h' = h /\ r <> ABool true) as (-> & R).
    { unfold b_dist in E. destruct a as [|[z|t|t|l| |i|] [|v a]]; try (injection E as <- <-; split; [reflexivity|discriminate]). destruct (nth_error (ports h) i); [|discriminate E]. destruct (port_distance p); try discriminate E. injection E as <- <-. split; [reflexivity|discriminate]. }
    apply QUIET; [reflexivity|reflexivity|intros _ _; exact R].
  - assert (h' = h /\ r <> ABool true) as (-> & R).
    { unfold b_length in E. destruct a as [|[z|t|t|l| |i|] [|v a]]; try (injection E as <- <-; split; [reflexivity|discriminate]). destruct (nth_error (ports h) i); [|discriminate E]. injection E as <- <-. split; [reflexivity|discriminate]. }
    apply QUIET; [reflexivity|reflexivity|intros _ _; exact R].
  - assert (X : (h' = h /\ r = AnError) \/ (exists i q b q' w', nth_error (ports h) i = Some q /\ a = [VPort i] /\ h' = with_port h i q' w' /\ port_flush y q (here h) = Ret (b, q', w') /\ r = ABool b)).
    { unfold b_flush in E. destruct a as [|[z|t|t|l| |i|] [|v a]]; try (injection E as <- <-; auto; fail). destruct (nth_error (ports h) i) as [q|] eqn:N; [|discriminate E]. destruct (port_flush y q (here h)) as [((b, q'), w')| | | | |] eqn:PF; try discriminate E. cbn [obind] in E. injection E as <- <-. right. exists i, q, b, q', w'. auto. }
    destruct X as [(-> & ->)|(i & q & b & q' & w' & N & -> & -> & PS & ->)]; [apply QUIET; [reflexivity|reflexivity|discriminate]|]. right; left. exists i, q, q', w', []. split; [exact N|]. split; [reflexivity|].
    apply port_flush_moves in PS as (M & K & C & D); [|eapply wf_nth; eauto]. apply acted_plain; [exact M|reflexivity|reflexivity| | |].
    + intros _ B O. injection B as ->. apply (moves_passed q (here h) q' w' M O K). intros st F. destruct D as (st0 & st1 & _ & F1 & P & _). { apply out_kind in O. intro X. destruct O; congruence. } rewrite F in F1. injection F1 as <-. apply P. reflexivity.
    + intros _. exact K.
    + intro KN. destruct (C KN) as (-> & -> & ->). split; [|reflexivity]. split; [|reflexivity]. eapply not_open_file; [eapply wf_nth; eauto|exact KN].
  - assert (h' = h) as ->.
    { unfold b_supports in E. destruct a as [|[z|t|t|l| |i|] [|v a]]; try (injection E as <- <-; reflexivity). destruct (nth_error (ports h) i); [|discriminate E]. destruct (supports_output p); try discriminate E. injection E as <- <-. reflexivity. }
    apply QUIET; [reflexivity|reflexivity|]. intros i X. exfalso. destruct X as [B|[B|(? & ? & B)]]; discriminate B.
  - assert (h' = h) as ->.
    { unfold b_supports in E. destruct a as [|[z|t|t|l| |i|] [|v a]]; try (injection E as <- <-; reflexivity). destruct (nth_error (ports h) i); [|discriminate E]. destruct (supports_input p); try discriminate E. injection E as <- <-. reflexivity. }
    apply QUIET; [reflexivity|reflexivity|]. intros i X. exfalso. destruct X as [B|[B|(? & ? & B)]]; discriminate B.
  - unfold copy_port in E. destruct (nth_error (ports h) i) as [q|] eqn:N; [|discriminate E]. destruct (new_copy y q (here h)) as [(q', w')| | | | |] eqn:NC; try discriminate E. cbn [obind] in E. injection E as <- <-.
    right; right. exists (name q), (kind q), q', w'. cbn [opens_at]. split; [eauto|]. split; [reflexivity|]. eapply new_copy_opened; eauto using wf_nth.
  - unfold release_port in E. destruct (nth_error (ports h) i) as [q|] eqn:N; [|discriminate E]. destruct (release y q (here h)) as [w'| | | | |] eqn:RL; try discriminate E. cbn [obind] in E. injection E as <- <-.
    right; left. exists i, q, (mkPort (name q) NotOpen None (-1)), w', []. split; [exact N|]. split; [reflexivity|]. apply acted_plain; [eapply release_moves; eauto; eapply wf_nth; eauto|reflexivity|reflexivity| | |].
    + intros [B|[B|(? & ? & B)]]; discriminate B.
    + intro D. cbn in D. congruence.
    + intro KN. split; [|intros [B|[B|(? & ? & B)]]; discriminate B]. split; [reflexivity|]. unfold release in RL. rewrite KN in RL. injection RL as <-. reflexivity.
Qed.
