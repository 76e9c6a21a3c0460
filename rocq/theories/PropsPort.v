(** Properties C109-C115: file ports. *)
From Coq Require Import List NArith ZArith Bool Lia Arith.
From Verif Require Import Base SpecText SpecDefine OString ValueOps Port SpecPort PortProofs PortFacts.
Import ListNotations.
Local Open Scope N_scope.

(** ** Concrete histories, for the examples *)
Fixpoint run_calls (y : system) (l : list call) (h : host) : outcome (list (call * answer) * host) :=
  match l with
  | [] => Ret ([], h)
  | c :: l' => obind (run_call y c h) (fun '(r, h1) => obind (run_calls y l' h1) (fun '(l'', h') => Ret ((c, r) :: l'', h')))
  end.
Lemma run_calls_history y l : forall h l' h', run_calls y l h = Ret (l', h') -> history y h l' h'.
Proof.
  induction l as [|c l IH]; intros h l' h' E; cbn [run_calls] in E; [injection E as <- <-; constructor|].
  destruct (run_call y c h) as [(r, h1)| | | | |] eqn:C; try discriminate E. cbn [obind] in E. destruct (run_calls y l h1) as [(l2, h2)| | | | |] eqn:R; try discriminate E. cbn [obind] in E. injection E as <- <-. econstructor; eauto.
Qed.
Definition record (y : system) (l : list call) (h : host) : list (call * answer) := match run_calls y l h with Ret (l', _) => l' | _ => [] end.
Definition after (y : system) (l : list call) (h : host) : host := match run_calls y l h with Ret (_, h') => h' | _ => h end.
Definition returns (y : system) (l : list call) (h : host) : bool := match run_calls y l h with Ret _ => true | _ => false end.
Lemma after_history y l h : returns y l h = true -> history y h (record y l h) (after y l h).
Proof. unfold returns, record, after. destruct (run_calls y l h) as [(l', h')| | | | |] eqn:E; try discriminate. intros _. exact (run_calls_history _ _ _ _ _ E). Qed.
(** One call, with a test of its answer (the world is not normalised). *)
Definition same_answer : forall a b : answer, {a = b} + {a <> b}.
Proof. decide equality; try apply Z.eq_dec; try apply Nat.eq_dec; try apply bool_dec; apply list_eq_dec, Z.eq_dec. Defined.
Definition answers (y : system) (c : call) (h : host) (r : answer) : bool := match run_call y c h with Ret (r', _) => if same_answer r' r then true else false | _ => false end.
Lemma answers_call y c h r : answers y c h r = true -> run_call y c h = Ret (r, after y [c] h).
Proof. unfold answers, after. cbn [run_calls]. destruct (run_call y c h) as [(r', h')| | | | |]; try discriminate. destruct (same_answer r' r) as [->|]; [|discriminate]. intros _. reflexivity. Qed.
Definition same_tag : forall a b : tag, {a = b} + {a <> b}.
Proof. decide equality. Defined.
Definition open_b (ks : list tag) (h : host) (i : nat) (p : path) : bool :=
  match nth_error (ports h) i with Some q => (if path_dec (name q) p then true else false) && (if in_dec same_tag (kind q) ks then true else false) | None => false end.
Lemma open_b_spec ks h i p : open_b ks h i p = true -> is_open ks h i p.
Proof. unfold open_b, is_open. destruct (nth_error (ports h) i) as [q|]; [|discriminate]. destruct (path_dec (name q) p); [|discriminate]. destruct (in_dec same_tag (kind q) ks); [|discriminate]. eauto. Qed.
Definition closed_b (h : host) (i : nat) : bool := match nth_error (ports h) i with Some q => if same_tag (kind q) NotOpen then true else false | None => false end.
Lemma closed_b_spec h i : closed_b h i = true -> not_open h i.
Proof. unfold closed_b, not_open. destruct (nth_error (ports h) i) as [q|]; [|discriminate]. destruct (same_tag (kind q) NotOpen); [|discriminate]. eauto. Qed.
Definition stands_b (h : host) (i : nat) (p : path) (k : N) : bool :=
  open_b for_input h i p && match nth_error (ports h) i with Some q => match file q with Some st => position st =? k | None => false end | None => false end.
Lemma stands_b_spec h i p k : stands_b h i p k = true -> stands h i p k.
Proof.
  unfold stands_b. intro B. apply andb_prop in B as (A & B). apply open_b_spec in A as (q & N & NM & K). rewrite N in B. destruct (file q) as [st|] eqn:F; [|discriminate B]. apply N.eqb_eq in B. exists q, st. auto.
Qed.
Definition nobody_b (p : path) (h : host) : bool := forallb (fun q => negb ((if path_dec (name q) p then true else false) && (if in_dec same_tag (kind q) for_output then true else false))) (ports h).
Lemma nobody_b_spec p h : nobody_b p h = true -> forall j, ~ is_open for_output h j p.
Proof.
  intros B j (q & N & NM & K). unfold nobody_b in B. rewrite forallb_forall in B. specialize (B q (nth_error_In _ _ N)). destruct (path_dec (name q) p); [|contradiction]. destruct (in_dec same_tag (kind q) for_output); [discriminate B|contradiction].
Qed.
Definition rested_b (d : direction) (h : host) (i : nat) : bool :=
  match nth_error (ports h) i with Some q => match file q with Some st => match last st, d with Still, Still | Reading, Reading | Writing, Writing => false | _, _ => true end | None => true end | None => false end.
Lemma rested_b_spec d h i : rested_b d h i = true -> not_just d h i.
Proof. unfold rested_b, not_just. destruct (nth_error (ports h) i) as [q|]; [|discriminate]. intro B. exists q. split; [reflexivity|]. intros st F. rewrite F in B. destruct (last st), d; try discriminate B; discriminate. Qed.
Definition good : system := mkSystem (fun _ => true) (fun _ => 100) (fun _ => 1) (fun _ => true).
(** A system that accepts no octets. *)
Definition full : system := mkSystem (fun _ => true) (fun _ => 0) (fun _ => 0) (fun _ => true).
(** A system that opens one file and then no more. *)
Definition once : system := mkSystem (fun n => Nat.eqb n 0) (fun _ => 100) (fun _ => 1) (fun _ => true).
Definition fp : path := [102].
Definition gp : path := [103].
Definition nowhere : host := mkHost [] (mkWorld (fun _ => None) 0).
(** One file with the octets 65, 200, 66. *)
Definition one_file : host := mkHost [] (mkWorld (put_file fp [65; 200; 66] (fun _ => None)) 0).
Lemma nowhere_reachable y : reachable y nowhere.
Proof. eexists _, []. constructor. Qed.
Lemma one_file_reachable y : reachable y one_file.
Proof. eexists _, []. constructor. Qed.
Lemma history_app y h l h1 l' h' : history y h l h1 -> history y h1 l' h' -> history y h (l ++ l') h'.
Proof. induction 1; intro H2; [exact H2|]. cbn [app]. econstructor; eauto. Qed.
Lemma reachable_history y h l h' : reachable y h -> history y h l h' -> reachable y h'.
Proof. intros (w & l0 & H0) H. exists w, (l0 ++ l). eapply history_app; eauto. Qed.

(** ** C109: files only grow, and only those that were opened for output *)
Theorem C109_files_only_grow : forall y h l h' p o,
  reachable y h -> history y h l h' -> file_at h p = Some o -> exists o', file_at h' p = Some (o ++ o').
Proof. intros y h l h' p o R H E. exact (proj2 (history_wf y h l h' (reachable_wf y h R) H) p o E). Qed.
Theorem C109_other_files_untouched : forall y h l h' p,
  reachable y h -> history y h l h' -> (forall j, ~ is_open for_output h j p) -> Forall (fun cr => leaves_alone p (fst cr)) l ->
  file_at h' p = file_at h p.
Proof. intros y h l h' p R H NW F. exact (proj1 (history_untouched y h l h' p (reachable_wf y h R) H F NW)). Qed.

Definition c109_calls := [COpenOutput [VStr [102]]; COpenIo [VStr [103]]; CWrite [VPort 0; VStr [72; 105]]; CWrite [VPort 1; VInt 33]; CClose [VPort 0]; CClose [VPort 1]].
Example C109_nontrivial : exists l h', history good one_file l h' /\ file_at h' fp = Some [65; 200; 66; 72; 105] /\ file_at h' gp = Some [33] /\
  exists l1 h1, history good one_file l1 h1 /\ List.length (ports h1) = 1%nat /\ (forall j, ~ is_open for_output h1 j fp).
Proof.
  exists (record good c109_calls one_file), (after good c109_calls one_file). split; [apply after_history; vm_compute; reflexivity|]. split; [vm_compute; reflexivity|]. split; [vm_compute; reflexivity|].
  exists (record good [COpenOutput [VStr [103]]] one_file), (after good [COpenOutput [VStr [103]]] one_file). split; [apply after_history; vm_compute; reflexivity|]. split; [vm_compute; reflexivity|]. apply nobody_b_spec. vm_compute. reflexivity.
Qed.

(** ** C110: what is written arrives, in order, after what was there *)
Theorem C110_written_arrives : forall y h c t p i h1 l h',
  reachable y h -> (forall j, ~ is_open for_output h j p) ->
  (c = COpenOutput [VStr t] \/ c = COpenIo [VStr t]) -> Forall scalar t -> utf8_text (before_nul t) = p ->
  run_call y c h = Ret (APort i, h1) -> is_open for_output h1 i p ->
  history y h1 l h' -> Forall (fun cr => leaves_alone p (fst cr)) l -> ~ In (CCopy i) (map fst l) -> all_written i l ->
  exists os, Forall2 spelled (written i l) os /\
    (exists rest, octets_at h' p ++ rest = octets_at h p ++ List.concat os) /\
    (forall l0 d, l = l0 ++ [(d, ABool true)] -> passes_on i d -> octets_at h' p = octets_at h p ++ List.concat os).
Proof.
  intros y h c t p i h1 l h' R NW C F PT E O H LA NC AW. pose proof (open_collects y c h i h1 p t (reachable_wf y h R) NW C F PT E O) as CO.
  destruct (collects_history y h1 l h' i p _ H CO LA NC AW) as (os & SP & CO' & PA). exists os. split; [exact SP|]. split; [|exact PA].
  destruct (co_port _ _ _ _ CO') as (q & _ & _ & [(_ & st & _ & X)|(_ & rest & X)]); eauto.
Qed.
Definition c110_open := after good [COpenOutput [VStr [102]]] one_file.
Definition c110_calls := [CWrite [VPort 0; VStr [72; 228]]; CWrite [VPort 0; VVec [VInt 7; VChar [33]]]; CFlush [VPort 0]].
Definition c110_record : list (call * answer) := [(CWrite [VPort 0; VStr [72; 228]], AnInt 3); (CWrite [VPort 0; VVec [VInt 7; VChar [33]]], AnInt 2); (CFlush [VPort 0], ABool true)].
Example C110_nontrivial : exists h1 l h', run_call good (COpenOutput [VStr [102]]) one_file = Ret (APort 0, h1) /\ is_open for_output h1 0 fp /\ history good h1 l h' /\
  Forall (fun cr => leaves_alone fp (fst cr)) l /\ ~ In (CCopy 0) (map fst l) /\ all_written 0 l /\ written 0 l = [VStr [72; 228]; VVec [VInt 7; VChar [33]]] /\ octets_at h' fp = [65; 200; 66; 72; 195; 164; 7; 33].
Proof.
  exists c110_open, c110_record, (after good c110_calls c110_open). split; [apply answers_call; vm_compute; reflexivity|]. split; [apply open_b_spec; vm_compute; reflexivity|].
  assert (RC : record good c110_calls c110_open = c110_record) by (vm_compute; reflexivity). split; [rewrite <- RC; apply after_history; vm_compute; reflexivity|].
  split; [repeat constructor|]. split; [cbn; intuition discriminate|]. split; [|split; vm_compute; reflexivity].
  intros v r [X|[X|[X|[]]]]; inversion X; subst; (split; [cbn; unfold scalar; repeat constructor; lia|]); (split; [vm_compute; discriminate|reflexivity]).
Qed.
(** As the claim that octets which the system does not accept are reported as an error, this is false: port-write of an integer answers 0. *)
Theorem C110_short_write_is_an_error_refuted : ~ (forall y h i p v r h', reachable y h -> is_open for_output h i p -> scalar_value v ->
  (forall n, takes y n = 0) -> (0 < size v)%Z -> run_call y (CWrite [VPort i; v]) h = Ret (r, h') -> r = AnError).
Proof.
  intro C. assert (X : AnInt 0 = AnError); [|discriminate X]. eapply (C full (after full [COpenOutput [VStr [102]]] nowhere) 0%nat fp (VInt 65)).
  - eapply reachable_history; [apply nowhere_reachable|apply after_history; vm_compute; reflexivity].
  - apply open_b_spec. vm_compute. reflexivity.
  - exact I.
  - reflexivity.
  - reflexivity.
  - apply answers_call. vm_compute. reflexivity.
Qed.
(** Texts: all the octets or an error. *)
Theorem C110_text_all_or_error : forall y h i p t r h', reachable y h -> is_open for_output h i p -> Forall scalar t -> (size (VStr t) <= INT32_MAX)%Z ->
  run_call y (CWrite [VPort i; VStr t]) h = Ret (r, h') -> r = AnError \/ r = AnInt (size (VStr t)).
Proof.
  intros y h i p t r h' R (q & N & NM & K) F LE E. cbn [run_call] in E. unfold b_write in E. rewrite N in E.
  destruct (write_value y (VStr t) q (here h)) as [((k, q'), w')| | | | |] eqn:WV; try discriminate E. cbn [obind] in E. injection E as <- <-. destruct k as [z|]; [right|left; reflexivity]. f_equal.
  cbn [write_value] in WV. destruct (supports_output q) as [b| | | | |]; try discriminate WV. cbn [obind] in WV. destruct b; [|discriminate WV].
  unfold write_text in WV. rewrite octets_to_write_fine in WV by exact F. cbn [obind] in WV. destruct (port_write y (utf8_text t) q (here h)) as [((k, q1), w1)| | | | |]; try discriminate WV. cbn [obind] in WV. destruct (_ =? _)%Z; [|discriminate WV]. injection WV as <- _ _.
  cbn [size] in *. unfold len. rewrite wrap_small by lia. lia.
Qed.

(** ** C111: reading and seeking *)
Theorem C111_opened_at_the_beginning : forall y c h p i h1, reachable y h -> opens_path p c -> run_call y c h = Ret (APort i, h1) ->
  ~ there h i /\ (forall p', octets_at h1 p' = octets_at h p') /\ (is_open for_input h1 i p -> stands h1 i p 0).
Proof.
  intros y c h p i h1 R OP E. destruct (open_call y c h p _ h1 OP E) as (q & w' & -> & O & [RR|(RR & _)] & _); [|discriminate RR]. injection RR as ->. split; [unfold there; lia|]. split; [intro p'; exact (opened_same _ _ _ _ _ p' O)|].
  intros (q0 & N & NM & K). cbn [ports] in N. rewrite nth_error_app2 in N by reflexivity. rewrite Nat.sub_diag in N. injection N as <-. destruct (op_wf _ _ _ _ _ O) as [(KN & _)|(KN & _ & st & F & _)]; [rewrite KN in K; cbn in K; intuition discriminate|].
  exists q, st. cbn [ports]. rewrite nth_error_app2 by reflexivity. rewrite Nat.sub_diag. repeat split; auto. apply (op_pending _ _ _ _ _ O st F), K.
Qed.
Theorem C111_read_one : forall y h i p k r h', reachable y h -> stands h i p k -> octets (octets_at h p) -> run_call y (CRead [VPort i]) h = Ret (r, h') ->
  (forall p', file_at h' p' = file_at h p') /\
  match nth_error (octets_at h p) (N.to_nat k) with
  | Some b => exists z, r = AnInt z /\ read_as b z /\ stands h' i p (k + 1)
  | None => r = AnError /\ stands h' i p k
  end.
Proof.
  intros y h i p k r h' R ST OC E. destruct (read_call y h i p k [] r h' (reachable_wf y h R) ST E) as (n & NU & ST' & SA & X & _). destruct (X eq_refl) as (-> & RR). split; [exact SA|].
  assert (SK : firstn 1 (skip k (octets_at h p)) = match nth_error (octets_at h p) (N.to_nat k) with Some b => [b] | None => [] end).
  { unfold skip. generalize (N.to_nat k). generalize (octets_at h p). clear. intros l n. revert n. induction l as [|a l IH]; intros [|n]; cbn; try reflexivity. apply IH. }
  rewrite SK in NU. destruct (nth_error (octets_at h p) (N.to_nat k)) as [b|] eqn:NB; cbn [map] in NU.
  - destruct RR as [->|(z & ->)]; [discriminate NU|]. cbn [numbers] in NU. injection NU as ->. exists (signed_octet b). split; [reflexivity|]. split; [|exact ST'].
    apply signed_octet_spec. eapply Forall_forall; [exact OC|eapply nth_error_In; eauto].
  - destruct RR as [->|(z & ->)]; [|discriminate NU]. split; [reflexivity|]. cbn [numbers List.length N.of_nat] in ST'. rewrite N.add_0_r in ST'. exact ST'.
Qed.
Lemma in_firstn {X} (b : X) m : forall l, In b (firstn m l) -> In b l.
Proof. induction m as [|m IH]; intros [|a l] I; cbn in I; try contradiction. destruct I as [->|I]; [left; reflexivity|right; apply IH, I]. Qed.
Lemma in_skipn {X} (b : X) m : forall l, In b (skipn m l) -> In b l.
Proof. induction m as [|m IH]; intros [|a l] I; cbn in *; auto. Qed.
Theorem C111_read_many : forall y h i p k n r h', reachable y h -> stands h i p k -> octets (octets_at h p) -> run_call y (CRead [VPort i; VInt n]) h = Ret (r, h') ->
  (forall p', file_at h' p' = file_at h p') /\
  exists l, r = AVec l /\ Forall2 read_as (firstn (Z.to_nat n) (skipn (N.to_nat k) (octets_at h p))) l /\ stands h' i p (k + N.of_nat (List.length l)).
Proof.
  intros y h i p k n r h' R ST OC E. destruct (read_call y h i p k [VInt n] r h' (reachable_wf y h R) ST E) as (m & NU & ST' & SA & _ & X). destruct (X n eq_refl) as (-> & l & ->). split; [exact SA|]. exists l. split; [reflexivity|]. cbn [numbers] in *. split; [|exact ST'].
  rewrite NU. unfold skip. assert (OC2 : octets (firstn (Z.to_nat n) (skipn (N.to_nat k) (octets_at h p)))).
  { apply Forall_forall. intros b B. eapply Forall_forall; [exact OC|]. eapply in_skipn, in_firstn, B. }
  revert OC2. generalize (firstn (Z.to_nat n) (skipn (N.to_nat k) (octets_at h p))). clear. intros o OC. induction OC; constructor; [apply signed_octet_spec; assumption|assumption].
Qed.
(** A whole history of reads: the octets of the file from the position on, each once, in order. *)
Theorem C111_reading_in_order : forall y h l h' i p k, reachable y h -> history y h l h' -> stands h i p k -> octets (octets_at h p) ->
  (forall j, ~ is_open for_output h j p) -> Forall (fun cr => leaves_alone p (fst cr) /\ does_not_move i (fst cr)) l ->
  exists m, Forall2 read_as (firstn m (skipn (N.to_nat k) (octets_at h p))) (read_from i l) /\ stands h' i p (k + N.of_nat (List.length (read_from i l))).
Proof.
  intros y h l h' i p k R H ST OC NW F. destruct (read_history y h l h' i p (reachable_wf y h R) H NW F k ST) as (bs & RF & B & ST'). exists (List.length bs). rewrite RF, map_length. split; [|exact ST']. unfold skip in B. rewrite <- B.
  assert (OB : octets bs).
  { rewrite B. apply Forall_forall. intros b IB. eapply Forall_forall; [exact OC|]. eapply in_skipn, in_firstn, IB. }
  clear -OB. induction OB; constructor; [apply signed_octet_spec; assumption|assumption].
Qed.
Theorem C111_seek : forall y h i p k n cur r h', reachable y h -> stands h i p k -> run_call y (seek_call_of i n cur) h = Ret (r, h') ->
  exists b, r = ABool b /\ (if b then (0 <= seek_to n cur k (octet_length h' p))%Z /\ stands h' i p (Z.to_N (seek_to n cur k (octet_length h' p))) else stands h' i p k).
Proof. intros y h i p k n cur r h' R ST E. exact (seek_stands y h i p k n cur r h' (reachable_wf y h R) ST E). Qed.
Theorem C111_seek_input : forall y h i p k n cur r h', reachable y h -> stands h i p k -> is_open [IsInput] h i p -> run_call y (seek_call_of i n cur) h = Ret (r, h') ->
  r = ABool (0 <=? seek_to n cur k (octet_length h p))%Z /\ (forall p', file_at h' p' = file_at h p').
Proof.
  intros y h i p k n cur r h' R ST O E. pose proof (reachable_wf y h R) as W. destruct (seek_call y h i p k n cur r h' W ST (input_nothing_waits h i p W O) E) as (A & _ & C). split; [exact A|exact C].
Qed.
Theorem C111_dist : forall y h i p k, stands h i p k -> (Z.of_N k <= INT32_MAX)%Z -> run_call y (CDist [VPort i]) h = Ret (AnInt (Z.of_N k), h).
Proof.
  intros y h i p k (q & st & N & NM & K & F & P) LE. cbn [run_call]. unfold b_dist, port_distance. rewrite N, F. destruct (kind q); try (cbn in K; intuition discriminate); cbn [obind]; rewrite P, wrap_small by lia; reflexivity.
Qed.
Definition c111_open := after good [COpenInput [VStr [102]]] one_file.
Definition c111_calls := [CRead [VPort 0]; CDist [VPort 0]; CRead [VPort 0; VInt 5]; CRead [VPort 0]].
Definition c111_record : list (call * answer) := [(CRead [VPort 0], AnInt 65); (CDist [VPort 0], AnInt 1); (CRead [VPort 0; VInt 5], AVec [-56; 66]%Z); (CRead [VPort 0], AnError)].
Example C111_nontrivial : exists h1 l h', run_call good (COpenInput [VStr [102]]) one_file = Ret (APort 0, h1) /\ stands h1 0 fp 0 /\ octets (octets_at h1 fp) /\ is_open [IsInput] h1 0 fp /\ (forall j, ~ is_open for_output h1 j fp) /\
  history good h1 l h' /\ Forall (fun cr => leaves_alone fp (fst cr) /\ does_not_move 0 (fst cr)) l /\ read_from 0 l = [65; -56; 66]%Z /\
  exists h2, run_call good (seek_call_of 0 (-2) false) h' = Ret (ABool true, h2) /\ stands h2 0 fp 2.
Proof.
  exists c111_open, c111_record, (after good c111_calls c111_open). split; [apply answers_call; vm_compute; reflexivity|]. split; [apply stands_b_spec; vm_compute; reflexivity|].
  split; [replace (octets_at c111_open fp) with [65; 200; 66] by (vm_compute; reflexivity); repeat constructor|]. split; [apply open_b_spec; vm_compute; reflexivity|]. split; [apply nobody_b_spec; vm_compute; reflexivity|].
  assert (RC : record good c111_calls c111_open = c111_record) by (vm_compute; reflexivity). split; [rewrite <- RC; apply after_history; vm_compute; reflexivity|]. split; [repeat constructor|]. split; [reflexivity|].
  eexists. split; [apply answers_call; vm_compute; reflexivity|]. apply stands_b_spec. vm_compute. reflexivity.
Qed.

(** ** C112: opening may fail; a port that is not open does nothing *)
Theorem C112_open : forall y c h p r h1, reachable y h -> opens_path p c -> run_call y c h = Ret (r, h1) ->
  let i := List.length (ports h) in
  let succeeds := opens y (time (here h)) = true /\ (forall a, c = COpenInput a -> file_at h p <> None) in
  (succeeds -> r = APort i /\ is_open [IsInput; IsOutput; IsIo] h1 i p /\ file_at h1 p <> None /\
     (is_open for_input h1 i p <-> forall a, c <> COpenOutput a) /\ (is_open for_output h1 i p <-> forall a, c <> COpenInput a)) /\
  (~ succeeds -> not_open h1 i /\ (r = AnError \/ r = APort i) /\ (forall p', file_at h1 p' = file_at h p')).
Proof.
  intros y c h p r h1 R OP E i succeeds. destruct (open_call y c h p r h1 OP E) as (q & w' & -> & O & RR & IFF).
  assert (KC : (kind_of_call c = IsInput -> file_at h p <> None) <-> (forall a, c = COpenInput a -> file_at h p <> None)).
  { destruct OP as (t & _ & _ & [-> |[-> | ->]]); cbn; split; intro X; try (intros; discriminate); try (intros a _; apply X; reflexivity). intros _. exact (X _ eq_refl). }
  assert (IFF' : kind q <> NotOpen <-> succeeds) by (unfold succeeds; tauto). clear IFF KC.
  assert (NQ : nth_error (ports h ++ [q]) i = Some q) by (unfold i; rewrite nth_error_app2 by reflexivity; rewrite Nat.sub_diag; reflexivity).
  split; intro S.
  - apply IFF' in S. destruct RR as [->|(_ & C)]; [|contradiction]. destruct (op_kind _ _ _ _ _ O) as [K|K]; [|contradiction]. split; [reflexivity|].
    assert (IS : forall ks, is_open ks (mkHost (ports h ++ [q]) w') i p <-> In (kind q) ks).
    { intro ks. split; [intros (q0 & N & _ & X); cbn [ports] in N; rewrite NQ in N; injection N as <-; exact X|]. intro X. exists q. cbn [ports]. repeat split; [exact NQ|apply (op_name _ _ _ _ _ O)|exact X]. }
    split; [apply IS; rewrite K; destruct OP as (t & _ & _ & [-> |[-> | ->]]); cbn; auto|]. split.
    + unfold file_at. cbn [here]. destruct (op_wf _ _ _ _ _ O) as [(KN & _)|(_ & D & _)]; [contradiction|]. rewrite <- (op_name _ _ _ _ _ O). exact D.
    + rewrite !IS, K. destruct OP as (t & _ & _ & [-> |[-> | ->]]); cbn; split; split; intro X; intuition (try discriminate); exfalso; eapply X; reflexivity.
  - assert (KN : kind q = NotOpen) by (destruct (kind q) eqn:K; [exfalso; apply S, IFF'; discriminate ..|reflexivity]). split; [exists q; auto|]. split; [destruct RR as [->|(-> & _)]; auto|]. intro p'. unfold file_at. cbn [here]. apply (op_quiet _ _ _ _ _ O). rewrite KN. cbn. intuition discriminate.
Qed.
Theorem C112_closed_port_does_nothing : forall y h i, not_open h i ->
  run_call y (CRead [VPort i]) h = Ret (AnError, h) /\ (forall n, run_call y (CRead [VPort i; VInt n]) h = Ret (AVec [], h)) /\ (forall v, run_call y (CWrite [VPort i; v]) h = Ret (AnError, h)) /\
  (forall n cur, run_call y (seek_call_of i n cur) h = Ret (ABool false, h)) /\ run_call y (CFlush [VPort i]) h = Ret (ABool false, h) /\
  run_call y (CClose [VPort i]) h = Ret (ABool false, h) /\ run_call y (CDist [VPort i]) h = Ret (AnInt (-1), h) /\ run_call y (CSupportsInput [VPort i]) h = Ret (ABool false, h) /\ run_call y (CSupportsOutput [VPort i]) h = Ret (ABool false, h).
Proof.
  intros y h i N. destruct (closed_calls y h i N) as (A & B & C & D & D2 & E & F & G & H & I). repeat (split; [assumption|]). split; [|auto]. intros n [|]; [apply D2|apply D].
Qed.
Theorem C112_stays_closed : forall y h r h1 l h' i, reachable y h -> run_call y (CClose [VPort i]) h = Ret (r, h1) -> history y h1 l h' -> not_open h' i.
Proof.
  intros y h r h1 l h' i R E H. pose proof (reachable_wf y h R) as W. eapply history_closed; [eapply call_wf; eauto|exact H|eapply close_closes; eauto].
Qed.
Theorem C112_closed_length : forall y h i, reachable y h -> not_open h i -> run_call y (CLength [VPort i]) h = Ret (AnInt (-1), h).
Proof.
  intros y h i R (q & N & K). pose proof (wf_nth _ _ _ (reachable_wf y h R) N) as [(_ & _ & C)|(C & _)]; [|contradiction]. cbn [run_call]. unfold b_length, port_length. rewrite N, C. reflexivity.
Qed.
Definition c112_calls := [COpenInput [VStr [102]]; CRead [VPort 0]; CClose [VPort 0]; CRead [VPort 0]; CRead [VPort 0; VInt 2]; CClose [VPort 0]; COpenInput [VStr [102]]; CRead [VPort 1]].
Example C112_nontrivial : (exists h1, run_call good (COpenInput [VStr [103]]) one_file = Ret (APort 0, h1) /\ not_open h1 0) /\
  (exists h1, run_call once (COpenOutput [VStr [103]]) (mkHost [] (mkWorld (fun _ => None) 1)) = Ret (APort 0, h1) /\ not_open h1 0) /\
  exists l h', history good one_file l h' /\ map snd l = [APort 0; AnInt 65; ABool true; AnError; AVec []; ABool false; APort 1; AnInt 65].
Proof.
  split; [eexists; split; [apply answers_call; vm_compute; reflexivity|apply closed_b_spec; vm_compute; reflexivity]|]. split; [eexists; split; [apply answers_call; vm_compute; reflexivity|apply closed_b_spec; vm_compute; reflexivity]|].
  exists (record good c112_calls one_file), (after good c112_calls one_file). split; [apply after_history; vm_compute; reflexivity|]. vm_compute. reflexivity.
Qed.

(** ** C113: which calls return *)
Theorem C113_fine_calls_return : forall y h c, reachable y h -> fine y h c -> exists r h', run_call y c h = Ret (r, h').
Proof. intros y h c R F. exact (fine_returns y h c (reachable_wf y h R) F). Qed.
Definition c113_calls := [COpenIo [VStr [102]]; COpenInput [VStr [102]]; CRead [VPort 0]; CSeek [VPort 0; VInt 0]].
Example C113_nontrivial : exists l h', history good one_file l h' /\ fine good h' (CWrite [VPort 0; VVec [VInt 3; VStr [65]]]) /\ fine good h' (CCopy 0) /\ fine good h' (CRead [VPort 1; VInt 9]).
Proof.
  exists (record good c113_calls one_file), (after good c113_calls one_file). split; [apply after_history; vm_compute; reflexivity|]. cbn [fine]. split.
  - split; [apply rested_b_spec; vm_compute; reflexivity|]. split; [cbn; repeat split; repeat constructor; unfold scalar; lia|vm_compute; discriminate].
  - split; [split; [apply Nat.ltb_lt; vm_compute; reflexivity|reflexivity]|]. apply rested_b_spec. vm_compute. reflexivity.
Qed.
(** As a claim about all calls this is false: a wrong argument aborts the program, ... *)
Theorem C113_every_call_returns_refuted : ~ (forall y h c, reachable y h -> exists r h', run_call y c h = Ret (r, h')).
Proof. intro C. destruct (C good nowhere (COpenInput [VInt 1]) (nowhere_reachable _)) as (r & h' & E). discriminate E. Qed.
(** ... and even with arguments of the right kinds: reading directly after writing on a port for both, and copying a port whose file cannot be opened again. *)
Theorem C113_read_after_write_refuted : ~ (forall y h i p, reachable y h -> is_open [IsIo] h i p -> run_call y (CRead [VPort i]) h <> Undef).
Proof.
  intro C. pose (l := [COpenIo [VStr [102]]; CWrite [VPort 0; VInt 65]]). apply (C good (after good l nowhere) 0%nat fp).
  - eapply reachable_history; [apply nowhere_reachable|apply after_history; vm_compute; reflexivity].
  - apply open_b_spec. vm_compute. reflexivity.
  - vm_compute. reflexivity.
Qed.
Theorem C113_copy_refuted : ~ (forall y h i p, reachable y h -> is_open [IsInput; IsOutput; IsIo] h i p -> run_call y (CCopy i) h <> Undef).
Proof.
  intro C. apply (C once (after once [COpenOutput [VStr [102]]] nowhere) 0%nat fp).
  - eapply reachable_history; [apply nowhere_reachable|apply after_history; vm_compute; reflexivity].
  - apply open_b_spec. vm_compute. reflexivity.
  - vm_compute. reflexivity.
Qed.

(** ** C114: port-length *)
Theorem C114_length_when_opened : forall y c h p i h1 l h', reachable y h -> opens_path p c -> run_call y c h = Ret (APort i, h1) -> (Z.of_N (octet_length h p) <= INT32_MAX)%Z ->
  history y h1 l h' -> is_open [IsInput; IsOutput; IsIo] h' i p -> says_length y h' i (octet_length h p).
Proof.
  intros y c h p i h1 l h' R OP E LE H (q' & N' & NM & K). pose proof (reachable_wf y h R) as W. destruct (call_wf _ _ _ _ _ W E) as (W1 & _).
  destruct (open_call y c h p _ h1 OP E) as (q & w' & -> & O & [RR|(RR & _)] & _); [|discriminate RR]. injection RR as ->.
  assert (NQ : nth_error (ports h ++ [q]) (List.length (ports h)) = Some q) by (rewrite nth_error_app2 by reflexivity; rewrite Nat.sub_diag; reflexivity).
  destruct (history_length y _ l h' _ q W1 H NQ) as (q2 & N2 & _ & X). rewrite N' in N2. injection N2 as <-. assert (KN : kind q' <> NotOpen) by (intro C; rewrite C in K; cbn in K; intuition discriminate). destruct (X KN) as (KQ & CT).
  unfold says_length. cbn [run_call]. unfold b_length, port_length. rewrite N', CT, (op_count _ _ _ _ _ O KQ), (opened_same _ _ _ _ _ p O). unfold octet_length, octets_at, file_at in *. fold (content (here h) p) in *. unfold len. rewrite wrap_small by lia. reflexivity.
Qed.
Definition c114_calls := [CWrite [VPort 0; VInt 65]; CFlush [VPort 0]].
Example C114_nontrivial : exists h1 l h', run_call good (COpenOutput [VStr [102]]) one_file = Ret (APort 0, h1) /\ history good h1 l h' /\ is_open [IsInput; IsOutput; IsIo] h' 0 fp /\ octet_length one_file fp = 3.
Proof.
  exists c110_open, (record good c114_calls c110_open), (after good c114_calls c110_open). split; [apply answers_call; vm_compute; reflexivity|]. split; [apply after_history; vm_compute; reflexivity|]. split; [apply open_b_spec; vm_compute; reflexivity|vm_compute; reflexivity].
Qed.
(** As the claim that port-length gives the present length of the file this is false. *)
Theorem C114_present_length_refuted : ~ (forall y h i p, reachable y h -> is_open [IsInput; IsOutput; IsIo] h i p -> says_length y h i (octet_length h p)).
Proof.
  intro C. pose (l := [COpenOutput [VStr [102]]; CWrite [VPort 0; VInt 65]; CFlush [VPort 0]]). set (h := after good l nowhere). assert (X : says_length good h 0 (octet_length h fp)).
  { apply C; [eapply reachable_history; [apply nowhere_reachable|apply after_history; vm_compute; reflexivity]|apply open_b_spec; vm_compute; reflexivity]. }
  unfold says_length in X. assert (Y : answers good (CLength [VPort 0]) h (AnInt 0) = true) by (vm_compute; reflexivity). apply answers_call in Y. rewrite X in Y. assert (Z : octet_length h fp = 1) by (vm_compute; reflexivity). rewrite Z in Y. discriminate Y.
Qed.

(** ** C115: what is written can be read back *)
Theorem C115_write_seek_read : forall y h i p v h1 h2 r h3, reachable y h -> is_open [IsIo] h i p -> scalar_value v -> (size v < INT32_MAX)%Z ->
  run_call y (CWrite [VPort i; v]) h = Ret (AnInt (size v), h1) ->
  run_call y (CSeek [VPort i; VInt (- (1 + size v))]) h1 = Ret (ABool true, h2) ->
  run_call y (CRead [VPort i; VInt (size v)]) h2 = Ret (r, h3) ->
  exists o l, spelled v o /\ r = AVec l /\ Forall2 read_as o l.
Proof. intros y h i p v h1 h2 r h3 R O SC LE WR SK RD. exact (write_read_back y h i p v h1 true h2 r h3 (reachable_wf y h R) O SC LE WR SK eq_refl RD). Qed.
(** Small numbers come back as they are. *)
Theorem C115_small_numbers_come_back : forall y h i p z h1 h2 r h3, reachable y h -> is_open [IsIo] h i p -> (-128 <= z < 128)%Z ->
  run_call y (CWrite [VPort i; VInt z]) h = Ret (AnInt 1, h1) -> run_call y (CSeek [VPort i; VInt (-2)]) h1 = Ret (ABool true, h2) -> run_call y (CRead [VPort i; VInt 1]) h2 = Ret (r, h3) ->
  r = AVec [z].
Proof.
  intros y h i p z h1 h2 r h3 R O Z WR SK RD. destruct (C115_write_seek_read y h i p (VInt z) h1 h2 r h3 R O I ltac:(vm_compute; reflexivity) WR SK RD) as (o & l & SP & -> & F). inversion SP; subst.
  inversion F as [|? z2 ? l2 RA F2]; subst. inversion F2; subst. f_equal. f_equal. destruct RA as (M & LE). pose proof (Z.div_mod z 256). pose proof (Z.div_mod z2 256). lia.
Qed.
Definition c115_calls := [COpenIo [VStr [102]]; CWrite [VPort 0; VVec [VInt (-7); VStr [72; 228]]]; CSeek [VPort 0; VInt (-5)]; CRead [VPort 0; VInt 4]; CSeek [VPort 0; VInt 0]; CWrite [VPort 0; VInt (-100)]; CSeek [VPort 0; VInt (-2)]; CRead [VPort 0; VInt 1]].
Example C115_nontrivial : exists l h', history good one_file l h' /\ map snd l = [APort 0; AnInt 4; ABool true; AVec [-7; 72; -61; -92]%Z; ABool true; AnInt 1; ABool true; AVec [-100]%Z].
Proof.
  exists (record good c115_calls one_file), (after good c115_calls one_file). split; [apply after_history; vm_compute; reflexivity|]. vm_compute. reflexivity.
Qed.
(** As a claim about all octets, also those from 128 to 255, this is false: they come back negative. *)
Theorem C115_all_octets_come_back_refuted : ~ (forall y h i p z h1 h2 r h3, reachable y h -> is_open [IsIo] h i p -> (0 <= z < 256)%Z ->
  run_call y (CWrite [VPort i; VInt z]) h = Ret (AnInt 1, h1) -> run_call y (CSeek [VPort i; VInt (-2)]) h1 = Ret (ABool true, h2) -> run_call y (CRead [VPort i; VInt 1]) h2 = Ret (r, h3) ->
  r = AVec [z]).
Proof.
  intro C. set (h := after good [COpenIo [VStr [102]]] nowhere). set (h1 := after good [CWrite [VPort 0; VInt 200]] h). set (h2 := after good [CSeek [VPort 0; VInt (-2)]] h1).
  assert (X : AVec [-56]%Z = AVec [200]%Z); [|discriminate X]. apply (C good h 0%nat fp 200%Z h1 h2 (AVec [-56]%Z) (after good [CRead [VPort 0; VInt 1]] h2)).
  - eapply reachable_history; [apply nowhere_reachable|apply after_history; vm_compute; reflexivity].
  - apply open_b_spec. vm_compute. reflexivity.
  - lia.
  - apply answers_call. vm_compute. reflexivity.
  - apply answers_call. vm_compute. reflexivity.
  - apply answers_call. vm_compute. reflexivity.
Qed.

Print Assumptions C109_files_only_grow.
Print Assumptions C109_other_files_untouched.
Print Assumptions C110_written_arrives.
Print Assumptions C110_short_write_is_an_error_refuted.
Print Assumptions C110_text_all_or_error.
Print Assumptions C111_opened_at_the_beginning.
Print Assumptions C111_read_one.
Print Assumptions C111_read_many.
Print Assumptions C111_reading_in_order.
Print Assumptions C111_seek.
Print Assumptions C111_seek_input.
Print Assumptions C111_dist.
Print Assumptions C112_open.
Print Assumptions C112_closed_port_does_nothing.
Print Assumptions C112_stays_closed.
Print Assumptions C112_closed_length.
Print Assumptions C113_fine_calls_return.
Print Assumptions C113_every_call_returns_refuted.
Print Assumptions C113_read_after_write_refuted.
Print Assumptions C113_copy_refuted.
Print Assumptions C114_length_when_opened.
Print Assumptions C114_present_length_refuted.
Print Assumptions C115_write_seek_read.
Print Assumptions C115_small_numbers_come_back.
Print Assumptions C115_all_octets_come_back_refuted.
