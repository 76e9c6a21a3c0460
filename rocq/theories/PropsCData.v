(** C129: C data. *)
From Coq Require Import NArith ZArith Bool Lia Arith String List.
From Verif Require Import Base Utf8 Utf8Proofs SpecText SpecStr SpecValue OString OStringProofs LexerProofs HMap Semver Heap ValueOps ToText PropsSemver CData SpecCData PropsText ValueProofs ReplProofs Env Boot.
Import ListNotations.
Local Open Scope string_scope.
Local Open Scope list_scope.
Local Open Scope N_scope.

(** New C data has the names and the payload it was made with. *)
Theorem C129_new : forall x, sound x ->
  c_data_new (utf8_text (pluginName x)) (utf8_text (payloadType x)) (payload x) (utf8_text (cleanUpName x)) (utf8_text (lenName x)) (utf8_text (linkAtName x))
    (utf8_text (copyAtName x)) (utf8_text (toStringName x)) (utf8_text (compareName x)) (copyingAllowed x) = Ret x.
Proof.
  intros x (A & B & C & D & E & F & G & H). unfold c_data_new.
  assert (K : forall t, sound_text t -> new_name (utf8_text t) = Ret t).
  { intros t T. unfold new_name. assert (N : Forall decodable t). { apply Forall_forall. intros c I. destruct T as (T1 & T2). rewrite Forall_forall in T1. apply scalar_decodable; [auto|]. intros ->. contradiction. }
    pose proof (utf8_text_nonul t N) as Z. assert (EC : cstr (utf8_text t) = utf8_text t). { pose proof (cstr_app (utf8_text t) [] Z) as Q. rewrite !app_nil_r in Q. exact Q. }
    rewrite EC. now apply octets_text_ok. }
  rewrite !K by assumption. cbn. now destruct x.
Qed.
Print Assumptions C129_new.
(** A copy is like the original and shares its payload; there is one exactly if
    copying is allowed. *)
Theorem C129_copy : forall x, sound x -> c_data_copy x = Ret x.
Proof. intros x (A & B & C & D & E & F & G & H). unfold c_data_copy. rewrite !copy_ok by assumption. cbn. now destruct x. Qed.
Print Assumptions C129_copy.
Theorem C129_copy_allowed : forall x, sound x -> value_copy x = Ret (if copyingAllowed x then Some x else None).
Proof. intros x S. unfold value_copy. rewrite (C129_copy x S). now destruct (copyingAllowed x). Qed.
Print Assumptions C129_copy_allowed.

(** What a function of a plug-in checks of an argument: the two names are the ones
    it asks for. *)
Lemma utf8_text_injective a b : Forall decodable a -> Forall decodable b -> utf8_text a = utf8_text b -> a = b.
Proof. intros A B E. pose proof (longest_prefix_text a A) as P. rewrite E in P. exact (proj1 (longest_prefix_unique _ _ _ _ _ P (longest_prefix_text b B))). Qed.
Lemma sound_decodable t : sound_text t -> Forall decodable t.
Proof. intros (T1 & T2). apply Forall_forall. intros c I. rewrite Forall_forall in T1. apply scalar_decodable; [auto|]. intros ->. contradiction. Qed.
Lemma is_c_string_right t u : sound_text t -> sound_text u -> exists b, is_c_string t (utf8_text u) = Ret b /\ (b = true <-> t = u).
Proof.
  intros T U. unfold is_c_string. assert (CO : coherent (text_str t)) by now left.
  destruct (str_ensure_coherent _ CO) as (_ & _ & E & _). rewrite E. cbn [text_str ucs]. rewrite encode_octets_scalar by apply T.
  assert (EU : cstr (utf8_text u) = utf8_text u). { pose proof (cstr_app (utf8_text u) [] (utf8_text_nonul u (sound_decodable u U))) as Q. rewrite !app_nil_r in Q. exact Q. }
  destruct (utf8_text t ++ [0]) as [|o l] eqn:EO; [apply app_eq_nil in EO as (_ & EO); discriminate|]. rewrite <- EO, last_app_nul, removelast_last, EU. cbn.
  eexists. split; [reflexivity|]. destruct (list_eq_dec _ _ _) as [K|K]; split; try easy.
  - intros _. apply utf8_text_injective; auto using sound_decodable.
  - intros ->. now elim K.
Qed.
Theorem C129_kind : forall x p t, sound x -> sound_text p -> sound_text t ->
  exists b, is_plugin_and_type x (utf8_text p) (utf8_text t) = Ret b /\ (b = true <-> pluginName x = p /\ payloadType x = t).
Proof.
  intros x p t (A & B & _) P T. unfold is_plugin_and_type. destruct (is_c_string_right _ _ A P) as (b & -> & K). destruct (is_c_string_right _ _ B T) as (c & E & L). cbn.
  destruct b; [rewrite E; exists c; split; [reflexivity|]; rewrite L; intuition|]. exists false. split; [reflexivity|]. split; [discriminate|]. intros (J & _). now apply K in J.
Qed.
Print Assumptions C129_kind.
Example C129_kind_case : is_plugin_and_type (mkCData (asc "sdl") (asc "texture") 1 [] [] [] [] [] [] true) (asc "sdl") (asc "texture") = Ret true /\
  is_plugin_and_type (mkCData (asc "sdl") (asc "texture") 1 [] [] [] [] [] [] true) (asc "sdl") (asc "textures") = Ret false.
Proof. split; reflexivity. Qed.

(** ** The order *)
Definition kind_order (x y : c_data) : comparison := match lex (pluginName x) (pluginName y) with Eq => lex (payloadType x) (payloadType y) | c => c end.
Definition within (libraries : text -> option plugin) (x y : N * c_data) : outcome Z :=
  match compareName (snd x) with
  | [] => Ret (of_cmp (fst x ?= fst y))
  | _ => match libraries (pluginName (snd x)) with None => Ret 0%Z | Some l => obind (dycall_2 l (compareName (snd x)) x y) answer end
  end.
Lemma compare_is libraries x y : sound (snd x) -> sound (snd y) ->
  c_data_compare libraries x y = match kind_order (snd x) (snd y) with Eq => within libraries x y | c => Ret (of_cmp c) end.
Proof.
  intros (A & B & _ & _ & _ & _ & _ & H) (A' & B' & _). unfold c_data_compare, kind_order, within, text_cmp. rewrite text_compare_lex by assumption. cbn [obind].
  destruct (lex (pluginName (snd x)) (pluginName (snd y))); [|reflexivity..]. cbn [of_cmp negb Z.eqb]. rewrite text_compare_lex by assumption. cbn [obind].
  destruct (lex (payloadType (snd x)) (payloadType (snd y))); [|reflexivity..]. cbn [of_cmp negb Z.eqb]. rewrite (copy_ok (pluginName (snd x)) A), (copy_ok _ H). cbn [obind]. 
  destruct (compareName (snd x)); [reflexivity|]. destruct (libraries _); reflexivity.
Qed.
Lemma kind_eq x y : kind_order x y = Eq <-> same_kind x y.
Proof. unfold kind_order, same_kind. rewrite <- !lex_eq. destruct (lex (pluginName x) (pluginName y)); intuition congruence. Qed.
Lemma kind_opp x y : kind_order y x = CompOpp (kind_order x y).
Proof. unfold kind_order. rewrite (lex_opp (pluginName x)), (lex_opp (payloadType x)). destruct (lex (pluginName x) (pluginName y)); reflexivity. Qed.
Lemma kind_trans x y z : kind_order x y = Lt -> kind_order y z = Lt -> kind_order x z = Lt.
Proof.
  unfold kind_order. destruct (lex (pluginName x) (pluginName y)) eqn:E1; try discriminate; destruct (lex (pluginName y) (pluginName z)) eqn:E2; try discriminate.
  - apply lex_eq in E1, E2. rewrite E1, E2. rewrite (proj2 (lex_eq _ _) eq_refl). apply lex_trans.
  - apply lex_eq in E1. now rewrite E1, E2.
  - apply lex_eq in E2. now rewrite <- E2, E1.
  - now rewrite (lex_trans _ _ _ E1 E2).
Qed.
Lemma kind_same x y z : same_kind x y -> kind_order x z = kind_order y z /\ kind_order z x = kind_order z y.
Proof. intros (A & B). unfold kind_order. now rewrite A, B. Qed.
Lemma pointers_order (D : N * c_data -> Prop) : orders D (fun x y => Ret (of_cmp (fst x ?= fst y))).
Proof.
  split; [eauto|]. split.
  - intros x y a b _ _ [= <-] [= <-]. rewrite (N.compare_antisym (fst x)). now destruct (fst x ?= fst y).
  - intros x y z a b c _ _ _ [= <-] [= <-] [= <-]. destruct (N.compare_spec (fst x) (fst y)); destruct (N.compare_spec (fst y) (fst z)); destruct (N.compare_spec (fst x) (fst z)); cbn; lia.
Qed.
Lemma within_order libraries D x : fair libraries D -> D x -> orders (fun z => D z /\ same_kind (snd x) (snd z)) (within libraries).
Proof.
  intros F DX. assert (EX : forall (cmp : N * c_data -> N * c_data -> outcome Z), orders (fun z => D z /\ same_kind (snd x) (snd z)) cmp ->
    (forall p q, D p /\ same_kind (snd x) (snd p) -> within libraries p q = cmp p q) -> orders (fun z => D z /\ same_kind (snd x) (snd z)) (within libraries)).
  { intros cmp (O1 & O2 & O3) E. split; [|split].
    - intros p q P Q. rewrite (E p q P). auto.
    - intros p q a b P Q. rewrite (E p q P), (E q p Q). eauto.
    - intros p q r a b c P Q R. rewrite (E p q P), (E q r Q), (E p r P). eauto. }
  destruct (compareName (snd x)) as [|c0 l0] eqn:EC.
  - apply (EX _ (pointers_order _)). intros p q (DP & KP). destruct (F x p DX DP KP) as (CN & _). unfold within. now rewrite <- CN, EC.
  - assert (KX : same_kind (snd x) (snd x)) by (split; reflexivity). destruct (F x x DX DX KX) as (_ & G). destruct G as (fs & f & L & FF & O); [congruence|].
    apply (EX _ O). intros p q (DP & KP). destruct (F x p DX DP KP) as (CN & _). destruct KP as (KP & _). unfold within. rewrite <- CN, <- KP, EC, L. cbn. rewrite EC in FF. now rewrite FF.
Qed.
(** Data are ordered by plug-in, then by type of the payload, then by the function
    of the plug-in or, without one, by address. *)
Theorem C129_order : forall libraries (D : N * c_data -> Prop), (forall x, D x -> sound (snd x)) -> fair libraries D -> orders D (c_data_compare libraries).
Proof.
  intros libraries D S F. split; [|split].
  - intros x y DX DY. rewrite compare_is by auto. destruct (kind_order (snd x) (snd y)) eqn:K; [|eauto..]. apply kind_eq in K.
    destruct (within_order libraries D x F DX) as (O & _). apply O; split; auto. split; reflexivity.
  - intros x y a b DX DY. rewrite !compare_is by auto. rewrite (kind_opp (snd x) (snd y)). destruct (kind_order (snd x) (snd y)) eqn:K; cbn [CompOpp]; [|intros [= <-] [= <-]; reflexivity..].
    apply kind_eq in K. destruct (within_order libraries D x F DX) as (_ & O & _). apply O; split; auto. split; reflexivity.
  - intros x y z a b c DX DY DZ. rewrite !compare_is by auto. intros A B C LA LB.
    destruct (kind_order (snd x) (snd y)) eqn:K1; [|clear A|injection A as <-; cbn in LA; lia].
    + apply kind_eq in K1. destruct (kind_same _ _ (snd z) K1) as (KS & _). rewrite KS in C. destruct (kind_order (snd y) (snd z)) eqn:K2; [|injection C as <-; cbn; lia|injection B as <-; cbn in LB; lia].
      apply kind_eq in K2. destruct (within_order libraries D x F DX) as (_ & _ & O). apply (O x y z a b c); auto; split; auto; split; try reflexivity; destruct K1, K2; congruence.
    + destruct (kind_order (snd y) (snd z)) eqn:K2; [|rewrite (kind_trans _ _ _ K1 K2) in C; injection C as <-; cbn; lia|injection B as <-; cbn in LB; lia].
      apply kind_eq in K2. destruct (kind_same _ _ (snd x) K2) as (_ & KS). rewrite <- KS, K1 in C. injection C as <-. cbn. lia.
Qed.
Print Assumptions C129_order.
(** What decides: the names of the plug-ins, in the order of their characters; then the types; then, within a
    kind, the function of the first one's plug-in, which gets the first one first; without one, the addresses. *)
Theorem C129_order_by : forall libraries x y, sound (snd x) -> sound (snd y) ->
  (forall c, lex (pluginName (snd x)) (pluginName (snd y)) = c -> c <> Eq -> c_data_compare libraries x y = Ret (of_cmp c)) /\
  (forall c, pluginName (snd x) = pluginName (snd y) -> lex (payloadType (snd x)) (payloadType (snd y)) = c -> c <> Eq -> c_data_compare libraries x y = Ret (of_cmp c)) /\
  (same_kind (snd x) (snd y) -> compareName (snd x) = [] -> c_data_compare libraries x y = Ret (of_cmp (fst x ?= fst y))) /\
  (forall functions f z, same_kind (snd x) (snd y) -> compareName (snd x) <> [] -> libraries (pluginName (snd x)) = Some (Binary functions) -> functions (compareName (snd x)) = Some f ->
     f x y = Some z -> c_data_compare libraries x y = Ret z).
Proof.
  intros libraries x y SX SY. rewrite (compare_is libraries x y SX SY). unfold kind_order at 1 2. repeat split.
  - intros c -> N. now destruct c.
  - intros c E E2 N. rewrite E, (proj2 (lex_eq _ _) eq_refl), E2. now destruct c.
  - intros K N. apply kind_eq in K. rewrite K. unfold within. now rewrite N.
  - intros fs f z K N L F E. apply kind_eq in K. rewrite K. unfold within. destruct (compareName (snd x)) eqn:EC; [contradiction|]. rewrite L. cbn. rewrite F. cbn. now rewrite E.
Qed.
Print Assumptions C129_order_by.
(** Without functions for comparison, data compare as equal exactly if they are the
    same piece of data of the same kind. *)
Theorem C129_order_pointers : forall libraries x y, sound (snd x) -> sound (snd y) -> compareName (snd x) = [] ->
  (c_data_compare libraries x y = Ret 0%Z <-> same_kind (snd x) (snd y) /\ fst x = fst y).
Proof.
  intros libraries x y SX SY N. rewrite compare_is by assumption. rewrite <- kind_eq. unfold within. rewrite N.
  destruct (kind_order (snd x) (snd y)); [|split; [discriminate|intros (K & _); discriminate]..]. rewrite <- N.compare_eq_iff.
  destruct (fst x ?= fst y); split; try easy; intros (_ & K); discriminate.
Qed.
Print Assumptions C129_order_pointers.
(** That a copy compares as equal to its original: refuted for every piece of data
    without a function for comparison (a copy has another address). *)
Theorem C129_copy_equal_refuted : forall libraries x a b y, sound x -> compareName x = [] -> c_data_copy x = Ret y -> a <> b -> c_data_compare libraries (a, x) (b, y) <> Ret 0%Z.
Proof. intros libraries x a b y S N E NE K. rewrite (C129_copy x S) in E. injection E as <-. apply (C129_order_pointers libraries (a, x) (b, x) S S N) in K as (_ & K). contradiction. Qed.
Print Assumptions C129_copy_equal_refuted.
(** octaspire_dern_c_data_is_equal holds exactly if the payload is the same and both
    names differ. *)
Theorem C129_is_equal_when : forall x y, c_data_is_equal x y = true <-> payload x = payload y /\ pluginName x <> pluginName y /\ payloadType x <> payloadType y.
Proof.
  intros x y. assert (K : forall a b, same_name a b = true <-> a = b) by (intros a b; apply (str_is_equal_spec (text_str a) (text_str b))).
  unfold c_data_is_equal. destruct (N.eqb_spec (payload x) (payload y)) as [E|E]; cbn [negb]; [|split; [discriminate|intros (F & _); contradiction]].
  pose proof (K (pluginName x) (pluginName y)) as K1. pose proof (K (payloadType x) (payloadType y)) as K2.
  destruct (same_name (pluginName x) (pluginName y)); [split; [discriminate|intros (_ & F & _); elim F; now apply K1]|]. destruct (same_name (payloadType x) (payloadType y)); [split; [discriminate|intros (_ & _ & F); elim F; now apply K2]|].
  split; [|easy]. intros _. split; [exact E|]. split; intros F; [apply K1 in F|apply K2 in F]; discriminate.
Qed.
Print Assumptions C129_is_equal_when.
(** That it holds of a piece of data and itself, or its copy, is refuted. *)
Theorem C129_is_equal_refuted : forall x, c_data_is_equal x x = false.
Proof. intros x. destruct (c_data_is_equal x x) eqn:E; [|reflexivity]. apply C129_is_equal_when in E as (_ & E & _). now elim E. Qed.
Print Assumptions C129_is_equal_refuted.

(** Cases: a plug-in whose function compares payloads, and data of two kinds. *)
Definition by_payload : comparator := fun x y => Some (of_cmp (payload (snd x) ?= payload (snd y))).
Definition some_plugins (t : text) : option plugin := if list_eq_dec N.eq_dec t (asc "sdl") then Some (Binary (fun n => if list_eq_dec N.eq_dec n (asc "cmp") then Some by_payload else None)) else None.
Definition texture (p : N) : c_data := mkCData (asc "sdl") (asc "texture") p [] [] [] [] [] (asc "cmp") true.
Definition window (p : N) : c_data := mkCData (asc "sdl") (asc "window") p [] [] [] [] [] [] false.
Definition some_data (x : N * c_data) : Prop := exists p, snd x = texture p \/ snd x = window p.
Example C129_case : (forall x, some_data x -> sound (snd x)) /\ fair some_plugins some_data /\
  c_data_compare some_plugins (1, texture 4) (2, texture 4) = Ret 0%Z /\ c_data_compare some_plugins (1, texture 4) (2, texture 3) = Ret 1%Z /\
  c_data_compare some_plugins (5, texture 4) (2, window 3) = Ret (-1)%Z /\ c_data_compare some_plugins (5, window 3) (2, window 3) = Ret 1%Z.
Proof.
  split; [|split; [|repeat split; vm_compute; reflexivity]].
  - assert (K : forall l, forallb (fun c => (0 <? c)%N && (c <? 128)%N) l = true -> sound_text l).
    { intros l A. rewrite forallb_forall in A. split; [apply Forall_forall; intros c J; apply A in J; apply andb_true_iff in J as (J1 & J2); apply N.ltb_lt in J1, J2; unfold scalar; lia|]. intros J. now apply A in J. }
    intros x (p & [-> | ->]); repeat (split; [apply K; reflexivity|]); apply K; reflexivity.
  - intros x y (p & [E|E]) (q & [E'|E']) K; rewrite E, E' in *; try (destruct K; discriminate); (split; [reflexivity|]).
    + intros _. eexists. exists by_payload. split; [reflexivity|]. split; [reflexivity|]. split; [intros; eexists; reflexivity|]. split.
      * intros a b u v _ _ [= <-] [= <-]. rewrite (N.compare_antisym (payload (snd a))). now destruct (payload (snd a) ?= payload (snd b)).
      * intros a b c u v w _ _ _ [= <-] [= <-] [= <-]. destruct (N.compare_spec (payload (snd a)) (payload (snd b))); destruct (N.compare_spec (payload (snd b)) (payload (snd c))); destruct (N.compare_spec (payload (snd a)) (payload (snd c))); cbn; lia.
    + intros N. now elim N.
Qed.
