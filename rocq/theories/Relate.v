(** A relation between runs that every operation of the evaluator and of the
    library respects as soon as the primitive steps do.  It is used twice: for
    runs with different bounds and for runs that collect garbage at different
    times. *)
From Coq Require Import NArith ZArith Bool Lia String List.
From Verif Require Import Base Input Lexer OString HMap Heap ValueOps Env Copy ToText Builtins Specials Eval Read Boot.
Import ListNotations.
Local Open Scope N_scope.

(** [h'] holds everything [h] holds. *)
Definition sub (h h' : heap) : Prop :=
  (List.length h <= List.length h')%nat /\ forall r c, lookup h r = Some c -> lookup h' r = Some c.
Lemma sub_refl h : sub h h.
Proof. split; auto. Qed.

(** What a computation says about plain data and more fuel. *)
Definition ole {X} (o o' : outcome X) : Prop := o = NoFuel \/ o = o'.
Definition olo {X} (o o' : outcome X) : Prop := o = NoFuel \/ o = Dangling \/ o = o'.
Lemma ole_refl {X} (o : outcome X) : ole o o.
Proof. now right. Qed.
Lemma olo_refl {X} (o : outcome X) : olo o o.
Proof. right. now right. Qed.
Lemma ole_bind {X Y} (o o' : outcome X) (f f' : X -> outcome Y) : ole o o' -> (forall x, ole (f x) (f' x)) -> ole (obind o f) (obind o' f').
Proof. intros [->| ->] K; [now left|]. destruct o' as [x| | | | |]; try (now right). apply K. Qed.
Lemma olo_bind {X Y} (o o' : outcome X) (f f' : X -> outcome Y) : olo o o' -> (forall x, olo (f x) (f' x)) -> olo (obind o f) (obind o' f').
Proof. intros [->|[->| ->]] K; [now left|right; now left|]. destruct o' as [x| | | | |]; try (right; now right). apply K. Qed.
Definition hrel {X} (f f' : heap -> outcome X) : Prop :=
  (forall h h', sub h h' -> olo (f h) (f' h')) /\ (forall h, ole (f h) (f' h)).

(** ** Comparing, hashing, printing and looking up *)
Section Reading.
(** [L]: one of the two orders. *)
Context (L : forall X, outcome X -> outcome X -> Prop)
  (Lrefl : forall X (o : outcome X), L X o o) (Lnof : forall X (o : outcome X), L X NoFuel o)
  (Lbind : forall X Y (o o' : outcome X) (f f' : X -> outcome Y), L X o o' -> (forall x, L Y (f x) (f' x)) -> L Y (obind o f) (obind o' f'))
  (h h' : heap) (Lget : forall X r (f : cell -> outcome X) (f' : cell -> outcome X),
     (forall c, lookup h r = Some c -> L X (f c) (f' c)) ->
     L X (match lookup h r with Some c => f c | None => Dangling end) (match lookup h' r with Some c => f' c | None => Dangling end)).
Lemma Lhash r : L _ (vhash h r) (vhash h' r).
Proof. unfold vhash. apply Lget. auto. Qed.
Section Cmp.
Context (cmp cmp' : ref -> ref -> outcome Z) (K : forall p q, L _ (cmp p q) (cmp' p q)).
Lemma Lseq : forall x y, L _ (compare_seq cmp x y) (compare_seq cmp' x y).
Proof. induction x as [|p x IH]; intros y; [auto|]. destruct y as [|q y]; [auto|]. cbn [compare_seq]. apply Lbind; [auto|]. intros c. destruct (c =? 0)%Z; auto. Qed.
Lemma Lsized x y : L _ (compare_sized cmp x y) (compare_sized cmp' x y).
Proof. unfold compare_sized. destruct (Nat.eqb _ _); auto using Lseq. Qed.
Lemma Lfind k : forall b, L _ (find_o cmp k b) (find_o cmp' k b).
Proof. induction b as [|e b IH]; [apply Lrefl|]. cbn [find_o]. apply Lbind; [auto|]. intros c. destruct (c =? 0)%Z; auto. Qed.
Lemma Lmaps x y : L _ (compare_maps cmp h x y) (compare_maps cmp' h' x y).
Proof.
  unfold compare_maps. destruct (Nat.eqb _ _); [|auto]. generalize (concat (buckets x)) as es. induction es as [|e es IH]; [apply Lrefl|]. cbn [compare_elems].
  apply Lbind; [auto|]. intros v. apply Lbind.
  - unfold map_find. apply Lbind; [apply Lhash|]. intros hk. apply Lfind.
  - intros [e'|]; [|auto]. apply Lbind; [auto|]. intros v'. apply Lbind; [auto|]. intros c. destruct (c =? 0)%Z; auto.
Qed.
Lemma Lbindings y : forall x, L _ (compare_bindings cmp x y) (compare_bindings cmp' x y).
Proof.
  induction x as [|(t & n & v) x IH]; [apply Lrefl|]. cbn [compare_bindings]. destruct (find_binding t y) as [(n' & v')|]; [|auto]. apply Lbind; [auto|]. intros c. destruct (c =? 0)%Z; auto.
Qed.
Lemma Lfuns f g : L _ (compare_funs cmp f g) (compare_funs cmp' f g).
Proof.
  unfold compare_funs, andthen. apply Lbind; [auto|]. intros c. destruct (c =? 0)%Z; [|auto]. apply Lbind; [auto|]. intros c1. destruct (c1 =? 0)%Z; [|auto].
  apply Lbind; [auto|]. intros c2. destruct (c2 =? 0)%Z; [|auto]. apply Lbind; [auto|]. intros c3. destruct (c3 =? 0)%Z; [|auto].
  apply Lbind; [auto|]. intros c4. destruct (c4 =? 0)%Z; auto.
Qed.
End Cmp.
Lemma Lget2 X p q (f f' : cell -> cell -> outcome X) : (forall c d, L X (f c d) (f' c d)) ->
  L X (match lookup h p, lookup h q with Some c, Some d => f c d | _, _ => Dangling end)
      (match lookup h' p, lookup h' q with Some c, Some d => f' c d | _, _ => Dangling end).
Proof.
  intros K. pose proof (Lget X p (fun c => match lookup h q with Some d => f c d | None => Dangling end) (fun c => match lookup h' q with Some d => f' c d | None => Dangling end)) as G.
  cbv beta in G. apply G. intros c _. apply Lget. auto.
Qed.
Lemma Lcompare : forall n m a b, (n <= m)%nat -> L _ (vcompare n h a b) (vcompare m h' a b).
Proof.
  induction n as [|n IH]; intros m a b LE; [apply Lnof|]. destruct m as [|m]; [lia|]. assert (K : forall p q, L _ (vcompare n h p q) (vcompare m h' p q)) by (intros; apply IH; lia).
  cbn [vcompare]. destruct (a =? b); [apply Lrefl|]. apply Lget2. intros ca cb.
  destruct (cdata ca), (cdata cb); try apply Lrefl; auto using Lsized, Lfuns, Lmaps.
  unfold compare_envs. destruct (Nat.eqb _ _); [|apply Lrefl]. now apply Lbindings.
Qed.
Lemma Lequal n m a b : (n <= m)%nat -> L _ (vequal n h a b) (vequal m h' a b).
Proof. intros. apply Lbind; auto using Lcompare. Qed.
Lemma Lless n m a b : (n <= m)%nat -> L _ (vless n h a b) (vless m h' a b).
Proof. intros. apply Lbind; auto using Lcompare. Qed.
Lemma Lgreater n m a b : (n <= m)%nat -> L _ (vgreater n h a b) (vgreater m h' a b).
Proof. intros. apply Lbind; auto using Lcompare. Qed.
Lemma Lless_eq n m a b : (n <= m)%nat -> L _ (vless_eq n h a b) (vless_eq m h' a b).
Proof. intros. apply Lbind; auto using Lcompare. Qed.
Lemma Lgreater_eq n m a b : (n <= m)%nat -> L _ (vgreater_eq n h a b) (vgreater_eq m h' a b).
Proof. intros. apply Lbind; auto using Lcompare. Qed.
Lemma Lomap {X Y} (f f' : X -> outcome Y) : (forall x, L _ (f x) (f' x)) -> forall l, L _ (omap f l) (omap f' l).
Proof. intros K. induction l as [|x l IH]; [apply Lrefl|]. cbn [omap]. apply Lbind; [auto|]. intros y. apply Lbind; auto. Qed.
Lemma Ltext rd : forall n m pl r, (n <= m)%nat -> L _ (to_text rd pl n h r) (to_text rd pl m h' r).
Proof.
  induction n as [|n IH]; intros m pl r LE; [apply Lnof|]. destruct m as [|m]; [lia|]. assert (K : forall p, L _ (to_text rd false n h p) (to_text rd false m h' p)) by (intros; apply IH; lia).
  cbn [to_text]. apply Lget. intros c _. destruct (cdata c); try apply Lrefl; (apply Lbind; [|intros; apply Lrefl]); apply Lomap; auto.
  intros i. destruct (map_get_at_index _ _); [|apply Lrefl]. apply Lbind; [auto|]. intros k. apply Lbind; [auto|]. intros v. apply Lbind; auto.
Qed.
Lemma Lenv : forall n m e k, (n <= m)%nat -> L _ (env_find n h e k) (env_find m h' e k).
Proof.
  induction n as [|n IH]; intros m e k LE; [apply Lnof|]. destruct m as [|m]; [lia|]. cbn [env_find]. apply Lget. intros c _.
  destruct (cdata c) as [ |db|dz|df|dt|dt|dt|dmsg dline|l|mm|l max|l|db [e'|]|df|df|dp|dp|dv]; auto; destruct (find_binding k db) as [[? ?]|]; auto. apply IH. lia.
Qed.
End Reading.
Lemma ole_get h X r (f f' : cell -> outcome X) : (forall c, lookup h r = Some c -> ole (f c) (f' c)) ->
     ole (match lookup h r with Some c => f c | None => Dangling end) (match lookup h r with Some c => f' c | None => Dangling end).
Proof. destruct (lookup h r); auto using ole_refl. Qed.
Lemma olo_get h h' X r (f f' : cell -> outcome X) : sub h h' -> (forall c, lookup h r = Some c -> olo (f c) (f' c)) ->
     olo (match lookup h r with Some c => f c | None => Dangling end) (match lookup h' r with Some c => f' c | None => Dangling end).
Proof. intros [_ S] K. destruct (lookup h r) as [c|] eqn:E; [|right; now left]. rewrite (S _ _ E). auto. Qed.
Ltac hrel_by T := split; [intros h h' S; apply (T (@olo) (fun _ => olo_refl) (fun _ o => or_introl eq_refl) (@olo_bind) h h' (fun X r f f' => olo_get h h' X r f f' S)); auto
                         |intros h; apply (T (@ole) (fun _ => ole_refl) (fun _ o => or_introl eq_refl) (@ole_bind) h h (ole_get h)); auto].
Lemma hash_hrel r : hrel (fun h => vhash h r) (fun h => vhash h r).
Proof. split; [intros h h' S; apply (Lhash (@olo) (fun _ => olo_refl) h h' (fun X r f f' => olo_get h h' X r f f' S))|intros h; apply ole_refl]. Qed.
Lemma compare_hrel n m a b : (n <= m)%nat -> hrel (fun h => vcompare n h a b) (fun h => vcompare m h a b).
Proof. intros. hrel_by Lcompare. Qed.
Lemma equal_hrel n m a b : (n <= m)%nat -> hrel (fun h => vequal n h a b) (fun h => vequal m h a b).
Proof. intros. hrel_by Lequal. Qed.
Lemma less_hrel n m a b : (n <= m)%nat -> hrel (fun h => vless n h a b) (fun h => vless m h a b).
Proof. intros. hrel_by Lless. Qed.
Lemma greater_hrel n m a b : (n <= m)%nat -> hrel (fun h => vgreater n h a b) (fun h => vgreater m h a b).
Proof. intros. hrel_by Lgreater. Qed.
Lemma less_eq_hrel n m a b : (n <= m)%nat -> hrel (fun h => vless_eq n h a b) (fun h => vless_eq m h a b).
Proof. intros. hrel_by Lless_eq. Qed.
Lemma greater_eq_hrel n m a b : (n <= m)%nat -> hrel (fun h => vgreater_eq n h a b) (fun h => vgreater_eq m h a b).
Proof. intros. hrel_by Lgreater_eq. Qed.
Lemma text_hrel rd pl n m r : (n <= m)%nat -> hrel (fun h => to_text rd pl n h r) (fun h => to_text rd pl m h r).
Proof. intros. hrel_by Ltext. Qed.
Lemma find_hrel n m k b : (n <= m)%nat -> hrel (fun h => find_o (vcompare n h) k b) (fun h => find_o (vcompare m h) k b).
Proof.
  intros LE. split.
  - intros h h' S. apply (Lfind (@olo) (fun _ => olo_refl) (@olo_bind)). intros p q. now apply (proj1 (compare_hrel n m p q LE)).
  - intros h. apply (Lfind (@ole) (fun _ => ole_refl) (@ole_bind)). intros p q. now apply (proj2 (compare_hrel n m p q LE)).
Qed.
Lemma texts_hrel rd n m l : (n <= m)%nat -> hrel (fun h => omap (to_text rd false n h) l) (fun h => omap (to_text rd false m h) l).
Proof.
  intros LE. split.
  - intros h h' S. apply (Lomap (@olo) (fun _ => olo_refl) (@olo_bind)). intros p. now apply (proj1 (text_hrel rd false n m p LE)).
  - intros h. apply (Lomap (@ole) (fun _ => ole_refl) (@ole_bind)). intros p. now apply (proj2 (text_hrel rd false n m p LE)).
Qed.
Lemma octets_hrel rd n m r : (n <= m)%nat -> hrel (fun h => obind (to_text rd false n h r) octets_of) (fun h => obind (to_text rd false m h r) octets_of).
Proof.
  intros LE. split.
  - intros h h' S. apply olo_bind; [now apply (proj1 (text_hrel rd false n m r LE))|intros; apply olo_refl].
  - intros h. apply ole_bind; [now apply (proj2 (text_hrel rd false n m r LE))|intros; apply ole_refl].
Qed.
Lemma pieces_hrel rd n m l ps : (n <= m)%nat -> hrel (fun h => omap (piece_text rd n h l) ps) (fun h => omap (piece_text rd m h l) ps).
Proof.
  intros LE. split.
  - intros h h' S. apply (Lomap (@olo) (fun _ => olo_refl) (@olo_bind)). intros [c|k]; [apply olo_refl|]. cbn [piece_text]. destruct (nth_error l k); [|apply olo_refl]. now apply (proj1 (text_hrel rd true n m r LE)).
  - intros h. apply (Lomap (@ole) (fun _ => ole_refl) (@ole_bind)). intros [c|k]; [apply ole_refl|]. cbn [piece_text]. destruct (nth_error l k); [|apply ole_refl]. now apply (proj2 (text_hrel rd true n m r LE)).
Qed.
Lemma piece_octets_hrel rd n m l ps : (n <= m)%nat -> hrel (fun h => omap (piece_octets rd n h l) ps) (fun h => omap (piece_octets rd m h l) ps).
Proof.
  intros LE. split.
  - intros h h' S. apply (Lomap (@olo) (fun _ => olo_refl) (@olo_bind)). intros [c|k]; [apply olo_refl|]. cbn [piece_octets]. destruct (nth_error l k); [|apply olo_refl]. now apply (proj1 (octets_hrel rd n m r LE)).
  - intros h. apply (Lomap (@ole) (fun _ => ole_refl) (@ole_bind)). intros [c|k]; [apply ole_refl|]. cbn [piece_octets]. destruct (nth_error l k); [|apply ole_refl]. now apply (proj2 (octets_hrel rd n m r LE)).
Qed.
Lemma env_hrel e k : hrel (fun h => env_find (S (List.length h)) h e k) (fun h => env_find (S (List.length h)) h e k).
Proof.
  split; [|intros h; apply ole_refl]. intros h h' S. pose proof (proj1 S) as LE.
  apply (Lenv (@olo) (fun _ => olo_refl) (fun _ o => or_introl eq_refl) h h' (fun X r f f' => olo_get h h' X r f f' S)). lia.
Qed.
Lemma remove_all_ole s : forall n m x acc, (n <= m)%nat -> ole (remove_all_loop n x s acc) (remove_all_loop m x s acc).
Proof.
  induction n as [|n IH]; intros m x acc LE.
  - destruct m as [|m]; [apply ole_refl|]. cbn [remove_all_loop]. destruct (ucs x); [apply ole_refl|]. destruct (str_find_first x 0 s); [now left|apply ole_refl].
  - destruct m as [|m]; [lia|]. cbn [remove_all_loop]. destruct (ucs x); [apply ole_refl|]. destruct (str_find_first x 0 s); [|apply ole_refl]. destruct (str_remove_chars _ _ _). apply IH. lia.
Qed.

(** The step of [boot] that makes the new environment the global one. *)
Definition as_global (g : ref) : M unit :=
  fun s => Ret (tt, mkVm (all s) (nextId s) (nextAddr s) [g] g (numAlloc s) (gcLimit s) (preventGc s)
                         (fret s) (quit s) (exitCode s) (readably s) (output s) (addrs s) (msgs s) (outside s)).

(** Contents that stay well formed: what holds of all contents that can be
    stored when it holds of those made. *)
Definition plain (d : data) : Prop := match d with DQueue _ _ | DEnv _ _ | DMap _ => False | _ => True end.
Record closed (OK : data -> Prop) : Prop := {
  c_plain : forall d, plain d -> OK d;
  c_env : forall enc, OK (DEnv [] enc);
  c_rebind : forall t kv b enc, OK (DEnv b enc) -> OK (DEnv (rebind t kv b) enc);
  c_queue : forall max, OK (DQueue [] max);
  c_queue_push : forall l max x, OK (DQueue l max) -> OK (DQueue (queue_push l max x) max);
  c_queue_pop : forall l max, OK (DQueue l max) -> OK (DQueue (tl l) max);
  c_map : OK (DMap map_new);
  c_map_put : forall q m hk k v m', OK (DMap m) -> map_put q m hk k v = Ret m' -> OK (DMap m');
  c_map_remove : forall q m hk k, OK (DMap m) -> OK (DMap (fst (map_remove q m hk k))) }.
Lemma closed_all : closed (fun _ => True).
Proof. constructor; auto. Qed.
Lemma bind_assoc {X Y Z} (m : M X) (f : X -> M Y) (k : Y -> M Z) s : bind (bind m f) k s = bind m (fun x => bind (f x) k) s.
Proof. unfold bind. destruct (m s) as [[x s1]| | | | |]; reflexivity. Qed.

(** ** Everything the machine does *)
Section Related.
Context (rel : forall X, M X -> M X -> Prop) (P : cell -> Prop) (OK : data -> Prop).
Arguments rel {X} _ _.
Context
  (CL : closed OK)
  (P_ok : forall c, P c -> OK (cdata c))
  (r_assoc : forall X Y Z (m m' : M X) (f f' : X -> M Y) (k k' : Y -> M Z),
     rel (bind m (fun x => bind (f x) k)) (bind m' (fun x => bind (f' x) k')) -> rel (bind (bind m f) k) (bind (bind m' f') k'))
  (r_ret : forall X (x : X), rel (ret x) (ret x))
  (r_bind : forall X Y (m m' : M X) (k k' : X -> M Y), rel m m' -> (forall x, rel (k x) (k' x)) -> rel (bind m k) (bind m' k'))
  (r_nofuel : forall X (m : M X), rel nofuel m)
  (r_undef : forall X, rel (@undef X) undef)
  (r_abort : forall X, rel (@abort X) abort)
  (r_push : forall r, rel (push r) (push r))
  (r_pop : forall r, rel (pop r) (pop r))
  (r_cell : forall X r (k k' : cell -> M X), (forall c, P c -> rel (k c) (k' c)) -> rel (bind (get_cell r) k) (bind (get_cell r) k'))
  (r_put_cell : forall r c, P c -> rel (put_cell r c) (put_cell r c))
  (P_mark : forall c d doc dv a, P c -> OK d -> P (mkCell d doc dv (cmark c) a))
  (r_alloc : forall d, OK d -> rel (alloc d) (alloc d))
  (r_new_error : rel new_error new_error)
  (r_annotate : forall r, rel (annotate r) (annotate r))
  (r_put_fresh : forall r d, OK d -> rel (put_fresh r d) (put_fresh r d))
  (r_heap : forall X (f f' : heap -> outcome X), hrel f f' -> rel (heap_op f) (heap_op f'))
  (r_lift : forall X (o o' : outcome X), ole o o' -> rel (lift o) (lift o'))
  (r_read_fret : rel (read fret) (read fret)) (r_read_quit : rel (read quit) (read quit))
  (r_read_exit : rel (read exitCode) (read exitCode)) (r_read_genv : rel (read genv) (read genv))
  (r_set_fret : forall o, rel (set_fret o) (set_fret o)) (r_set_quit : forall c, rel (set_quit c) (set_quit c))
  (r_read_readably : rel (read readably) (read readably)) (r_write_out : forall o, rel (write_out o) (write_out o))
  (r_set_readably : forall b, rel (set_readably b) (set_readably b))
  (r_read_files : forall p, rel (read (fun s => o_files (outside s) (nextAddr s) p)) (read (fun s => o_files (outside s) (nextAddr s) p))) (r_read_outside : forall what, rel (read (fun s => what (outside s) : list text)) (read (fun s => what (outside s)))).
Lemma r_read_file p : rel (read_file p) (read_file p).
Proof. exact (r_read_files p). Qed.
Local Hint Resolve r_ret r_nofuel r_undef r_abort r_push r_pop r_put_cell P_mark r_alloc r_new_error r_annotate r_put_fresh r_lift
  r_read_fret r_read_quit r_read_exit r_read_genv r_set_fret r_set_quit r_read_readably r_write_out r_set_readably r_read_file r_read_outside ole_refl : rdb.

Lemma ok_empty_like d : OK d -> OK (empty_like d).
Proof. intros H. destruct d; cbn [empty_like]; try exact H; try (apply (c_plain _ CL); exact Logic.I); [apply (c_map _ CL)|apply (c_queue _ CL)]. Qed.
Lemma ok_if (b : bool) d d' : OK d -> OK d' -> OK (if b then d else d').
Proof. destruct b; auto. Qed.
Lemma ok_generated d d' : generated_kind d = Some d' -> OK d'.
Proof. destruct d; cbn [generated_kind]; intros E; try discriminate. destruct (text_eqb _ _); [|destruct (text_eqb _ _); [|discriminate]]; injection E as <-; apply (c_plain _ CL); exact Logic.I. Qed.
Ltac okay := first [assumption | (apply (c_plain _ CL); exact Logic.I) | now apply (c_env _ CL) | now apply (c_rebind _ CL) | now apply (c_queue _ CL) | now apply (c_queue_push _ CL)
  | now apply (c_queue_pop _ CL) | now apply (c_map _ CL) | now apply ok_empty_like | apply ok_if; (apply (c_plain _ CL); exact Logic.I)].
Local Hint Extern 1 (OK _) => okay : rdb.
Local Hint Extern 1 (forall _, OK _) => intros ?; okay : rdb.

Lemma r_iter {X} (f f' : X -> M unit) : (forall x, rel (f x) (f' x)) -> forall l, rel (iterM f l) (iterM f' l).
Proof. intros K. induction l; cbn [iterM]; auto with rdb. Qed.
Lemma r_map {X Y} (f f' : X -> M Y) : (forall x, rel (f x) (f' x)) -> forall l, rel (mapM f l) (mapM f' l).
Proof. intros K. induction l; cbn [mapM]; auto with rdb. Qed.
Lemma r_get r : rel (get r) (get r).
Proof. apply r_cell. auto with rdb. Qed.
Lemma r_data X r (k k' : data -> M X) : (forall d, OK d -> rel (k d) (k' d)) -> rel (bind (get r) k) (bind (get r) k').
Proof. intros K. unfold get. apply r_assoc, r_cell. intros c H. exact (K _ (P_ok _ H)). Qed.
Lemma r_put r d : OK d -> rel (put r d) (put r d).
Proof. intros O. apply r_cell. auto with rdb. Qed.
Lemma r_set_docs r a b : rel (set_docs r a b) (set_docs r a b).
Proof. apply r_cell. auto 6 with rdb. Qed.
Lemma r_lift_then X Y (o : outcome X) (k k' : X -> M Y) : (forall x, o = Ret x -> rel (k x) (k' x)) -> rel (bind (lift o) k) (bind (lift o) k').
Proof.
  intros K. destruct o as [x| | | | |]; [exact (K x eq_refl)|..].
  - exact (r_lift _ Abort Abort (ole_refl _)).
  - exact (r_lift _ Undef Undef (ole_refl _)).
  - exact (r_lift _ Dangling Dangling (ole_refl _)).
  - exact (r_lift _ Unbalanced Unbalanced (ole_refl _)).
  - exact (r_lift _ NoFuel NoFuel (ole_refl _)).
Qed.
Lemma r_hash r : rel (hash_of r) (hash_of r).
Proof. apply r_heap, hash_hrel. Qed.
Lemma r_env_get e k : rel (env_get e k) (env_get e k).
Proof. apply r_heap, env_hrel. Qed.
Lemma r_unmodelled X (m : M X) : rel unmodelled m.
Proof. apply r_nofuel. Qed.
Local Hint Resolve r_get r_put r_set_docs r_hash r_env_get r_unmodelled : rdb.
Ltac rstep :=
  match goal with
  | |- rel (bind (get_cell _) _) _ => let H := fresh in apply r_cell; intros ? H; pose proof (P_ok _ H)
  | |- rel (bind (get _) _) _ => apply r_data; intros ? ?
  | |- rel (bind _ _) (bind _ _) => apply r_bind; [|intros ?]
  | |- rel (let x := _ in _) _ => cbv zeta
  | |- rel (iterM _ _) (iterM _ _) => apply r_iter; intros ?
  | |- rel (mapM _ _) (mapM _ _) => apply r_map; intros ?
  | H : OK (cdata ?c) |- rel (match cdata ?c with _ => _ end) _ => revert H; destruct (cdata c); intros H
  | |- rel (match ?x with _ => _ end) _ => destruct x
  | |- rel _ _ => solve [eauto 2 with rdb|eauto 3 with rdb]
  end.
Ltac rgo := repeat rstep.
Lemma r_need o : rel (need o) (need o).
Proof. unfold need. rgo. Qed.
Lemma r_get_at r a : rel (get_at r a) (get_at r a).
Proof. unfold get_at. rgo. Qed.
Lemma r_vec_of r : rel (vec_of r) (vec_of r).
Proof. unfold vec_of. rgo. Qed.
Local Hint Resolve r_need r_get_at r_vec_of : rdb.
Lemma r_arg a i : rel (arg a i) (arg a i).
Proof. unfold arg. rgo. Qed.
Lemma r_nargs a : rel (nargs a) (nargs a).
Proof. unfold nargs. rgo. Qed.
Lemma r_vec_push a x : rel (vec_push a x) (vec_push a x).
Proof. unfold vec_push. rgo. Qed.
Lemma r_sym_of a : rel (sym_of a) (sym_of a).
Proof. unfold sym_of. rgo. Qed.
Lemma r_is_error a : rel (is_error a) (is_error a).
Proof. unfold is_error. rgo. Qed.
Lemma r_env_set e k v : rel (env_set e k v) (env_set e k v).
Proof. unfold env_set. rgo. Qed.
Local Hint Resolve r_arg r_nargs r_vec_push r_sym_of r_is_error r_env_set : rdb.
Lemma r_bind_each e : forall fs xs, rel (bind_each e fs xs) (bind_each e fs xs).
Proof. induction fs as [|f fs IH]; intros [|x xs]; cbn [bind_each]; rgo. Qed.
Lemma r_formal_name r : rel (formal_name r) (formal_name r).
Proof. unfold formal_name. rgo. Qed.
Local Hint Resolve r_bind_each r_formal_name : rdb.
Lemma r_env_extend e f a : rel (env_extend e f a) (env_extend e f a).
Proof. unfold env_extend. rgo. Qed.
Lemma r_seq_push r x : rel (seq_push r x) (seq_push r x).
Proof. unfold seq_push. rgo. Qed.
Lemma r_map_of r : rel (map_of r) (map_of r).
Proof. unfold map_of. rgo. Qed.
Lemma r_new_const d t : OK d -> rel (new_const d t) (new_const d t).
Proof. intros O. unfold new_const. rgo. Qed.
Lemma r_map_data X r (k k' : hmap ref ref -> M X) : (forall m, OK (DMap m) -> rel (k m) (k' m)) -> rel (bind (map_of r) k) (bind (map_of r) k').
Proof. intros K. unfold map_of. apply r_assoc, r_data. intros d O. destruct d; try exact (r_abort _). exact (K _ O). Qed.
Local Hint Resolve r_env_extend r_seq_push r_map_of r_new_const : rdb.
Lemma r_nil : rel value_nil value_nil.
Proof. apply r_new_const. okay. Qed.
Lemma r_true : rel value_true value_true.
Proof. apply r_new_const. okay. Qed.
Lemma r_false : rel value_false value_false.
Proof. apply r_new_const. okay. Qed.
Lemma r_bool b : rel (value_bool b) (value_bool b).
Proof. destruct b; apply r_new_const; okay. Qed.
Lemma r_pad r : forall n, rel (pad_nils n r) (pad_nils n r).
Proof. induction n; cbn [pad_nils]; pose proof r_nil; rgo. Qed.
Lemma r_pops l : rel (pops l) (pops l).
Proof. unfold pops. rgo. Qed.
Lemma r_sym_is r t : rel (sym_is r t) (sym_is r t).
Proof. unfold sym_is. rgo. Qed.
Lemma r_int_of r : rel (int_of r) (int_of r).
Proof. unfold int_of. rgo. Qed.
Local Hint Resolve r_nil r_true r_false r_bool r_pad r_pops r_sym_is r_int_of : rdb.

(** *** with a bound *)
Section Bound.
Context (n m : nat) (LE : (n <= m)%nat).
Lemma r_vmap_find0 x y k e b : (x <= y)%nat -> rel (vmap_find x k e b) (vmap_find y k e b).
Proof. intros. apply r_heap. now apply find_hrel. Qed.
Lemma r_vmap_put0 x y k e b v : (x <= y)%nat -> rel (vmap_put x k e b v) (vmap_put y k e b v).
Proof. intros. pose proof r_vmap_find0. unfold vmap_put. rgo. Qed.
Lemma r_vmap_remove0 x y k e b : (x <= y)%nat -> rel (vmap_remove x k e b) (vmap_remove y k e b).
Proof. intros. pose proof r_vmap_find0. unfold vmap_remove. rgo. Qed.
Lemma r_put_then X x y k e b v (f f' : hmap ref ref -> M X) : (x <= y)%nat -> OK (DMap k) ->
  (forall k', OK (DMap k') -> rel (f k') (f' k')) -> rel (bind (vmap_put x k e b v) f) (bind (vmap_put y k e b v) f').
Proof.
  intros L O K. unfold vmap_put. apply r_assoc, r_bind; [now apply r_vmap_find0|]. intros o. apply r_lift_then. intros k' E. apply K. eapply (c_map_put _ CL); [exact O|exact E].
Qed.
Lemma r_remove_then X x y k e b (f f' : hmap ref ref -> M X) : (x <= y)%nat -> OK (DMap k) ->
  (forall k', OK (DMap k') -> rel (f k') (f' k')) -> rel (bind (vmap_remove x k e b) f) (bind (vmap_remove y k e b) f').
Proof.
  intros L O K. unfold vmap_remove. apply r_assoc, r_bind; [now apply r_vmap_find0|]. intros o. apply (K _ (c_map_remove _ CL _ _ _ _ O)).
Qed.
Ltac rstep ::=
  match goal with
  | |- rel (bind (get_cell _) _) _ => let H := fresh in apply r_cell; intros ? H; pose proof (P_ok _ H)
  | |- rel (bind (get _) _) _ => apply r_data; intros ? ?
  | |- rel (bind (map_of _) _) _ => apply r_map_data; intros ? ?
  | |- rel (bind (vmap_put _ _ _ _ _) _) _ => apply r_put_then; [lia|assumption|intros ? ?]
  | |- rel (bind (vmap_remove _ _ _ _) _) _ => apply r_remove_then; [lia|assumption|intros ? ?]
  | |- rel (bind _ _) (bind _ _) => apply r_bind; [|intros ?]
  | |- rel (match generated_kind ?d with _ => _ end) _ => let E := fresh in destruct (generated_kind d) eqn:E; [apply ok_generated in E|]
  | |- rel (let x := _ in _) _ => cbv zeta
  | |- rel (iterM _ _) (iterM _ _) => apply r_iter; intros ?
  | |- rel (mapM _ _) (mapM _ _) => apply r_map; intros ?
  | H : OK (cdata ?c) |- rel (match cdata ?c with _ => _ end) _ => revert H; destruct (cdata c); intros H
  | |- rel (match ?x with _ => _ end) _ => destruct x
  | |- rel _ _ => solve [eauto 2 with rdb|eauto 3 with rdb]
  end.
Lemma r_copy0 : forall x y r, (x <= y)%nat -> rel (copy x r) (copy y r).
Proof.
  induction x as [|x IH]; intros y r L; [apply r_nofuel|]. destruct y as [|y]; [lia|]. assert (IH' : forall r, rel (copy x r) (copy y r)) by (intros; apply IH; lia).
  assert (V : forall k e b v, rel (vmap_put x k e b v) (vmap_put y k e b v)) by (intros; apply r_vmap_put0; lia). clear IH.
  cbn [copy]. rgo.
Qed.
Lemma r_vmap_find k e b : rel (vmap_find n k e b) (vmap_find m k e b).
Proof. now apply r_vmap_find0. Qed.
Lemma r_vmap_put k e b v : rel (vmap_put n k e b v) (vmap_put m k e b v).
Proof. now apply r_vmap_put0. Qed.
Lemma r_vmap_remove k e b : rel (vmap_remove n k e b) (vmap_remove m k e b).
Proof. now apply r_vmap_remove0. Qed.
Lemma r_copy r : rel (copy n r) (copy m r).
Proof. now apply r_copy0. Qed.
Local Hint Resolve r_vmap_find r_vmap_put r_vmap_remove r_copy : rdb.
Lemma r_copy_atom r : rel (copy_atom n r) (copy_atom m r).
Proof. unfold copy_atom. rgo. Qed.
Local Hint Resolve r_copy_atom : rdb.
Lemma r_set_seq x l : rel (set_seq n x l) (set_seq m x l).
Proof. unfold set_seq. rgo. Qed.
Lemma r_set_map x y k : rel (set_map n x y k) (set_map m x y k).
Proof. unfold set_map. rgo. Qed.
Local Hint Resolve r_set_seq r_set_map : rdb.
Lemma r_value_set x y : rel (value_set n x y) (value_set m x y).
Proof. unfold value_set. rgo. Qed.
Lemma r_set_collection x k y : rel (set_collection n x k y) (set_collection m x k y).
Proof. unfold set_collection. rgo. Qed.
Local Hint Resolve r_value_set r_set_collection : rdb.
Lemma r_equal a b : rel (heap_op (fun h => vequal n h a b)) (heap_op (fun h => vequal m h a b)).
Proof. now apply r_heap, equal_hrel. Qed.
Lemma r_less_eq a b : rel (heap_op (fun h => vless_eq n h a b)) (heap_op (fun h => vless_eq m h a b)).
Proof. now apply r_heap, less_eq_hrel. Qed.
Lemma r_texts rd l : rel (heap_op (fun h => omap (to_text rd false n h) l)) (heap_op (fun h => omap (to_text rd false m h) l)).
Proof. now apply r_heap, texts_hrel. Qed.
Lemma r_remove_all s u : ole (str_remove_all n s u) (str_remove_all m s u).
Proof. now apply remove_all_ole. Qed.
Lemma r_text rd pl x : rel (heap_op (fun h => to_text rd pl n h x)) (heap_op (fun h => to_text rd pl m h x)).
Proof. now apply r_heap, text_hrel. Qed.
Lemma r_octets rd x : rel (heap_op (fun h => obind (to_text rd false n h x) octets_of)) (heap_op (fun h => obind (to_text rd false m h x) octets_of)).
Proof. now apply r_heap, octets_hrel. Qed.
Lemma r_pieces rd l ps : rel (heap_op (fun h => omap (piece_text rd n h l) ps)) (heap_op (fun h => omap (piece_text rd m h l) ps)).
Proof. now apply r_heap, pieces_hrel. Qed.
Lemma r_piece_octets rd l ps : rel (heap_op (fun h => omap (piece_octets rd n h l) ps)) (heap_op (fun h => omap (piece_octets rd m h l) ps)).
Proof. now apply r_heap, piece_octets_hrel. Qed.
Local Hint Resolve r_equal r_less_eq r_texts r_remove_all r_text r_octets r_pieces r_piece_octets : rdb.
Lemma r_doc_of x : rel (doc_of x) (doc_of x).
Proof. unfold doc_of. rgo. Qed.
Lemma r_value_length x : rel (value_length x) (value_length x).
Proof. unfold value_length. rgo. Qed.
Local Hint Resolve r_doc_of r_value_length : rdb.
Lemma r_integer_add0 : forall x y a b, (x <= y)%nat -> rel (integer_add x a b) (integer_add y a b).
Proof.
  induction x as [|x IH]; intros y a b L; [apply r_nofuel|]. destruct y as [|y]; [lia|]. assert (IH' : forall a b, rel (integer_add x a b) (integer_add y a b)) by (intros; apply IH; lia).
  clear IH. cbn [integer_add]. rgo.
Qed.
Lemma r_real_add0 : forall x y a b, (x <= y)%nat -> rel (real_add x a b) (real_add y a b).
Proof.
  induction x as [|x IH]; intros y a b L; [apply r_nofuel|]. destruct y as [|y]; [lia|]. assert (IH' : forall a b, rel (real_add x a b) (real_add y a b)) by (intros; apply IH; lia).
  clear IH. cbn [real_add]. rgo.
Qed.
Lemma r_string_push0 : forall x y a b, (x <= y)%nat -> rel (string_push x a b) (string_push y a b).
Proof.
  induction x as [|x IH]; intros y a b L; [apply r_nofuel|]. destruct y as [|y]; [lia|]. assert (IH' : forall a b, rel (string_push x a b) (string_push y a b)) by (intros; apply IH; lia).
  assert (T : forall rd r, rel (heap_op (fun h => to_text rd false x h r)) (heap_op (fun h => to_text rd false y h r))) by (intros; apply r_heap, text_hrel; lia).
  clear IH. cbn [string_push]. rgo.
Qed.
Lemma r_integer_sub0 : forall x y a b, (x <= y)%nat -> rel (integer_sub x a b) (integer_sub y a b).
Proof.
  induction x as [|x IH]; intros y a b L; [apply r_nofuel|]. destruct y as [|y]; [lia|]. assert (IH' : forall a b, rel (integer_sub x a b) (integer_sub y a b)) by (intros; apply IH; lia).
  clear IH. cbn [integer_sub]. rgo.
Qed.
Lemma r_real_sub0 : forall x y a b, (x <= y)%nat -> rel (real_sub x a b) (real_sub y a b).
Proof.
  induction x as [|x IH]; intros y a b L; [apply r_nofuel|]. destruct y as [|y]; [lia|]. assert (IH' : forall a b, rel (real_sub x a b) (real_sub y a b)) by (intros; apply IH; lia).
  clear IH. cbn [real_sub]. rgo.
Qed.
Lemma r_integer_add a b : rel (integer_add n a b) (integer_add m a b). Proof. now apply r_integer_add0. Qed.
Lemma r_real_add a b : rel (real_add n a b) (real_add m a b). Proof. now apply r_real_add0. Qed.
Lemma r_string_push a b : rel (string_push n a b) (string_push m a b). Proof. now apply r_string_push0. Qed.
Lemma r_integer_sub a b : rel (integer_sub n a b) (integer_sub m a b). Proof. now apply r_integer_sub0. Qed.
Lemma r_real_sub a b : rel (real_sub n a b) (real_sub m a b). Proof. now apply r_real_sub0. Qed.
Lemma r_hash_map_put x k v : rel (hash_map_put n x k v) (hash_map_put m x k v).
Proof. unfold hash_map_put. rgo. Qed.
Local Hint Resolve r_integer_add r_real_add r_string_push r_integer_sub r_real_sub r_hash_map_put : rdb.
Lemma r_put_pairs x : forall k l, (List.length l <= k)%nat -> rel (put_pairs n x l) (put_pairs m x l).
Proof.
  induction k as [|k IH]; intros [|a [|b l]] L; cbn [put_pairs]; cbn [List.length] in L; try lia; try solve [rgo]. apply r_bind; [auto with rdb|]. intros _. apply IH. lia.
Qed.
Lemma r_put_pairs' x l : rel (put_pairs n x l) (put_pairs m x l). Proof. eapply r_put_pairs; reflexivity. Qed.
Lemma r_put_elements x l : rel (put_elements n x l) (put_elements m x l).
Proof. unfold put_elements. rgo. Qed.
Local Hint Resolve r_put_pairs' r_put_elements : rdb.
Lemma r_hash_map_add x k o : rel (hash_map_add n x k o) (hash_map_add m x k o).
Proof. unfold hash_map_add. rgo. Qed.
Lemma r_seq_push_atom x y : rel (seq_push_atom n x y) (seq_push_atom m x y).
Proof. unfold seq_push_atom. rgo. Qed.
Local Hint Resolve r_hash_map_add r_seq_push_atom : rdb.
Lemma r_incr_each : forall l x, rel (incr_each l x) (incr_each l x).
Proof. induction l; intros; cbn [incr_each]; rgo. Qed.
Lemma r_decr_each : forall l x, rel (decr_each l x) (decr_each l x).
Proof. induction l; intros; cbn [decr_each]; rgo. Qed.
Lemma r_div_each : forall l x, rel (div_each l x) (div_each l x).
Proof. induction l; intros; cbn [div_each]; rgo. Qed.
Lemma r_arith_each o : forall l i z f, rel (arith_each o l i z f) (arith_each o l i z f).
Proof. induction l; intros; cbn [arith_each]; rgo. Qed.
Lemma r_append_texts x : forall l, rel (append_texts x l) (append_texts x l).
Proof. induction l; intros; cbn [append_texts]; rgo. Qed.
Lemma r_remove_texts x : forall l, rel (remove_texts n x l) (remove_texts m x l).
Proof. induction l; intros; cbn [remove_texts]; rgo. Qed.
Lemma r_remove_each_text x : forall l, rel (remove_each_text n x l) (remove_each_text m x l).
Proof. induction l; intros; cbn [remove_each_text]; rgo. Qed.
Lemma r_remove_keys x : forall l, rel (remove_keys n x l) (remove_keys m x l).
Proof. induction l; intros; cbn [remove_keys]; rgo. Qed.
Lemma r_cp_chars x : forall l, rel (cp_chars x l) (cp_chars x l).
Proof. induction l; intros; cbn [cp_chars]; rgo. Qed.
Lemma r_cp_elements x r : forall k i, rel (cp_elements n x r k i) (cp_elements m x r k i).
Proof. induction k; intros; cbn [cp_elements]; rgo. Qed.
Lemma r_code_shift t f : rel (code_shift t f) (code_shift t f).
Proof. unfold code_shift. rgo. Qed.
Local Hint Resolve r_code_shift : rdb.
Lemma r_character_add x y : rel (character_add x y) (character_add x y).
Proof. unfold character_add. rgo. Qed.
Lemma r_character_sub x y : rel (character_sub x y) (character_sub x y).
Proof. unfold character_sub. rgo. Qed.
Lemma r_version_change b x y : rel (version_change b x y) (version_change b x y).
Proof. unfold version_change. rgo. Qed.
Local Hint Resolve r_character_add r_character_sub r_version_change : rdb.
Lemma r_subtract_versions x : forall l, rel (subtract_versions x l) (subtract_versions x l).
Proof. induction l; intros; cbn [subtract_versions]; rgo. Qed.
Lemma r_change_versions b x : forall l, rel (change_versions b x l) (change_versions b x l).
Proof. induction l; intros; cbn [change_versions]; rgo. Qed.
Lemma r_version_at v z : rel (version_at v z) (version_at v z).
Proof. unfold version_at. rgo. Qed.
Lemma r_add_copies x : forall k l, (List.length l <= k)%nat -> rel (add_copies n x l) (add_copies m x l).
Proof.
  induction k as [|k IH]; intros [|a [|b t]] L; cbn in L; try lia; cbn [add_copies]; try solve [rgo].
  assert (IH' : rel (add_copies n x t) (add_copies m x t)) by (apply IH; lia). rgo.
Qed.
Lemma r_add_copies' x l : rel (add_copies n x l) (add_copies m x l).
Proof. exact (r_add_copies x _ l (le_n _)). Qed.
Local Hint Resolve r_subtract_versions r_change_versions r_version_at r_add_copies' : rdb.
Local Hint Resolve r_incr_each r_decr_each r_div_each r_arith_each r_append_texts r_remove_texts r_remove_each_text r_remove_keys r_cp_chars r_cp_elements : rdb.
Lemma r_best b b' : (forall x y, hrel (fun h => b h x y) (fun h => b' h x y)) -> forall l x, rel (best_each b x l) (best_each b' x l).
Proof. intros K. induction l; intros; cbn [best_each]; [rgo|]. apply r_bind; [apply r_heap, K|]. intros c. apply IHl. Qed.
Lemma r_remove_where b b' x : (forall v, hrel (fun h => b h v) (fun h => b' h v)) -> forall k j, rel (remove_where b x k j) (remove_where b' x k j).
Proof. intros K. assert (K' : forall v, rel (heap_op (fun h => b h v)) (heap_op (fun h => b' h v))) by auto. induction k; intros; cbn [remove_where]; rgo. Qed.
Lemma r_remove_equal y x k j : rel (remove_where (fun h v => vequal n h y v) x k j) (remove_where (fun h v => vequal m h y v) x k j).
Proof. apply r_remove_where. intros. now apply equal_hrel. Qed.
Lemma r_max x l : rel (best_each (vgreater n) x l) (best_each (vgreater m) x l).
Proof. apply r_best. intros. now apply greater_hrel. Qed.
Lemma r_min x l : rel (best_each (vless n) x l) (best_each (vless m) x l).
Proof. apply r_best. intros. now apply less_hrel. Qed.
Lemma r_find_elements r k : forall l i, rel (find_elements n r k i l) (find_elements m r k i l).
Proof. induction l; intros; cbn [find_elements]; rgo. Qed.
Lemma r_new_ints l : rel (new_ints l) (new_ints l).
Proof. unfold new_ints. rgo. Qed.
Local Hint Resolve r_remove_equal r_max r_min r_find_elements r_new_ints : rdb.
Lemma r_ints_or o x : rel x x -> rel (ints_or o x) (ints_or o x).
Proof. intros. unfold ints_or. rgo. Qed.
Local Hint Resolve r_ints_or : rdb.
Lemma r_find_from x k : rel (find_from n x k) (find_from m x k).
Proof. unfold find_from. rgo. Qed.
Lemma r_map_at k i t : rel (map_at n k i t) (map_at m k i t).
Proof. unfold map_at. rgo. Qed.
Lemma r_new_seq d l : OK d -> rel (new_seq n d l) (new_seq m d l).
Proof. intros O. unfold new_seq. rgo. Qed.
Local Hint Resolve r_find_from r_map_at r_new_seq : rdb.
(** *** reading texts *)
Lemma r_read_text mk s l : (forall t, OK (mk t)) -> rel (read_text mk s l) (read_text mk s l).
Proof. intros O. unfold read_text. rgo. Qed.
Lemma r_read_error l : rel (read_error l) (read_error l).
Proof. unfold read_error. rgo. Qed.
Local Hint Resolve r_read_text r_read_error : rdb.
Lemma r_read_both : forall f, (forall t l, rel (read_token f t l) (read_token f t l)) /\ (forall v l, rel (read_list f v l) (read_list f v l)).
Proof.
  induction f as [|f [IH1 IH2]]; (split; intros; [cbn [read_token]|cbn [read_list]]); rgo.
Qed.
Lemma r_read_value l : rel (read_value l) (read_value l).
Proof. unfold read_value. apply r_bind; [auto with rdb|]. intros p. apply r_read_both. Qed.
Local Hint Resolve r_read_value : rdb.
Lemma r_set_line r k : rel (set_line r k) (set_line r k).
Proof. unfold set_line. rgo. Qed.
Lemma r_leave l r : rel (leave l r) (leave l r).
Proof. unfold leave. rgo. Qed.
Local Hint Resolve r_set_line r_leave : rdb.
Section Texts.
Context (ev ev' : evaluator) (EV : forall v e, rel (ev v e) (ev' v e)).
Lemma r_eval_read_by o : rel (eval_read_by ev o) (eval_read_by ev' o).
Proof. unfold eval_read_by. rgo. Qed.
Local Hint Resolve r_eval_read_by : rdb.
Lemma r_read_eval_loop_by : forall k i l r, rel (read_eval_loop_by k ev i l r) (read_eval_loop_by k ev' i l r).
Proof. induction k; intros; cbn [read_eval_loop_by]; rgo. Qed.
Local Hint Resolve r_read_eval_loop_by : rdb.
Lemma r_read_eval_by i : rel (read_eval_by ev i) (read_eval_by ev' i).
Proof. unfold read_eval_by. rgo. Qed.
End Texts.
Section Evaluator.
Context (ev ev' : evaluator) (r_ev : forall x e, rel (ev x e) (ev' x e)).
Local Hint Resolve r_ev : rdb.
Lemma r_copy_filtered0 env src res p : forall x y i, (x <= y)%nat -> rel (copy_filtered n x ev env src res p i) (copy_filtered m y ev' env src res p i).
Proof.
  induction x as [|x IH]; intros y i L; [apply r_nofuel|]. destruct y as [|y]; [lia|].
  assert (IH' : forall i, rel (copy_filtered n x ev env src res p i) (copy_filtered m y ev' env src res p i)) by (intros; apply IH; lia).
  clear IH. cbn [copy_filtered]. rgo.
Qed.
Lemma r_copy_filtered env src res p i : rel (copy_filtered n n ev env src res p i) (copy_filtered m m ev' env src res p i).
Proof. now apply r_copy_filtered0. Qed.
Lemma r_copy_filtered_str0 env src p : forall x y i t, (x <= y)%nat -> rel (copy_filtered_str x ev env src p i t) (copy_filtered_str y ev' env src p i t).
Proof.
  induction x as [|x IH]; intros y i t L; [apply r_nofuel|]. destruct y as [|y]; [lia|].
  assert (IH' : forall i t, rel (copy_filtered_str x ev env src p i t) (copy_filtered_str y ev' env src p i t)) by (intros; apply IH; lia).
  clear IH. cbn [copy_filtered_str]. rgo.
Qed.
Lemma r_copy_filtered_str env src p i t : rel (copy_filtered_str n ev env src p i t) (copy_filtered_str m ev' env src p i t).
Proof. now apply r_copy_filtered_str0. Qed.
Local Hint Resolve r_copy_filtered r_copy_filtered_str : rdb.
Lemma r_cp_at a : rel (b_cp_at n a) (b_cp_at m a).
Proof. unfold b_cp_at. rgo. Qed.
Lemma r_b_copy a e : rel (b_copy n ev a e) (b_copy m ev' a e).
Proof. unfold b_copy. rgo. Qed.
Lemma r_plus_text a : rel (plus_text a) (plus_text a).
Proof.
  unfold plus_text. apply r_bind; [auto with rdb|]. intros [|x t]; [rgo|]. apply r_data. intros d _.
  set (rest := fun d' => r <- alloc d' ;; push r ;;; ok <- append_texts r t ;; pop r ;;; if (ok : bool) then ret r else new_error).
  assert (K : forall d', OK d' -> rel (rest d') (rest d')) by (intros; unfold rest; rgo). clearbody rest.
  destruct d; try exact (r_abort _); apply r_assoc, r_bind; try solve [auto with rdb]; intros s'; match goal with |- rel (bind (ret ?v) _) _ => exact (K v ltac:(okay)) end.
Qed.
Local Hint Resolve r_plus_text : rdb.
Lemma r_b_plus a : rel (b_plus n a) (b_plus m a).
Proof. unfold b_plus, plus_numerical, plus_vector, plus_map, version_arith. rgo. Qed.
Lemma r_b_minus a : rel (b_minus n a) (b_minus m a).
Proof. unfold b_minus, minus_numerical, version_arith. rgo. Qed.
Lemma r_read_string i : rel (read_eval_by ev i) (read_eval_by ev' i).
Proof. now apply r_read_eval_by. Qed.
Local Hint Resolve r_cp_at r_b_copy r_b_plus r_b_minus r_read_string : rdb.
Lemma r_builtin p a e : rel (builtin_call n ev p a e) (builtin_call m ev' p a e).
Proof.
  destruct p; cbn [builtin_call]; try solve [eauto 2 with rdb];
  unfold b_not, b_return, b_vector, b_exit, b_doc, b_len, b_uid, b_set, b_plus_eq, b_incr, b_decr, b_pop_back, b_pop_front, b_mod, b_div, b_times,
    b_hash_map, b_queue, b_list, b_queue_max, b_ln_at, b_max, b_min, b_starts_with, b_to_real, b_to_integer, b_to_string,
    b_distance, b_sqrt, b_character, b_abort, b_find, b_split, b_minus_eq, b_minus_eq_eq, b_string_format, b_println, b_print, b_print_readably, b_env_new, b_env_current, b_env_global, b_is, b_read_eval_string, b_read_eval_path, b_host_strings; rgo.
  apply r_remove_where. intros v. split; intros; [apply olo_refl|apply ole_refl].
Qed.
Lemma r_define_var k v a e : rel (define_var n ev k v a e) (define_var m ev' k v a e).
Proof. unfold define_var. rgo. Qed.
Lemma r_define_var_in k v a e : rel (define_var_in n ev k v a e) (define_var_in m ev' k v a e).
Proof. unfold define_var_in. rgo. Qed.
Lemma r_mentioned t : forall q l, (List.length l <= q)%nat -> rel (mentioned t l) (mentioned t l).
Proof. 
  induction q as [|q IH]; intros [|x [|y l]] L; cbn [List.length] in L; try lia; cbn [mentioned]; try solve [rgo].
  pose proof (IH l ltac:(lia)) as K. rgo.
Qed.
Lemma r_mentioned' t l : rel (mentioned t l) (mentioned t l). Proof. eapply r_mentioned; reflexivity. Qed.
Lemma r_append_docs d : forall q l, (List.length l <= q)%nat -> rel (append_docs d l) (append_docs d l).
Proof.
  induction q as [|q IH]; intros [|x [|y l]] L; cbn [List.length] in L; try lia; cbn [append_docs]; try solve [rgo].
  pose proof (IH l ltac:(lia)) as K. rgo.
Qed.
Lemma r_append_docs' d l : rel (append_docs d l) (append_docs d l). Proof. eapply r_append_docs; reflexivity. Qed.
Local Hint Resolve r_define_var r_define_var_in r_mentioned' r_append_docs' : rdb.
Lemma r_all_mentioned f d : rel (all_mentioned f d) (all_mentioned f d).
Proof. unfold all_mentioned. rgo. Qed.
Local Hint Resolve r_all_mentioned : rdb.
Lemma r_finish yes k v e d dv l : rel (finish_fun yes k v e d dv l) (finish_fun yes k v e d dv l).
Proof. unfold finish_fun. rgo. Qed.
Local Hint Resolve r_finish : rdb.
Lemma r_define_fun k v a e : rel (define_fun ev k v a e) (define_fun ev' k v a e).
Proof. unfold define_fun. rgo. Qed.
Lemma r_define_fun_in k v a e : rel (define_fun_in ev k v a e) (define_fun_in ev' k v a e).
Proof. unfold define_fun_in. rgo. Qed.
Local Hint Resolve r_define_fun r_define_fun_in : rdb.
Lemma r_define a e : rel (s_define n ev a e) (s_define m ev' a e).
Proof. unfold s_define. rgo. Qed.
Lemma r_apply_args a e v : forall k i, rel (apply_args k ev a e v i) (apply_args k ev' a e v i).
Proof. induction k; intros; cbn [apply_args]; rgo. Qed.
Lemma r_eval_twice x e : rel (eval_twice ev x e) (eval_twice ev' x e).
Proof. unfold eval_twice. rgo. Qed.
Local Hint Resolve r_define r_apply_args r_eval_twice : rdb.
Lemma r_s_apply a e q : rel (s_apply ev a e q) (s_apply ev' a e q).
Proof. unfold s_apply. rgo. Qed.
Local Hint Resolve r_s_apply : rdb.
Lemma r_s_eval a e : rel (s_eval ev a e) (s_eval ev' a e).
Proof. unfold s_eval. rgo. Qed.
Lemma r_select_loop a e : forall k i, rel (select_loop k ev a e i) (select_loop k ev' a e i).
Proof. induction k; intros; cbn [select_loop]; rgo. Qed.
Lemma r_if a e : rel (s_if ev a e) (s_if ev' a e).
Proof. unfold s_if. rgo. Qed.
Lemma r_run_forms a e : forall k i, rel (run_forms k ev a e i) (run_forms k ev' a e i).
Proof. induction k; intros; cbn [run_forms]; rgo. Qed.
Local Hint Resolve r_s_eval r_select_loop r_if r_run_forms : rdb.
Lemma r_while0 a e q : forall x y c, (x <= y)%nat -> rel (while_loop x ev a e q c) (while_loop y ev' a e q c).
Proof.
  induction x as [|x IH]; intros y c L; [apply r_nofuel|]. destruct y as [|y]; [lia|]. assert (IH' : forall c, rel (while_loop x ev a e q c) (while_loop y ev' a e q c)) by (intros; apply IH; lia).
  clear IH. cbn [while_loop]. rgo.
Qed.
Lemma r_while a e q c : rel (while_loop n ev a e q c) (while_loop m ev' a e q c). Proof. now apply r_while0. Qed.
Lemma r_for_loop0 a e k it it' z st j cnt : (forall i, rel (it i) (it' i)) ->
  forall x y i c, (x <= y)%nat -> rel (for_loop x ev a e k it i z st j cnt c) (for_loop y ev' a e k it' i z st j cnt c).
Proof.
  intros K. induction x as [|x IH]; intros y i c L; [apply r_nofuel|]. destruct y as [|y]; [lia|].
  assert (IH' : forall i c, rel (for_loop x ev a e k it i z st j cnt c) (for_loop y ev' a e k it' i z st j cnt c)) by (intros; apply IH; lia).
  clear IH. cbn [for_loop]. rgo.
Qed.
Lemma r_for_step a i q : rel (for_step a i q) (for_step a i q).
Proof. unfold for_step. rgo. Qed.
Lemma r_for_result o l : rel (for_result o l) (for_result o l).
Proof. unfold for_result. rgo. Qed.
Lemma r_step_fail o l : rel (step_fail o l) (step_fail o l).
Proof. unfold step_fail. rgo. Qed.
Lemma r_for_item c ad i : rel (for_item n c ad i) (for_item m c ad i).
Proof. unfold for_item. rgo. Qed.
Lemma r_from_item c ad i : rel (from_item n c ad i) (from_item m c ad i).
Proof. unfold from_item. rgo. Qed.
Lemma r_for_each a e k c ad i z st j cnt q : rel (for_loop n ev a e k (for_item n c ad) i z st j cnt q) (for_loop m ev' a e k (for_item m c ad) i z st j cnt q).
Proof. apply r_for_loop0; [apply r_for_item|exact LE]. Qed.
Lemma r_for_count a e k c ad i z st j cnt q : rel (for_loop n ev a e k (from_item n c ad) i z st j cnt q) (for_loop m ev' a e k (from_item m c ad) i z st j cnt q).
Proof. apply r_for_loop0; [apply r_from_item|exact LE]. Qed.
Local Hint Resolve r_while r_for_step r_for_result r_step_fail r_for_each r_for_count : rdb.
Lemma r_for a e : rel (s_for n ev a e) (s_for m ev' a e).
Proof. unfold s_for, for_in, for_from. rgo. Qed.
Lemma r_equal_loop eq eq' a e : (forall x y, rel (eq x y) (eq' x y)) -> forall k x i, rel (equal_loop k ev eq a e x i) (equal_loop k ev' eq' a e x i).
Proof. intros K. induction k; intros; cbn [equal_loop]; rgo. Qed.
Lemma r_by_uid x y : rel (by_uid x y) (by_uid x y).
Proof. unfold by_uid. rgo. Qed.
Lemma r_equal_value k a e x i : rel (equal_loop k ev (by_value (vequal n)) a e x i) (equal_loop k ev' (by_value (vequal m)) a e x i).
Proof. apply r_equal_loop. intros. apply r_equal. Qed.
Lemma r_equal_uid k a e x i : rel (equal_loop k ev by_uid a e x i) (equal_loop k ev' by_uid a e x i).
Proof. apply r_equal_loop. intros. apply r_by_uid. Qed.
Local Hint Resolve r_equal_value r_equal_uid : rdb.
Lemma r_s_equal a e : rel (s_equal n ev a e) (s_equal m ev' a e).
Proof. unfold s_equal, equal_with. rgo. Qed.
Local Hint Resolve r_for r_s_equal : rdb.
Lemma r_order_loop q q' a e : (forall x y, hrel (fun h => q h x y) (fun h => q' h x y)) -> forall k x i, rel (order_loop k ev q a e x i) (order_loop k ev' q' a e x i).
Proof. intros K. assert (K' : forall x y, rel (by_value q x y) (by_value q' x y)) by (intros; now apply r_heap). induction k; intros; cbn [order_loop]; rgo. Qed.
Lemma r_order q q' a e : (forall x y, hrel (fun h => q h x y) (fun h => q' h x y)) -> rel (s_order ev q a e) (s_order ev' q' a e).
Proof. intros K. pose proof (r_order_loop q q' a e K). unfold s_order. rgo. Qed.
Lemma r_formal_texts : forall l, rel (formal_texts l) (formal_texts l).
Proof. induction l; cbn [formal_texts]; rgo. Qed.
Local Hint Resolve r_formal_texts : rdb.
Lemma r_valid_formals l : rel (valid_formals l) (valid_formals l).
Proof. unfold valid_formals. rgo. Qed.
Lemma r_body_forms a b : forall k i, rel (body_forms k a b i) (body_forms k a b i).
Proof. induction k; intros; cbn [body_forms]; rgo. Qed.
Local Hint Resolve r_valid_formals r_body_forms : rdb.
Lemma r_fn mk a e : (forall f, OK (mk f)) -> rel (s_fn mk a e) (s_fn mk a e).
Proof. intros O. unfold s_fn. rgo. Qed.
Lemma r_logic_loop st a e : forall k i l, rel (logic_loop k ev st a e i l) (logic_loop k ev' st a e i l).
Proof. induction k; intros; cbn [logic_loop]; rgo. Qed.
Lemma r_do_loop a e : forall k i l, rel (do_loop k ev a e i l) (do_loop k ev' a e i l).
Proof. induction k; intros; cbn [do_loop]; rgo. Qed.
Local Hint Resolve r_fn r_logic_loop r_do_loop : rdb.
Lemma r_collect r x : rel (collect r x) (collect r x).
Proof. unfold collect. rgo. Qed.
Local Hint Resolve r_collect : rdb.
Lemma r_generate_same r x : forall k, rel (generate_same k r x) (generate_same k r x).
Proof. induction k; cbn [generate_same]; rgo. Qed.
Lemma r_generate_calls e g r : forall k i, rel (generate_calls k ev e g r i) (generate_calls k ev' e g r i).
Proof. induction k; intros; cbn [generate_calls]; rgo. Qed.
Lemma r_mapped_vectors a e vs : forall k i c, rel (mapped_vectors k ev a e vs i c) (mapped_vectors k ev' a e vs i c).
Proof. induction k; intros; cbn [mapped_vectors]; rgo. Qed.
Lemma r_push_elements f vs i : rel (push_elements f vs i) (push_elements f vs i).
Proof. unfold push_elements. rgo. Qed.
Local Hint Resolve r_generate_same r_generate_calls r_mapped_vectors r_push_elements : rdb.
Lemma r_generate_mapped e f vs r : forall k i, rel (generate_mapped k ev e f vs r i) (generate_mapped k ev' e f vs r i).
Proof. induction k; intros; cbn [generate_mapped]; rgo. Qed.
Local Hint Resolve r_generate_mapped : rdb.
Lemma r_generate a e : rel (s_generate ev a e) (s_generate ev' a e).
Proof. unfold s_generate, s_generate_of, s_generate_map. rgo. Qed.
Lemma r_insert r x : rel (insert r x) (insert r x).
Proof. unfold insert. rgo. Qed.
Local Hint Resolve r_insert : rdb.
Lemma r_splice r x : rel (splice r x) (splice r x).
Proof. unfold splice. rgo. Qed.
Local Hint Resolve r_splice : rdb.
Lemma r_template_loop it it' : (forall i r, rel (it i r) (it' i r)) -> forall k c i r, rel (template_loop k it c i r) (template_loop k it' c i r).
Proof. intros K. induction k; intros; cbn [template_loop]; rgo. Qed.
Lemma r_template_item e : forall x y v i r, (x <= y)%nat -> rel (template_item x ev e v i r) (template_item y ev' e v i r).
Proof.
  induction x as [|x IH]; intros y v i r L; [apply r_nofuel|]. destruct y as [|y]; [lia|].
  assert (IH' : forall v k c i r, rel (template_loop k (template_item x ev e v) c i r) (template_loop k (template_item y ev' e v) c i r)) by (intros; apply r_template_loop; intros; apply IH; lia).
  clear IH. cbn [template_item]. rgo.
Qed.
Lemma r_template_items e v k c i r : rel (template_loop k (template_item n ev e v) c i r) (template_loop k (template_item m ev' e v) c i r).
Proof. apply r_template_loop. intros. now apply r_template_item. Qed.
Local Hint Resolve r_template_items : rdb.
Lemma r_template a e : rel (s_template n ev a e) (s_template m ev' a e).
Proof. unfold s_template. rgo. Qed.
Local Hint Resolve r_generate r_template : rdb.
Lemma r_special p a e : rel (special_call n ev p a e) (special_call m ev' p a e).
Proof.
  destruct p; cbn [special_call]; try solve [eauto 2 with rdb];
  try solve [apply r_order; intros; auto using less_hrel, greater_hrel, less_eq_hrel, greater_eq_hrel];
  unfold s_quote, s_select, s_while, s_identical, equal_with, s_not_equal, s_logic, s_do; rgo.
Qed.
Local Hint Resolve r_builtin r_special : rdb.
Lemma r_form_at v ad : rel (form_at v ad) (form_at v ad).
Proof. unfold form_at. rgo. Qed.
Lemma r_raw_args a : forall l, rel (raw_args a l) (raw_args a l).
Proof. induction l; cbn [raw_args]; rgo. Qed.
Local Hint Resolve r_form_at r_raw_args : rdb.
Lemma r_eval_args0 v ad e a : forall x y i, (x <= y)%nat -> rel (eval_args x ev v ad e a i) (eval_args y ev' v ad e a i).
Proof.
  induction x as [|x IH]; intros y i L; [apply r_nofuel|]. destruct y as [|y]; [lia|]. assert (IH' : forall i, rel (eval_args x ev v ad e a i) (eval_args y ev' v ad e a i)) by (intros; apply IH; lia).
  clear IH. cbn [eval_args]. rgo.
Qed.
Lemma r_eval_args v ad e a i : rel (eval_args n ev v ad e a i) (eval_args m ev' v ad e a i). Proof. now apply r_eval_args0. Qed.
Lemma r_builtin_of f : rel (builtin_of f) (builtin_of f).
Proof. unfold builtin_of. rgo. Qed.
Lemma r_func_at f a : rel (func_at f a) (func_at f a).
Proof. unfold func_at. rgo. Qed.
Local Hint Resolve r_eval_args r_builtin_of r_func_at : rdb.
Lemma r_run_body0 f ad ext : forall x y i l, (x <= y)%nat -> rel (run_body x ev f ad ext i l) (run_body y ev' f ad ext i l).
Proof.
  induction x as [|x IH]; intros y i l L; [apply r_nofuel|]. destruct y as [|y]; [lia|]. assert (IH' : forall i l, rel (run_body x ev f ad ext i l) (run_body y ev' f ad ext i l)) by (intros; apply IH; lia).
  clear IH. cbn [run_body]. rgo.
Qed.
Lemma r_run_body f ad ext i l : rel (run_body n ev f ad ext i l) (run_body m ev' f ad ext i l). Proof. now apply r_run_body0. Qed.
Lemma r_push_all a : forall l, rel (push_all a l) (push_all a l).
Proof. induction l; cbn [push_all]; rgo. Qed.
Local Hint Resolve r_run_body r_push_all : rdb.
Lemma r_call_special v ad p e : rel (call_special n ev v ad p e) (call_special m ev' v ad p e).
Proof. unfold call_special. rgo. Qed.
Lemma r_call_builtin v ad f e : rel (call_builtin n ev v ad f e) (call_builtin m ev' v ad f e).
Proof. unfold call_builtin. rgo. Qed.
Lemma r_call_function v ad f e mc w : rel (call_function n ev v ad f e mc w) (call_function m ev' v ad f e mc w).
Proof. unfold call_function. rgo. Qed.
Local Hint Resolve r_call_special r_call_builtin r_call_function : rdb.
Lemma r_eval_form v l ad e w : rel (eval_form n ev v l ad e w) (eval_form m ev' v l ad e w).
Proof. unfold eval_form. rgo. Qed.
Local Hint Resolve r_eval_form : rdb.
Lemma r_eval_impl v e w : rel (eval_impl n ev v e w) (eval_impl m ev' v e w).
Proof. unfold eval_impl. rgo. Qed.
Local Hint Resolve r_eval_impl : rdb.
Lemma r_eval_loop0 : forall x y v e w, (x <= y)%nat -> rel (eval_loop x n ev v e w) (eval_loop y m ev' v e w).
Proof.
  induction x as [|x IH]; intros y v e w L; [apply r_nofuel|]. destruct y as [|y]; [lia|]. assert (IH' : forall v e w, rel (eval_loop x n ev v e w) (eval_loop y m ev' v e w)) by (intros; apply IH; lia).
  clear IH. cbn [eval_loop]. rgo.
Qed.
End Evaluator.
End Bound.
Theorem r_eval : forall n m v e, (n <= m)%nat -> rel (eval n v e) (eval m v e).
Proof.
  induction n as [|n IH]; intros m v e LE; [apply r_nofuel|]. destruct m as [|m]; [lia|]. cbn [eval]. apply r_eval_loop0; [lia| |lia]. intros. apply IH. lia.
Qed.
(** *** whole texts *)
Local Hint Resolve r_eval : rdb.
Theorem r_read_eval n m i : (n <= m)%nat -> rel (read_eval n i) (read_eval m i).
Proof. intros LE. apply r_read_eval_by. intros. now apply r_eval. Qed.
(** *** the start *)
Lemma r_register g n d : OK d -> rel (register g n d) (register g n d).
Proof. intros O. unfold register. rgo. Qed.
Lemma r_boot_const g n d t : OK d -> rel (boot_const g n d t) (boot_const g n d t).
Proof. intros O. unfold boot_const. rgo. Qed.
Lemma r_boot lib : (forall n d, In (n, d) lib -> OK d) -> (forall g, rel (as_global g) (as_global g)) -> rel (boot lib) (boot lib).
Proof.
  intros L G. unfold boot. apply r_bind; [auto with rdb|]. intros g. apply r_bind; [apply G|]. intros _.
  do 3 (apply r_bind; [apply r_boot_const; okay|]; intros _).
  induction lib as [|[n d] lib IH]; cbn [iterM fst snd]; [auto with rdb|]. apply r_bind; [apply r_register; apply (L n d); now left|]. intros _. apply IH. intros n' d' I. apply (L n' d'). now right.
Qed.
End Related.
