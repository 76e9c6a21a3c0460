(** Contents stay well formed, whatever is evaluated. *)
From Coq Require Import NArith ZArith Bool Lia String List Arith Permutation.
From Verif Require Import Base ListLemmas Input OString HMap SpecMap HMapProofs Heap SpecHeap GcProofs VmProofs ValueOps Env EnvProofs Copy ToText Builtins Specials Eval Read Boot Relate SpecWell.
Import ListNotations.

Section Maps.
Notation hm := (hmap ref ref).
Lemma used_nonempty (bs : list (list (element ref ref))) : List.length (filter (fun b => match b with [] => false | _ => true end) bs) = nonempty bs.
Proof. induction bs as [|[|e b] bs IH]; cbn [filter nonempty List.length]; [reflexivity|exact IH|]. now rewrite IH. Qed.
Lemma formed_new : map_formed map_new.
Proof.
  constructor; cbn [buckets inUse numElements map_new].
  - exists 0%nat. rewrite repeat_length. reflexivity.
  - intros i b e N I. exact (placed_repeat _ i b e N I).
  - now rewrite concat_repeat_nil.
  - rewrite used_nonempty, nonempty_repeat. lia.
  - rewrite repeat_length. lia.
Qed.
Lemma formed_of (m : hm) : (exists j, List.length (buckets m) = 128 * 2 ^ j)%nat -> placed (buckets m) -> numElements m = List.length (List.concat (buckets m)) ->
  (nonempty (buckets m) <= inUse m)%nat -> (4 * inUse m < 3 * List.length (buckets m))%nat -> map_formed m.
Proof. intros. constructor; auto. now rewrite used_nonempty. Qed.

Lemma formed_put q (m : hm) hk k v : map_formed m -> exists m', map_put q m hk k v = Ret m' /\ map_formed m'.
Proof.
  intros [SZ PL NU US LD]. change (placed (buckets m)) in PL. rewrite used_nonempty in US. pose proof (size_pos _ SZ) as POS.
  unfold map_put, map_get. set (i := bucket_index hk (List.length (buckets m))) in *.
  assert (Hi : (i < List.length (buckets m))%nat) by now apply bucket_index_lt.
  destruct (bucket_split (buckets m) i Hi) as (bp & bq & Ebs & Lp & Hset). rewrite !Hset. set (b := nth i (buckets m) []) in *.
  assert (Hb : forall x, In x b -> bucket_index (ehash x) (List.length (buckets m)) = i) by (intros x Hx; apply (PL i b x); [now apply nth_error_nth'|exact Hx]).
  assert (L' : forall b', List.length (bp ++ b' :: bq) = List.length (buckets m)) by (intros; rewrite Ebs, !app_length; reflexivity).
  destruct (find_elem q k b) as [e|] eqn:F.
  - eexists. split; [reflexivity|]. destruct (push_value_split q k v b e F) as (p & t & Eb & ->). apply formed_of; cbn [buckets inUse numElements].
    + rewrite L'. exact SZ.
    + apply (placed_set (buckets m) bp b); [exact Ebs|exact PL|]. intros x Hx. rewrite Lp.
      apply in_app_iff in Hx. destruct Hx as [Hx|[<-|Hx]]; [apply Hb|apply (Hb e)|apply Hb]; rewrite Eb; apply in_or_app; cbn [In]; auto.
    + rewrite NU, Ebs, Eb, !concat_mid, !app_length. cbn. reflexivity.
    + etransitivity; [|exact US]. rewrite Ebs, !nonempty_app. cbn [nonempty]. rewrite Eb. destruct p; cbn; lia.
    + rewrite L'. exact LD.
  - set (e := mkElem hk k [v]). set (m1 := mkMap _ _ _).
    assert (PM : Permutation (List.concat (buckets m1)) (e :: List.concat (buckets m))).
    { cbn [m1 buckets]. rewrite Ebs, !concat_mid. rewrite <- app_assoc. cbn [app]. rewrite !app_assoc. symmetry. apply Permutation_middle. }
    assert (L1 : List.length (buckets m1) = List.length (buckets m)) by (cbn [m1 buckets]; apply L').
    assert (P1 : placed (buckets m1)).
    { apply (placed_set (buckets m) bp b); [exact Ebs|exact PL|]. intros x Hx. rewrite Lp. apply in_app_iff in Hx. destruct Hx as [Hx|[<-|[]]]; [now apply Hb|reflexivity]. }
    assert (U1 : (nonempty (buckets m1) <= inUse m1)%nat).
    { rewrite Ebs, nonempty_app in US. cbn [m1 buckets inUse]. rewrite nonempty_app. cbn [nonempty] in *. destruct b; cbn [app] in *; lia. }
    destruct SZ as [j Hj]. destruct (Nat.leb_spec (3 * List.length (buckets m1)) (4 * inUse m1)) as [Hle|Hgt].
    + assert (B0 : b = []). { cbn [m1 inUse] in Hle. rewrite L1 in Hle. destruct b; [reflexivity|lia]. }
      assert (E1 : (4 * inUse m1 = 3 * List.length (buckets m1))%nat). { rewrite L1 in *. cbn [m1 inUse] in *. rewrite B0 in *. rewrite Hj in *. lia. }
      destruct (rehash_ok m1 bp e bq) as (m2 & E2 & L2 & P2 & Q2 & N2 & U2 & LD2); [lia|exact P1|cbn [m1 buckets]; now rewrite B0|lia|].
      exists m2. split; [exact E2|]. apply formed_of; auto.
      * exists (S j). rewrite L2, L1, Hj. cbn. lia.
      * rewrite N2. now rewrite (Permutation_length Q2).
      * lia.
    + exists m1. split; [reflexivity|]. apply formed_of; auto.
      * exists j. now rewrite L1.
      * rewrite (Permutation_length PM). cbn [m1 numElements List.length]. now rewrite NU.
Qed.
Lemma formed_remove q (m : hm) hk k : map_formed m -> map_formed (fst (map_remove q m hk k)).
Proof.
  intros F. pose proof F as [SZ PL NU US LD]. change (placed (buckets m)) in PL. rewrite used_nonempty in US. pose proof (size_pos _ SZ) as POS.
  unfold map_remove. set (i := bucket_index hk (List.length (buckets m))) in *.
  assert (Hi : (i < List.length (buckets m))%nat) by now apply bucket_index_lt.
  destruct (bucket_split (buckets m) i Hi) as (bp & bq & Ebs & Lp & Hset). pose proof (remove_elem_spec q k (nth i (buckets m) [])) as R.
  destruct (remove_elem q k (nth i (buckets m) [])) as [b'|]; [|exact F]. destruct R as (p & e & t & Eb & -> & _). rewrite Hset. set (b := nth i (buckets m) []) in *. cbn [fst].
  assert (L' : forall b', List.length (bp ++ b' :: bq) = List.length (buckets m)) by (intros; rewrite Ebs, !app_length; reflexivity).
  apply formed_of; cbn [buckets inUse numElements].
  - rewrite L'. exact SZ.
  - apply (placed_set (buckets m) bp b); [exact Ebs|exact PL|]. intros x Hx. rewrite Lp. apply (PL i b x); [now apply nth_error_nth'|]. rewrite Eb. rewrite in_app_iff in *. cbn. tauto.
  - rewrite NU, Ebs, Eb, !concat_mid, !app_length. cbn. rewrite ?app_length. cbn. lia.
  - etransitivity; [|exact US]. rewrite Ebs, !nonempty_app. cbn [nonempty]. rewrite Eb. destruct p, t; cbn; lia.
  - rewrite L'. exact LD.
Qed.
End Maps.

Lemma queue_push_formed l max x : data_formed (DQueue (queue_push l max x) max).
Proof. destruct max as [n|]; [|exact I]. cbn [data_formed queue_push]. rewrite skipn_length. lia. Qed.
Lemma formed_closed : closed data_formed.
Proof.
  constructor.
  - intros [] K; try exact I; destruct K.
  - intros enc. constructor.
  - intros t kv b enc K. now apply rebind_nodup.
  - intros [n|]; cbn; [lia|exact I].
  - intros. apply queue_push_formed.
  - intros [|x l] [n|]; cbn; auto. lia.
  - exact formed_new.
  - intros q m hk k v m' F E. destruct (formed_put q m hk k v F) as (m2 & E2 & F2). rewrite E in E2. injection E2 as <-. exact F2.
  - intros. now apply formed_remove.
Qed.

(** ** The machine *)
Definition stays (s s' : vm) : Prop := well_formed (all s) -> well_formed (all s').
Definition on {X} (m _ : M X) : Prop := forall s x s', m s = Ret (x, s') -> stays s s'.
Lemma on_bind X Y (m m' : M X) (k k' : X -> M Y) : on m m' -> (forall x, on (k x) (k' x)) -> on (bind m k) (bind m' k').
Proof. intros A B s y s' E W. apply bind_ret in E as (x & s1 & E1 & E2). eapply B; [exact E2|]. eapply A; eauto. Qed.
Lemma on_assoc X Y Z (m m' : M X) (f f' : X -> M Y) (k k' : Y -> M Z) : on (bind m (fun x => bind (f x) k)) (bind m' (fun x => bind (f' x) k')) -> on (bind (bind m f) k) (bind (bind m' f') k').
Proof. intros K s x s' E. rewrite bind_assoc in E. exact (K s x s' E). Qed.
Lemma on_state X (m m' : M X) : (forall s x s', m s = Ret (x, s') -> all s' = all s) -> on m m'.
Proof. intros K s x s' E W. now rewrite (K _ _ _ E). Qed.
Lemma on_heap X (f f' : heap -> outcome X) : on (heap_op f) (heap_op f').
Proof. apply on_state. intros s x s' E. unfold heap_op in E. destruct (f (all s)); try discriminate E. now injection E as _ <-. Qed.
Lemma on_lift X (o o' : outcome X) : on (lift o) (lift o').
Proof. apply on_state. intros s x s' E. unfold lift in E. destruct o; try discriminate E. now injection E as _ <-. Qed.
Definition formed_cell (c : cell) : Prop := data_formed (cdata c).
Lemma well_lookup h r c : well_formed h -> lookup h r = Some c -> data_formed (cdata c).
Proof.
  intros W. induction h as [|[x d] h IH]; cbn [lookup]; [discriminate|]. destruct (N.eqb x r); [intros [= <-]; apply (W x d); now left|]. apply IH. intros y e J. apply (W y e). now right.
Qed.
Lemma on_cell X r (k k' : cell -> M X) : (forall c, formed_cell c -> on (k c) (k' c)) -> on (bind (get_cell r) k) (bind (get_cell r) k').
Proof.
  intros A s y s' E W. apply bind_ret in E as (c & s1 & E1 & E2). unfold get_cell in E1. destruct (lookup (all s) r) as [c'|] eqn:L; [|discriminate]. injection E1 as <- <-.
  eapply A; [|exact E2|exact W]. exact (well_lookup _ _ _ W L).
Qed.
Lemma well_update h r c : well_formed h -> formed_cell c -> well_formed (update h r c).
Proof.
  intros W F. induction h as [|[x d] h IH]; intros y e J; cbn [update] in J; [destruct J|].
  assert (W' : well_formed h) by (intros z g K; apply (W z g); now right).
  destruct (N.eqb x r).
  - destruct J as [[= <- <-]|J]; [exact F|]. apply (W y e). now right.
  - destruct J as [[= <- <-]|J]; [apply (W x d); now left|]. exact (IH W' y e J).
Qed.
Lemma on_put_cell r c : formed_cell c -> on (put_cell r c) (put_cell r c).
Proof. intros F s x s' E W. unfold put_cell in E. destruct (lookup (all s) r); [|discriminate]. injection E as _ <-. now apply well_update. Qed.
Lemma well_mark : forall n h r h', well_formed h -> mark n h r = Ret h' -> well_formed h'.
Proof.
  induction n as [|n IH]; intros h r h' W E; cbn [mark] in E; [discriminate|]. destruct (lookup h r) as [c|] eqn:L; [|discriminate]. destruct (cmark c); [now injection E as <-|].
  destruct (children c) as [l| | | | |]; cbn [obind] in E; try discriminate.
  assert (W1 : well_formed (update h r (set_mark c true))) by (apply well_update; [exact W|exact (well_lookup _ _ _ W L)]).
  revert W1 E. generalize (update h r (set_mark c true)) as g. clear - IH. induction l as [|x l IL]; intros g W E; cbn [mark_each] in E; [now injection E as <-|].
  destruct (mark n g x) as [g'| | | | |] eqn:M; cbn [obind] in E; try discriminate. eapply IL; [|exact E]. eapply IH; eauto.
Qed.
Lemma well_gc h st h' : well_formed h -> gc h st = Ret h' -> well_formed h'.
Proof.
  intros W E. unfold gc in E. revert E. generalize (S (List.length h)) as n. intros n. destruct (mark_each (mark n) h (rev st)) as [g| | | | |] eqn:M; cbn [obind]; intros E; try discriminate. injection E as <-.
  assert (W1 : well_formed g).
  { revert h W M. induction (rev st) as [|x l IH]; intros h W M; cbn [mark_each] in M; [now injection M as <-|].
    destruct (mark n h x) as [h1| | | | |] eqn:M1; cbn [obind] in M; try discriminate. eapply IH; [|exact M]. eapply well_mark; eauto. }
  intros r c J. unfold sweep in J. apply in_map_iff in J as ([r' c'] & [= <- <-] & J). apply filter_In in J as (J & _). exact (W1 _ _ J).
Qed.
Lemma well_maybe_gc s u s' : well_formed (all s) -> maybe_gc s = Ret (u, s') -> well_formed (all s').
Proof.
  intros W E. unfold maybe_gc, do_gc in E. destruct (_ && _); [|injection E as _ <-; exact W].
  destruct (gc (all s) (stack s)) as [h| | | | |] eqn:G; try discriminate. injection E as _ <-. exact (well_gc _ _ _ W G).
Qed.
Lemma well_fresh d s r s' : data_formed d -> well_formed (all s) -> fresh d s = Ret (r, s') -> well_formed (all s').
Proof.
  intros F W E. unfold fresh in E. destruct (_ =? _)%N; [discriminate|]. injection E as _ <-. cbn [all]. intros x c J. apply in_app_or in J as [J|[[= <- <-]|[]]]; [exact (W _ _ J)|exact F].
Qed.
Lemma on_alloc d : data_formed d -> on (alloc d) (alloc d).
Proof. intros F s x s' E W. unfold alloc in E. apply bind_ret in E as (u & s1 & E1 & E2). eapply well_fresh; [exact F| |exact E2]. eapply well_maybe_gc; eauto. Qed.
Lemma on_new_error : on new_error new_error.
Proof. intros s x s' E W. unfold new_error in E. apply bind_ret in E as (u & s1 & E1 & E2). eapply (well_fresh (DErr _ 0) s1); [exact I| |exact E2]. eapply well_maybe_gc; eauto. Qed.
Lemma on_put_fresh r d : data_formed d -> on (put_fresh r d) (put_fresh r d).
Proof.
  intros F. apply on_cell. intros c FC s x s' E W. unfold put_cell in E. cbn [all with_nextAddr] in E. destruct (lookup (all s) r); [|discriminate]. injection E as _ <-. now apply well_update.
Qed.
Lemma on_annotate r : on (annotate r) (annotate r).
Proof.
  apply on_cell. intros c FC. destruct (cdata c) eqn:D; try (apply on_state; intros ? ? ? [= _ <-]; reflexivity).
  intros s0 x s0' E W. unfold put_cell in E. cbn [all with_nextAddr] in E. destruct (lookup (all s0) r); [|discriminate]. injection E as _ <-. apply well_update; [exact W|exact I].
Qed.
Lemma on_push r : on (push r) (push r).
Proof. apply on_state. intros s x s' [= _ <-]. reflexivity. Qed.
Lemma on_pop r : on (pop r) (pop r).
Proof. apply on_state. intros s x s' E. unfold pop in E. destruct (stack s); [discriminate|]. destruct (_ =? _)%N; [|discriminate]. now injection E as _ <-. Qed.
Lemma on_read X (f : vm -> X) : on (read f) (read f).
Proof. apply on_state. intros s x s' [= _ <-]. reflexivity. Qed.
Lemma on_set_fret o : on (set_fret o) (set_fret o).
Proof. apply on_state. intros s x s' [= _ <-]. reflexivity. Qed.
Lemma on_set_readably o : on (set_readably o) (set_readably o).
Proof. apply on_state. intros s x s' [= _ <-]. reflexivity. Qed.
Lemma on_set_quit o : on (set_quit o) (set_quit o).
Proof. apply on_state. intros s x s' [= _ <-]. reflexivity. Qed.
Lemma on_write_out o : on (write_out o) (write_out o).
Proof. apply on_state. intros s x s' [= _ <-]. reflexivity. Qed.
Lemma on_as_global g : on (as_global g) (as_global g).
Proof. apply on_state. intros s x s' [= _ <-]. reflexivity. Qed.
Lemma on_nofuel X (m : M X) : on nofuel m. Proof. intros s x s' E. discriminate. Qed.
Lemma on_undef X : on (@undef X) undef. Proof. intros s x s' E. discriminate. Qed.
Lemma on_abort X : on (@abort X) abort. Proof. intros s x s' E. discriminate. Qed.
Lemma on_ret X (x : X) : on (ret x) (ret x). Proof. apply on_state. intros s y s' [= _ <-]. reflexivity. Qed.
Lemma formed_mark (c : cell) d doc dv a : formed_cell c -> data_formed d -> formed_cell (mkCell d doc dv (cmark c) a).
Proof. auto. Qed.
Lemma cell_formed c : formed_cell c -> data_formed (cdata c).
Proof. auto. Qed.

Ltac inst L := first [apply (L (@on) formed_cell data_formed)|apply (L (@on) formed_cell)|apply (L (@on))]; try exact (le_n _);
  auto using formed_closed, formed_mark, cell_formed, on_assoc, on_bind, on_cell, on_ret, on_nofuel, on_undef, on_abort, on_push, on_pop, on_put_cell, on_alloc, on_new_error, on_annotate, on_put_fresh, on_heap, on_lift, on_read, on_set_fret, on_set_quit, on_write_out, on_set_readably, on_as_global.
Lemma eval_on n v e : on (eval n v e) (eval n v e). Proof. inst r_eval. Qed.
Lemma read_eval_on n i : on (read_eval n i) (read_eval n i). Proof. inst r_read_eval. Qed.
Lemma boot_on lib : (forall n d, In (n, d) lib -> data_formed d) -> on (boot lib) (boot lib). Proof. intros K. inst r_boot. Qed.
Lemma on_get r : on (get r) (get r). Proof. inst r_get. Qed.
Lemma on_func_at f a : on (func_at f a) (func_at f a). Proof. inst r_func_at. Qed.
Lemma on_env_extend e f a : on (env_extend e f a) (env_extend e f a). Proof. inst r_env_extend. Qed.
Lemma on_env_set e f a : on (env_set e f a) (env_set e f a). Proof. inst r_env_set. Qed.
Lemma on_run_body n f a e i l : on (run_body n (eval n) f a e i l) (run_body n (eval n) f a e i l). Proof. inst r_run_body. intros; apply eval_on. Qed.
Lemma on_copy n r : on (copy n r) (copy n r). Proof. inst r_copy. Qed.
Lemma on_vec_push r x : on (vec_push r x) (vec_push r x). Proof. inst r_vec_push. Qed.
Lemma on_push_all r x : on (push_all r x) (push_all r x). Proof. inst r_push_all. Qed.
Lemma on_seq_push_atom n r x : on (seq_push_atom n r x) (seq_push_atom n r x). Proof. inst r_seq_push_atom. Qed.
