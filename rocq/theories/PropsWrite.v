(** C82-C84: what the builtins ++, --, pop-back, pop-front and += do.  See
    SpecWrite.v. *)
From Coq Require Import NArith ZArith Bool Lia Arith String List Permutation.
From Verif Require Import Base HMap Heap SpecHeap ValueOps Env Builtins Eval Read Boot Run Checks SafeBase SpecText SpecTrace SpecSpecial SpecForm SpecCall SpecDefine SpecEval SpecBuiltin SpecWrite TraceProofs SpecialForms BuiltinProofs BuiltinCases WriteProofs WriteFacts PropsBuiltin.
Import ListNotations.
Local Open Scope N_scope.
Local Open Scope string_scope.
Local Open Scope list_scope.

(** A call of the builtin with the name [name] and the arguments [xs]. *)
Definition is_call (name : string) (s : vm) (xs : list ref) (s' : vm) (r : ref) : Prop :=
  exists p n m a env, named name p /\ arguments s a env xs /\ builtin_call n (Eval.eval m) p a env s = Ret (r, s').
Lemma named_is name p q : named name p -> named name q -> p = q.
Proof.
  unfold named. generalize C76_names. generalize library. induction l as [|e l IH]; intros ND J1 J2; [contradiction|]. cbn [map] in ND. inversion ND as [|? ? NI ND']; subst.
  destruct J1 as [->|J1], J2 as [E2|J2].
  - now injection E2.
  - elim NI. apply (in_map fst) in J2. exact J2.
  - subst e. elim NI. apply (in_map fst) in J1. exact J1.
  - auto.
Qed.
Lemma call_writes name p R s xs s' r : named name p -> writer p R -> is_call name s xs s' r ->
  exists ev a evs, argued (stack s) a xs s /\ (forall x, In x xs -> x <> a) /\ trace ev (stack s) s evs s' /\ R s xs evs s' r.
Proof.
  intros N W (q & n & m & a & env & NQ & AR & E). rewrite (named_is _ _ _ NQ N) in E. destruct (W _ _ _ _ _ _ _ _ AR E) as (evs & T & RR). destruct (arguments_argued _ _ _ _ AR) as (AG & NE).
  exists (Eval.eval m), a, evs. auto.
Qed.

(** ** C82: ++ and -- *)
Theorem C82_increment : exists p, named "++" p /\ writer p (each_result incremented is_number).
Proof. exists BiIncr. split; [library_name|exact incr_writer]. Qed.
Print Assumptions C82_increment.
Theorem C82_decrement : exists p, named "--" p /\ writer p (each_result decremented removable).
Proof. exists BiDecr. split; [library_name|exact decr_writer]. Qed.
Print Assumptions C82_decrement.
Example C82_case : a_case BiIncr (fun s xs s' r => match xs with [x; y] => match ints_of s xs, ints_of s' xs with [5; -3]%Z, [6; -2]%Z => (r =? y)%N | _, _ => false end | _ => false end).
Proof. apply (arg_case _ _ "(define x as {D+5} [x]) (define y as {D-3} [y])" ["x"; "y"]). vm_compute. reflexivity. Qed.
Example C82_same_twice : a_case BiIncr (fun s xs s' r => match ints_of s xs, ints_of s' xs with [5; 5]%Z, [7; 7]%Z => true | _, _ => false end).
Proof. apply (arg_case _ _ "(define x as {D+5} [x])" ["x"; "x"]). vm_compute. reflexivity. Qed.
Example C82_decrement_case : a_case BiDecr (fun s xs s' r => match xs with [x; y] => match data_at s x, data_at s' x, ints_of s' [y] with Some (DVec [u; v; w]), Some (DVec [u'; v']), [-4]%Z => (u =? u')%N && (v =? v')%N | _, _, _ => false end | _ => false end).
Proof. apply (arg_case _ _ "(define x as '(a b c) [x]) (define y as {D-3} [y])" ["x"; "y"]). vm_compute. reflexivity. Qed.
(** The machine after (++ x) and (-- x), [x] an integer. *)
Theorem C82_plus_one : forall s x z s' r, data_at s x = Some (DInt z) -> is_call "++" s [x] s' r -> r = x /\ data_at s' x = Some (DInt (z + 1)).
Proof.
  intros s x z s' r D C. eapply (call_writes "++" BiIncr) in C as (ev & a & evs & AG & NA & T & R); [|library_name|exact incr_writer].
  destruct R as [(? & _)|[(CH & l & EL)|(l & y & t & d & EL & CH & DY & NR & CO)]].
  - discriminate.
  - assert (r = x) by (destruct l as [|? [|]]; injection EL; congruence). subst r. split; [reflexivity|].
    inversion CH as [|x_ l_ d d' s1 s2 evs' D1 ST CH']; subst. inversion CH'; subst.
    assert (D2 : data_at s1 x = Some (DInt z)). { inversion T as [|? ? ? ? K H T']; subst. eapply argued_data; [exact AG|exact K|now left|exact D|easy]. }
    rewrite D1 in D2. injection D2 as ->. inversion ST; subst.
    eapply (one_put _ _ _ _ _ x _ s1 s2 s' AG NA) in T; [exact (proj1 T)|now left|easy].
  - destruct l as [|? [|]]; [|discriminate|discriminate]. injection EL as <- <-. inversion CH; subst. cbn in DY. rewrite D in DY. injection DY as <-. elim NR. left. exact I.
Qed.
Print Assumptions C82_plus_one.
Theorem C82_minus_one : forall s x z s' r, data_at s x = Some (DInt z) -> is_call "--" s [x] s' r -> r = x /\ data_at s' x = Some (DInt (z - 1)).
Proof.
  intros s x z s' r D C. eapply (call_writes "--" BiDecr) in C as (ev & a & evs & AG & NA & T & R); [|library_name|exact decr_writer].
  destruct R as [(? & _)|[(CH & l & EL)|(l & y & t & d & EL & CH & DY & NR & CO)]].
  - discriminate.
  - assert (r = x) by (destruct l as [|? [|]]; injection EL; congruence). subst r. split; [reflexivity|].
    inversion CH as [|x_ l_ d d' s1 s2 evs' D1 ST CH']; subst. inversion CH'; subst.
    assert (D2 : data_at s1 x = Some (DInt z)). { inversion T as [|? ? ? ? K H T']; subst. eapply argued_data; [exact AG|exact K|now left|exact D|easy]. }
    rewrite D1 in D2. injection D2 as ->. inversion ST; subst.
    eapply (one_put _ _ _ _ _ x _ s1 s2 s' AG NA) in T; [exact (proj1 T)|now left|easy].
  - destruct l as [|? [|]]; [|discriminate|discriminate]. injection EL as <- <-. inversion CH; subst. cbn in DY. rewrite D in DY. injection DY as <-. elim NR. exact I.
Qed.
Print Assumptions C82_minus_one.

(** ** C83: pop-back and pop-front *)
Theorem C83_pop_back_partial : exists p, named "pop-back" p /\ writer p (pop_result popped_back can_pop_back).
Proof. exists BiPopBack. split; [library_name|exact pop_back_writer]. Qed.
Print Assumptions C83_pop_back_partial.
Theorem C83_pop_front_partial : exists p, named "pop-front" p /\ writer p (pop_result popped_front can_pop_front).
Proof. exists BiPopFront. split; [library_name|exact pop_front_writer]. Qed.
Print Assumptions C83_pop_front_partial.
Example C83_case : a_case BiPopFront (fun s xs s' r => match xs with [x] => match data_at s x, data_at s' x with Some (DVec [u; v; w]), Some (DVec [u'; v']) => (v =? u')%N && (w =? v')%N && (r =? x)%N | _, _ => false end | _ => false end).
Proof. apply (arg_case _ _ "(define x as '(a b c) [x])" ["x"]). vm_compute. reflexivity. Qed.
Example C83_back_case : a_case BiPopBack (fun s xs s' r => match xs with [x] => match data_at s x, data_at s' x with Some (DStr [97; 98]%N), Some (DStr [97]%N) => (r =? x)%N | _, _ => false end | _ => false end).
Proof. apply (arg_case _ _ "(define x as [ab] [x])" ["x"]). vm_compute. reflexivity. Qed.
Example C83_version_case : a_case BiPopBack (fun s xs s' r => match xs with [x] => match data_at s x, data_at s' x with Some (DSemver (Semver.mkSemver 1 2 3 [] [])), Some (DSemver (Semver.mkSemver 1 2 3 [] [])) => (r =? x)%N | _, _ => false end | _ => false end).
Proof. apply (arg_case _ _ "(define x as 1.2.3 [x])" ["x"]). vm_compute. reflexivity. Qed.
(** What pop leaves: all but one element. *)
Lemma pop_end name p (step : data -> data -> Prop) ready s x d s' r : named name p -> writer p (pop_result step ready) -> ready d -> ~ is_err d -> (forall d d', step d d' -> ~ is_err d') ->
  data_at s x = Some d -> is_call name s [x] s' r -> exists d', r = x /\ step d d' /\ data_at s' x = Some d'.
Proof.
  intros N W RD NE KE D C. eapply call_writes in C as (ev & a & evs & AG & NA & T & R); [|exact N|exact W]. destruct R as [(y & e & e' & s1 & s2 & EX & DE & RE & ST & -> & ER)|[(_ & y & e & EX & DE & EE & _)|(_ & _ & F)]].
  - injection EX as <-. rewrite D in DE. injection DE as <-. exists e'. split; [exact ER|]. split; [exact ST|]. eapply (one_put _ _ _ _ _ x _ s1 s2 s' AG NA) in T; [exact (proj1 T)|now left|eapply KE; eauto].
  - injection EX as <-. rewrite D in DE. injection DE as <-. contradiction.
  - destruct (F x d eq_refl D) as (NR & _). contradiction.
Qed.
Theorem C83_back_of_vector : forall s x l y s' r, data_at s x = Some (DVec (l ++ [y])) -> is_call "pop-back" s [x] s' r -> r = x /\ data_at s' x = Some (DVec l).
Proof.
  intros s x l y s' r D C. eapply (pop_end "pop-back" BiPopBack popped_back can_pop_back s x (DVec (l ++ [y]))) in C as (d' & -> & ST & D'); [|library_name|exact pop_back_writer|exact I|easy|intros d d' []; easy|exact D].
  split; [reflexivity|]. rewrite D'. inversion ST as [| | | |q z EQ|EQ| | | | |]; subst; [apply app_inj_tail in EQ as (-> & _); reflexivity|destruct l; discriminate].
Qed.
Print Assumptions C83_back_of_vector.
Theorem C83_front_of_vector : forall s x l y s' r, data_at s x = Some (DVec (y :: l)) -> is_call "pop-front" s [x] s' r -> r = x /\ data_at s' x = Some (DVec l).
Proof.
  intros s x l y s' r D C. eapply (pop_end "pop-front" BiPopFront popped_front can_pop_front s x (DVec (y :: l))) in C as (d' & -> & ST & D'); [|library_name|exact pop_front_writer|exact I|easy|intros d d' []; easy|exact D].
  split; [reflexivity|]. rewrite D'. inversion ST; subst. reflexivity.
Qed.
Print Assumptions C83_front_of_vector.

(** ** C84: += *)
Theorem C84_plus_equals_partial : exists p, named "+=" p /\ writer p plus_eq_result.
Proof. exists BiPlusEq. split; [library_name|exact plus_eq_writer]. Qed.
Print Assumptions C84_plus_equals_partial.
(** A vector has the values themselves at its end. *)
Theorem C84_vector : forall s x t l s' r, data_at s x = Some (DVec l) -> is_call "+=" s (x :: t) s' r -> r = x /\ data_at s' x = Some (DVec (l ++ t)).
Proof.
  intros s x t l s' r D C. eapply (call_writes "+=" BiPlusEq) in C as (ev & a & evs & AG & NA & T & R); [|library_name|exact plus_eq_writer]. destruct R as (d & D' & R).
  rewrite D in D'. injection D' as <-. destruct R as (SH & ->). split; [reflexivity|]. apply shares_steps in SH.
  refine (steps_end ev (stack s) a (x :: t) x _ (fun d t => match d with DVec l => DVec (l ++ t) | d => d end) NA (or_introl eq_refl) _ _ _ t evs s s' (DVec l) AG T SH D _).
  - intros []; try reflexivity. now rewrite app_nil_r.
  - intros d1 y t1 d' (l1 & -> & ->) _. now rewrite <- app_assoc.
  - intros d1 y d' (l1 & -> & ->) _. easy.
  - easy.
Qed.
Print Assumptions C84_vector.
(** Integers. *)
Theorem C84_integers : forall s x t z zs s' r, data_at s x = Some (DInt z) -> Forall2 (fun y i => data_at s y = Some (DInt i)) t zs -> ~ In x t -> is_call "+=" s (x :: t) s' r ->
  r = x /\ data_at s' x = Some (DInt (fold_left Z.add zs z)).
Proof.
  intros s x t z zs s' r D F NX C. eapply (call_writes "+=" BiPlusEq) in C as (ev & a & evs & AG & NA & T & R); [|library_name|exact plus_eq_writer]. destruct R as (d & D' & R).
  rewrite D in D'. injection D' as <-. destruct R as (AD & ->). split; [reflexivity|].
  destruct (added_end ev (stack s) a (x :: t) x sum skip (fun e => exists i, e = DInt i) NA (or_introl eq_refl)) with (t := t) (evs := evs) (s0 := s) (s := s) (s' := s') (d := DInt z) (es := map DInt zs) as (d' & E & RU); auto.
  - intros e (i & ->). split; [easy|]. split; [easy|]. exists (DReal (of_int 0)). eexists. apply sum_real_int.
  - intros d e d' []; easy.
  - intros y J. now right.
  - clear - F. induction F as [|y i t zs H F IH]; constructor; eauto.
  - rewrite E. clear - RU. revert z RU. induction zs as [|i zs IH]; intros z RU; inversion RU as [|d e d1 es d2 S RU']; subst; [reflexivity|]. cbn [fold_left]. inversion S; subst. now apply IH.
Qed.
Print Assumptions C84_integers.
(** Strings. *)
Theorem C84_strings : forall s x t u us s' r, data_at s x = Some (DStr u) -> Forall2 (fun y w => data_at s y = Some (DStr w)) t us -> ~ In x t -> is_call "+=" s (x :: t) s' r ->
  r = x /\ data_at s' x = Some (DStr (u ++ List.concat us)).
Proof.
  intros s x t u us s' r D F NX C. eapply (call_writes "+=" BiPlusEq) in C as (ev & a & evs & AG & NA & T & R); [|library_name|exact plus_eq_writer]. destruct R as (d & D' & R).
  rewrite D in D'. injection D' as <-. destruct R as (AD & ->). split; [reflexivity|].
  destruct (added_end ev (stack s) a (x :: t) x joined prints (fun e => exists i, e = DStr i) NA (or_introl eq_refl)) with (t := t) (evs := evs) (s0 := s) (s := s) (s' := s') (d := DStr u) (es := map DStr us) as (d' & E & RU); auto.
  - intros e (i & ->). split; [easy|]. split; [easy|]. exists (DStr []). eexists. apply join_string.
  - intros s1 y e d d' (i & ->) EY (t0 & e0 & u0 & _ & E0 & NT & _). rewrite EY in E0. injection E0 as <-. now apply NT.
  - intros d e d' []; easy.
  - intros y J. now right.
  - clear - F. induction F as [|y i t us H F IH]; constructor; eauto.
  - rewrite E. clear - RU. revert u RU. induction us as [|i us IH]; intros u RU; inversion RU as [|d e d1 es d2 S RU']; subst; [cbn; now rewrite app_nil_r|]. cbn [List.concat]. inversion S; subst. rewrite app_assoc. now apply IH.
Qed.
Print Assumptions C84_strings.
Example C84_case : a_case BiPlusEq (fun s xs s' r => match xs with x :: _ => match ints_of s xs, ints_of s' [x] with [5; -3; 9]%Z, [11]%Z => (r =? x)%N | _, _ => false end | _ => false end).
Proof. apply (arg_case _ _ "(define x as {D+5} [x]) (define y as {D-3} [y]) (define z as {D+9} [z])" ["x"; "y"; "z"]). vm_compute. reflexivity. Qed.
Example C84_nested_case : a_case BiPlusEq (fun s xs s' r => match ints_of s' xs with [15]%Z => true | _ => false end).
Proof. apply (arg_case _ _ "(define x as {D+5} [x]) (define v as '({D+1} {D+2} ({D+3} {D+4}) skipped) [v])" ["x"; "v"]). vm_compute. reflexivity. Qed.
Example C84_queue_case : a_case BiPlusEq (fun s xs s' r => match data_at s' r with Some (DQueue l (Some 2)) => match ints_of s' l with [8; 9]%Z => true | _ => false end | _ => false end).
Proof. apply (arg_case _ _ "(define n as {D+2} [n]) (define a as {D+7} [n]) (define q as (queue-with-max-length n a) [q]) (define b as {D+8} [n]) (define c as {D+9} [n])" ["q"; "b"; "c"]). vm_compute. reflexivity. Qed.
Example C84_map_case : a_case BiPlusEq (fun s xs s' r => match data_at s' r with Some (DMap m) => Nat.eqb (numElements m) 2 | _ => false end).
Proof. apply (arg_case _ _ "(define a as {D+7} [n]) (define b as {D+8} [n]) (define m as (hash-map a b) [m])" ["m"; "b"; "a"]). vm_compute. reflexivity. Qed.
Example C84_numeric_text_case : a_case BiPlusEq (fun s xs s' r => match xs with x :: _ => match ints_of s' [x] with [-7]%Z => (r =? x)%N | _ => false end | _ => false end).
Proof. apply (arg_case _ _ "(define x as {D+5} [x]) (define y as [-12] [y]) (define z as [5x] [z])" ["x"; "y"; "z"]). vm_compute. reflexivity. Qed.
Example C84_character_case : a_case BiPlusEq (fun s xs s' r => match data_at s' r with Some (DChar [100]%N) => true | _ => false end).
Proof. apply (arg_case _ _ "(define x as |a| [x]) (define y as {D+3} [y])" ["x"; "y"]). vm_compute. reflexivity. Qed.
Example C84_characters_case : a_case BiPlusEq (fun s xs s' r => match data_at s' r with Some (DStr [97; 98; 99; 123; 68; 43; 51; 125]%N) => true | _ => false end).
Proof. apply (arg_case _ _ "(define x as |a| [x]) (define y as |b| [y]) (define z as [c] [z]) (define w as {D+3} [w])" ["x"; "y"; "z"; "w"]). vm_compute. reflexivity. Qed.
Example C84_version_case : a_case BiPlusEq (fun s xs s' r => match data_at s' r with Some (DSemver (Semver.mkSemver 1 4 0 [] [])) => true | _ => false end).
Proof. apply (arg_case _ _ "(define x as 1.2.3 [x]) (define y as 0.2.0 [y])" ["x"; "y"]). vm_compute. reflexivity. Qed.
