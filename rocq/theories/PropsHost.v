(** C126: a host cannot observe when garbage is collected. *)
From Coq Require Import NArith ZArith Bool Lia String List.
From Verif Require Import Base Input HMap Heap SpecHeap ValueOps Env ToText Builtins Specials Eval Read Boot Run Relate SchedProofs SpecSched Repl Embed SpecHost HostProofs PropsSched.
Import ListNotations.
Local Open Scope string_scope.
Local Open Scope list_scope.
Local Open Scope N_scope.

(** ** C126 *)
(** Against a machine that never collects garbage and a host that does not ask
    about it: whatever the schedule, and whatever a host asks of the collector in
    between, a session that ends has the answers, and leaves the machine, of the
    other one; and its undefined behaviours are those of the other one.  (A session
    may use a freed value, C120, or abort while it collects.) *)
Theorem C126_as_without_collection : forall lib limit addresses messages out fuel l,
  match host_session lib limit addresses messages out fuel l with
  | Ret (answers, s) => exists s', host_session lib None addresses messages out fuel (essential l) = Ret (answers, s') /\ agree s s' /\
                                   (forall r c, lookup (all s) r = Some c -> lookup (all s') r = Some c)
  | Undef => host_session lib None addresses messages out fuel (essential l) = Undef
  | Unbalanced => host_session lib None addresses messages out fuel (essential l) = Unbalanced
  | Abort | Dangling | NoFuel => True
  end.
Proof.
  assert (Z : forall lib limit addresses messages out n m l, (n <= m)%nat -> follows (host_session lib limit addresses messages out n l) (host_session lib None addresses messages out m (essential l))).
  { intros lib limit addresses messages out n m l LE. unfold host_session. pose proof (boot_sim lib _ _ (start_like limit addresses messages)) as B.
    destruct (boot lib (new_machine limit addresses messages)) as [[u s]| | | | |]; cbn [follows obind fst snd] in B |- *; try exact I; try (now rewrite B). destruct B as (s' & -> & K). cbn [obind snd]. apply ask_follows; [exact LE|now apply like_outside]. }
  assert (EE : forall l, essential (essential l) = essential l).
  { induction l as [|[f q] l IH]; [reflexivity|]. unfold essential in *. cbn [filter snd]. destruct (about_collection q) eqn:A; cbn [negb]; [exact IH|]. cbn [filter snd]. rewrite A. cbn [negb]. now rewrite IH. }
  intros lib limit addresses messages out fuel l. pose proof (Z lib limit addresses messages out fuel fuel l (le_n _)) as F.
  destruct (host_session lib limit addresses messages out fuel l) as [[a s]| | | | |]; cbn [follows] in F; try exact I; try exact F. destruct F as (s' & E & K). exists s'. split; [exact E|]. split; [|apply K].
  pose proof (Z lib None addresses messages out fuel fuel (essential l) (le_n _)) as G. rewrite EE, E in G. destruct G as (t & [= <-] & K'). exact (agree_like s s' s' K K').
Qed.
Print Assumptions C126_as_without_collection.

(** Two hosts that ask the same, but for what they ask of the collector, of two
    machines that collect garbage at different times: if both sessions end, the
    answers are the same (those of Look with the contents of values, of evaluations
    with the values, ...), and so are the machines left. *)
Theorem C126_collection_unobservable : forall lib limit limit' addresses messages out fuel fuel' l l' answers s answers' s',
  essential l = essential l' ->
  host_session lib limit addresses messages out fuel l = Ret (answers, s) ->
  host_session lib limit' addresses messages out fuel' l' = Ret (answers', s') ->
  answers = answers' /\ agree s s'.
Proof.
  assert (Z : forall lib limit addresses messages out n m l, (n <= m)%nat -> follows (host_session lib limit addresses messages out n l) (host_session lib None addresses messages out m (essential l))).
  { intros lib limit addresses messages out n m l LE. unfold host_session. pose proof (boot_sim lib _ _ (start_like limit addresses messages)) as B.
    destruct (boot lib (new_machine limit addresses messages)) as [[u s]| | | | |]; cbn [follows obind fst snd] in B |- *; try exact I; try (now rewrite B). destruct B as (s' & -> & K). cbn [obind snd]. apply ask_follows; [exact LE|now apply like_outside]. }
  intros lib limit limit' addresses messages out fuel fuel' l l' an s an' s' EL E E'.
  pose proof (Z lib limit addresses messages out fuel (max fuel fuel') l ltac:(lia)) as F. rewrite E in F. destruct F as (t & F & K).
  pose proof (Z lib limit' addresses messages out fuel' (max fuel fuel') l' ltac:(lia)) as F'. rewrite E' in F'. destruct F' as (t' & F' & K').
  rewrite EL, F' in F. injection F as -> ->. split; [reflexivity|]. exact (agree_like s s' t K K').
Qed.
Print Assumptions C126_collection_unobservable.

(** A host that decides from the answers it has been given asks the same, and is
    answered the same, whenever garbage is collected. *)
Theorem C126_conversation : forall lib limit limit' addresses messages out fuel fuel' k h answers s answers' s',
  conversation lib limit addresses messages out fuel k h = Ret (answers, s) ->
  conversation lib limit' addresses messages out fuel' k h = Ret (answers', s') ->
  answers = answers' /\ agree s s'.
Proof.
  intros lib limit limit' addresses messages out fuel fuel' k h an s an' s' E E'. unfold conversation in E, E'.
  pose proof (boot_sim lib _ _ (start_like limit addresses messages)) as B. pose proof (boot_sim lib _ _ (start_like limit' addresses messages)) as B'.
  destruct (boot lib (new_machine limit addresses messages)) as [[u a]| | | | |]; cbn [obind snd] in E; try discriminate E. destruct (boot lib (new_machine limit' addresses messages)) as [[u' b]| | | | |]; cbn [obind snd] in E'; try discriminate E'.
  destruct B as (t & F & K). destruct B' as (t' & F' & K'). rewrite F in F'. injection F' as _ <-. clear F.
  apply (like_outside _ _ out) in K, K'. revert K K' E E'. generalize (with_outside a out) (with_outside b out) (with_outside t out). clear. intros a b t K K' E E'.
  revert a b t K K' E E'. generalize (@nil answer) as past. induction k as [|k IH]; intros past a b t K K' E E'; cbn [converse] in E, E'.
  - injection E as <- <-. injection E' as <- <-. split; [reflexivity|]. exact (agree_like _ _ _ K K').
  - destruct (h past) as [[files q]|]; [|injection E as <- <-; injection E' as <- <-; split; [reflexivity|]; exact (agree_like _ _ _ K K')].
    destruct (perform fuel files q a) as [[x a1]| | | | |] eqn:P; cbn [obind fst snd] in E; try discriminate E. destruct (perform fuel' files q b) as [[x' b1]| | | | |] eqn:P'; cbn [obind fst snd] in E'; try discriminate E'.
    destruct (about_collection q) eqn:A.
    + pose proof (about_like fuel files q a t A K) as L. rewrite P in L. pose proof (about_like fuel' files q b t A K') as L'. rewrite P' in L'.
      assert (x = Done /\ x' = Done) as (-> & ->).
      { destruct q; try discriminate A; cbn [perform] in P, P'; unfold done, do_gc, bind in P, P'.
        - destruct (gc (all a) (stack a)); try discriminate P. destruct (gc (all b) (stack b)); try discriminate P'. unfold ret in P, P'; cbn [obind fst snd] in P, P'. injection P as <- _. injection P' as <- _. auto.
        - unfold set_prevent in P, P'. cbn [obind fst snd] in P, P'. unfold ret in P, P'. injection P as <- _. injection P' as <- _. auto.
        - unfold set_limit in P, P'. cbn [obind fst snd] in P, P'. unfold ret in P, P'. injection P as <- _. injection P' as <- _. auto. }
      exact (IH _ _ _ _ L L' E E').
    + pose proof (sim_perform fuel (max fuel fuel') ltac:(lia) files q A a t K) as S. rewrite P in S. destruct S as (t1 & S & L).
      pose proof (sim_perform fuel' (max fuel fuel') ltac:(lia) files q A b t K') as S'. rewrite P' in S'. destruct S' as (t1' & S' & L'). rewrite S in S'. injection S' as <- <-.
      exact (IH _ _ _ _ L L' E E').
Qed.
Print Assumptions C126_conversation.

(** A host that makes a string, keeps it on the stack, evaluates texts, looks at
    what it has made and asks how long the stack is; one of the two collects
    garbage at every second allocation and also asks for it, the other one prevents it. *)
Definition host_few : list (string * data) := [("vector", DBuiltin BiVector); ("+=", DBuiltin BiPlusEq); ("define", DSpecial SpDefine)].
Definition plainly (q : request) : (octets -> option octets) * request := (fun _ => None, q).
Definition first_string : ref := Eval vm_compute in
  match host_session host_few None (fun n => n) (fun _ => []) nothing_outside 20 [plainly (New (String (asc "b")))] with Ret ([Value (Some r)], _) => r | _ => 0 end.
Definition host_one : asked := map plainly [New (String (asc "b")); Push first_string; EvaluateString (asc "(define v as (vector {D+1}) [v]) (vector {D+1}) (+= v [a])"); Collect; Look first_string; Pop first_string; StackLength; EvaluateString (asc "(vector) v")].
Definition host_other : asked := map plainly [PreventCollection true; New (String (asc "b")); Push first_string; EvaluateString (asc "(define v as (vector {D+1}) [v]) (vector {D+1}) (+= v [a])"); Look first_string; CollectEvery 7; Pop first_string; StackLength; EvaluateString (asc "(vector) v")].
Definition looked (o : outcome (list answer * vm)) : option (list answer * nat) :=
  match o with Ret (a, s) => Some (a, List.length (all s)) | _ => None end.
Example C126_sessions : essential host_one = essential host_other /\
  exists r v n n', looked (host_session host_few (Some 2) (fun n => n) (fun _ => []) nothing_outside 20 host_one) = Some ([Value (Some first_string); Done; r; Contents (DStr (asc "b")); Done; Number 1; v], n) /\
    looked (host_session host_few (Some 50) (fun n => n) (fun _ => []) nothing_outside 20 host_other) = Some ([Value (Some first_string); Done; r; Contents (DStr (asc "b")); Done; Number 1; v], n') /\ (n < n')%nat.
Proof.
  split; [reflexivity|]. do 4 eexists. split; [vm_compute; reflexivity|]. split; [vm_compute; reflexivity|]. apply Nat.ltb_lt. vm_compute. reflexivity.
Qed.
(** A host that looks at the last value it was given and then evaluates. *)
Definition curious : host := fun past =>
  match past with
  | [] => Some (plainly (EvaluateString (asc "(vector {D+1})")))
  | Value (Some r) :: _ => Some (plainly (Look r))
  | Contents (DVec (x :: _)) :: _ => Some (plainly (Look x))
  | Contents (DInt _) :: _ => Some (plainly (EvaluateString (asc "(vector)")))
  | _ => None
  end.
Example C126_curious : exists a b n n', looked (conversation host_few (Some 1) (fun n => n) (fun _ => []) nothing_outside 20 10 curious) = Some (a, n) /\
  looked (conversation host_few None (fun n => n) (fun _ => []) nothing_outside 20 10 curious) = Some (b, n') /\ nth_error a 2 = Some (Contents (DInt 1)) /\ a = b /\ (n < n')%nat.
Proof. do 4 eexists. split; [vm_compute; reflexivity|]. split; [vm_compute; reflexivity|]. split; [reflexivity|]. split; [reflexivity|]. apply Nat.ltb_lt. vm_compute. reflexivity. Qed.
