(** C46 (when the value of a return does survive) and C61 (when a literal does stay constant). *)
From Coq Require Import NArith ZArith Bool Lia Arith String List.
From Verif Require Import Base Input HMap Heap SpecHeap GcProofs VmProofs ValueOps Env Builtins Eval Read Boot Run Checks SafeBase SafeSpecials SafeEval SafeRun SpecTrace SpecSpecial SpecForm SpecCall SpecKept TraceProofs SpecialEval SpecialForms CallProofs CallForms PropsCall KeptProofs.
Import ListNotations.
Local Open Scope string_scope.
Local Open Scope list_scope.
Local Open Scope N_scope.

(** ** C46 *)

(** A collection keeps the value that a (return ...) has made pending exactly if it
    is reachable from the stack (by which the collector finds what is in use), and
    then unchanged. *)
Theorem C46_collection_partial : forall s y s', sane s -> fret s = Some y -> do_gc s = Ret (tt, s') ->
  fret s' = Some y /\ (exists_in s' y <-> reachable (all s) (stack s) y) /\
  (reachable (all s) (stack s) y -> lookup (all s') y = lookup (all s) y).
Proof.
  intros s y s' S F E. unfold do_gc in E. destruct (gc (all s) (stack s)) as [h| | | | |] eqn:G; try discriminate. cbn [obind] in E. injection E as <-.
  destruct (gc_spec _ _ _ (sane_tidy _ S) G) as (_ & K & N & B). split; [exact F|]. split; [|intros R; destruct (K y R) as (c & A1 & A2); cbn; congruence].
  unfold exists_in. cbn. split.
  - intros H. destruct (lookup h y) as [c|] eqn:L; [now destruct (B y c L)|now elim H].
  - intros R. destruct (K y R) as (c & A1 & A2). rewrite A2. discriminate.
Qed.
(** If there was no collection during an evaluation, the pending value exists at its end
    (unless it had ceased to exist before). *)
Theorem C46_without_collection_partial : forall fuel v env s o s' y, sane s -> v < nextId s -> env < nextId s ->
  eval fuel v env s = Ret (o, s') -> uncollected s s' -> fret s' = Some y ->
  exists_in s' y \/ (y < nextId s /\ ~ exists_in s y).
Proof.
  intros fuel v env s o s' y S LV LE E U F. destruct (eval_kept _ _ _ _ _ _ E) as (A & B & C). unfold uncollected, made in U. destruct C as (C1 & C2); [lia|].
  assert (LY : y < nextId s').
  { apply sane_inv in S. pose proof (eval_safe true fuel [] s v env S) as W. unfold SafeBase.wp in W. rewrite E in W.
    specialize (W ltac:(repeat split; [exact LV|easy|discriminate]) ltac:(repeat split; [exact LE|easy|discriminate]) ltac:(discriminate)).
    pose proof (i_fret _ _ _ (a_inv _ _ _ _ _ _ _ W)) as I. rewrite F in I. apply I. }
  destruct (N.lt_ge_cases y (nextId s)); [|left; apply C2; lia].
  destruct (lookup (all s) y) as [c|] eqn:L; [left; apply C1; unfold exists_in; rewrite L; discriminate|right]. split; [assumption|]. unfold exists_in. now rewrite L.
Qed.
(** If the value of the form of the body that runs the return is the returned value
    itself - as for (return x), (if c (return x)), (do ... (return x)) - the call gives
    this value with its contents, whenever collections take place. *)
Theorem C46_value_of_form_partial : forall fuel env v s x f s2 o s' g, calls_form fuel env v s x f s2 o s' -> data_at s2 f = Some (DFun g) ->
  exists evs oo, trace (Eval.eval fuel) (env :: v :: stack s) s (SpecTrace.Eval x env (inside v env s) (Some f) s2 :: evs) s' /\
    function_run env v f s2 evs oo /\
    forall ext formals a b c evs1 e evs2 z r d, evs = evs1 ++ Extend ext formals a b None c :: evs2 -> In e evs2 ->
      gives e z ext r d -> ~ is_err d -> pending e = Some r -> o = Some r /\ data_at s' r = Some d /\ fret s' = None.
Proof.
  intros fuel env v s x f s2 o s' g C D. destruct (C54_return_ends_partial _ _ _ _ _ _ _ _ _ _ C D) as (evs & oo & T & R & K). exists evs, oo. split; [exact T|]. split; [exact R|].
  intros ext formals a b c evs1 e evs2 z r d EE J G NE P. destruct (K _ _ _ _ _ _ _ _ _ _ _ _ EE J G NE P) as (_ & EO & RI & F). split; [exact EO|]. split; [|exact F].
  destruct G as (t1 & t2 & -> & G). cbn [after] in RI. rewrite G in RI. destruct RI as (d' & A & [->|(B & _)]); [exact A|contradiction].
Qed.
(** The forms named above do have the returned value as their value, and a collection may come at any time. *)
Definition gives_pending (pre t : string) : bool :=
  let s0 := with_limit (after_text machine pre) 1 in
  match read_value (asc t) s0 with
  | Ret ((Some v, _), s) => match eval 50 v (genv s) s with Ret (Some r, s') => match fret s' with Some y => (y =? r) && match data_at s' r with Some (DVec l) => Nat.eqb (List.length l) 2 | _ => false end | None => false end | _ => false end
  | _ => false
  end.
Example C46_forms : forallb (gives_pending "(define y as true [y])")
  ["(return (vector {D+1} {D+2}))"; "(if y (return (vector {D+1} {D+2})))"; "(do (vector {D+3}) (return (vector {D+1} {D+2})))"; "(or y (return (vector y y)))"] = false /\
  forallb (gives_pending "(define y as true [y])") ["(return (vector {D+1} {D+2}))"; "(if y (return (vector {D+1} {D+2})))"; "(do (vector {D+3}) (return (vector {D+1} {D+2})))"] = true.
Proof. split; vm_compute; reflexivity. Qed.
Example C46_call : a_call (fun s f s2 o s' => fun_at s2 f && match o with Some r => match data_at s' r with Some (DVec l) => Nat.eqb (List.length l) 2 | _ => false end | None => false end)%bool.
Proof. apply (call_case _ "(define f as (fn (x) (if (== x {D+1}) (return (vector {D+1} {D+2}))) (exit) {D+9}) [f] '(x [x]) howto-ok)" "(f {D+1})"). vm_compute. reflexivity. Qed.
(** A return deep in an expression, without a collection: the value exists (numbers: the pending one and the next). *)
Definition uncollected_case (t : string) : bool :=
  match read_value (asc t) machine with
  | Ret ((Some v, _), s) => (v <? nextId s) && (genv s <? nextId s) && match eval 50 v (genv s) s with Ret (_, s') => (numAlloc s' =? numAlloc s + (nextId s' - nextId s)) && match fret s' with Some y => nextId s <=? y | None => false end | _ => false end
  | _ => false
  end.
Example C46_uncollected_case : uncollected_case "(+ (len (return (vector {D+1}))) (len (vector {D+3} {D+4})))" = true.
Proof. vm_compute. reflexivity. Qed.

(** A collection right after the return: kept if a variable holds the value, freed otherwise. *)
Definition collected_case (t : string) : option bool :=
  match read_value (asc t) (after_text machine "(define y as (vector {D+1}) [y])") with
  | Ret ((Some v, _), s) => match eval 50 v (genv s) s with Ret (_, s') => match do_gc s', fret s' with Ret (_, s2), Some y => Some (match lookup (all s2) y with Some _ => true | None => false end) | _, _ => None end | _ => None end
  | _ => None
  end.
Example C46_collected : collected_case "(len (return y))" = Some true /\ collected_case "(len (return (vector {D+1})))" = Some false.
Proof. vm_compute. auto. Qed.

(** ** C61 *)

(** Evaluating a literal gives the value that was read, as it is now, and does nothing else:
    so it gives equal values each time until some function that changes values is given it. *)
Definition literal (d : data) : Prop := match d with DNil | DBool _ | DInt _ | DReal _ | DStr _ | DChar _ | DSemver _ => True | _ => False end.
Theorem C61_literal_is_itself_partial : forall fuel v env s d b enc, quit s = false -> data_at s env = Some (DEnv b enc) ->
  data_at s v = Some d -> literal d -> eval (S (S fuel)) v env s = Ret (Some v, s).
Proof.
  intros fuel v env s d b enc Q DE DV L. destruct s as [al ni na st ge nm gl pg fr qt ex rd ou ad ms]. unfold data_at in *. cbn [all] in *. cbn [quit] in Q. subst qt.
  destruct (lookup al env) as [ce|] eqn:LE; [|discriminate]. destruct (lookup al v) as [cv|] eqn:LV; [|discriminate]. injection DE as DE. injection DV as DV.
  cbn [eval eval_loop]. unfold eval_impl.
  cbv [bind obind read get get_cell push ret quit all with_stack stack fst snd] in *. rewrite LE, DE, LV, DV.
  destruct d; try contradiction; cbv [bind obind pops iterM pop ret stack with_stack all nextId nextAddr genv numAlloc gcLimit preventGc fret quit exitCode readably output addrs msgs fst snd negb]; repeat (rewrite N.eqb_refl); reflexivity.
Qed.
Example C61_a_literal : match read_value (asc "[abc]") machine with
  | Ret ((Some v, _), s) => quit s = false /\ data_at s v = Some (DStr (asc "abc")) /\ match data_at s (genv s) with Some (DEnv _ _) => True | _ => False end
  | _ => False end.
Proof. vm_compute. auto. Qed.

Print Assumptions C46_collection_partial.
Print Assumptions C46_without_collection_partial.
Print Assumptions C46_value_of_form_partial.
Print Assumptions C61_literal_is_itself_partial.
