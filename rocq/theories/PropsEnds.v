(** C65: reading and evaluating a text ends if the evaluations do. *)
From Coq Require Import List NArith Bool Lia String.
From Verif Require Import Base Input Heap VmProofs Env EnvProofs Reader Eval Read Boot Run Checks SafeBase SpecTrace TraceProofs SpecialForms SpecEnds EndsProofs.
Import ListNotations.
Local Open Scope string_scope.
Local Open Scope list_scope.
Local Open Scope N_scope.

Lemma sane_ids s : sane s -> ids_ok s /\ 0 < nextId s.
Proof. intro S. apply sane_inv in S. split; [exact (i_ids _ _ _ S)|]. pose proof (proj1 (i_genv _ _ _ S)). lia. Qed.

(** Reading one value always ends. *)
Theorem C65_reading_ends : forall characters s, read_value characters s <> NoFuel.
Proof. exact read_value_ends. Qed.
(** If every evaluation that the text asks for ends, and after (exit) nothing unreadable follows, then the whole ends.
    (Without the second condition this is false: C65_reading_stuck_refuted.) *)
Theorem C65_text_ends_partial : forall fuel i s, sane s ->
  (forall v g s1, asks fuel i None s v g s1 -> eval fuel v g s1 <> NoFuel /\ (quit s1 = true -> ~ is_error_at s1 v)) ->
  read_eval fuel i s <> NoFuel.
Proof. intros fuel i s S H. destruct (sane_ids s S) as (A & B). exact (text_ends fuel i s A B H). Qed.

(** The condition is met by ordinary texts. *)
Definition error_b (s : vm) (v : ref) : bool := match lookup (all s) v with Some c => is_error_data (cdata c) | None => false end.
Fixpoint check (k fuel : nat) (i : input) (last : option ref) (s : vm) : bool :=
  match k with
  | O => negb (input_good i)
  | S k' =>
      if input_good i then
        match read_value (rest i) s with
        | Ret ((Some v, l), s1) =>
            negb (quit s1 && error_b s1 v) &&
            match eval fuel v (genv s1) s1 with
            | Ret (Some x, s2) => check k' fuel (input_pops (List.length (rest i) - List.length l) i) (Some x) (next_form last x s2)
            | NoFuel => false
            | _ => true
            end
        | Ret ((None, l), s1) => negb (quit s1)
        | _ => true
        end
      else true
  end.
Lemma check_ok fuel : forall k i last s, check k fuel i last s = true -> forall v g s1, asks fuel i last s v g s1 -> eval fuel v g s1 <> NoFuel /\ (quit s1 = true -> ~ is_error_at s1 v).
Proof.
  assert (EB : forall s v, error_b s v = false -> ~ is_error_at s v) by (intros s v B (c & m & n & L & D); unfold error_b in B; rewrite L, D in B; discriminate B).
  induction k as [|k IH]; intros i last s C v g s1 A; cbn [check] in C.
  - destruct A as [i last s v l s1 GI RV|i last s v l s1 x s2 v' g' s' GI RV EV A|i last s l s1 x s2 v' g' s' GI RV Q AL A]; rewrite GI in C; discriminate C.
  - destruct A as [i last s v l s1 GI RV|i last s v l s1 x s2 v' g' s' GI RV EV A|i last s l s1 x s2 v' g' s' GI RV Q AL A]; rewrite GI, RV in C.
    + apply andb_prop in C as (B & C). split; [destruct (eval fuel v (genv s1) s1) as [([x|], s2)| | | | |]; congruence|]. intro Q. rewrite Q in B. cbn [andb] in B. apply EB. destruct (error_b s1 v); [discriminate B|reflexivity].
    + apply andb_prop in C as (B & C). rewrite EV in C. eapply IH; eauto.
    + rewrite Q in C. discriminate C.
Qed.
Example C65_nontrivial : let i := input_new (asc "(define y as {D+7} [y]) (+ y (nth {D+1} '({D+1} {D+2}))) (exit) (+ {D+1} {D+2}) 'a") in sane machine /\
  (forall v g s1, asks 60 i None machine v g s1 -> eval 60 v g s1 <> NoFuel /\ (quit s1 = true -> ~ is_error_at s1 v)) /\ check 5 60 i None machine = true /\ check 4 60 i None machine = false.
Proof.
  intro i. assert (C : check 5 60 i None machine = true) by (vm_compute; reflexivity). split; [exact machine_sane|]. split; [exact (check_ok 60 5 i None machine C)|]. split; [exact C|vm_compute; reflexivity].
Qed.

Print Assumptions C65_reading_ends.
Print Assumptions C65_text_ends_partial.
