(** Running texts on the machine octaspire_dern_vm_new makes, for the concrete
    cases beside the theorems.  In texts integers are written {D+1}, strings
    [text] (the lexer's own notation). *)
From Coq Require Import NArith ZArith Bool Lia String List.
From Verif Require Import Base Input HMap Heap ValueOps Env Copy Builtins Specials Eval Read Boot.
Import ListNotations.
Local Open Scope N_scope.

Definition unbooted (limit : N) : vm := empty_vm limit (fun n => n) (fun _ => []).
(** The machine after octaspire_dern_vm_new, collecting garbage every [limit]
    allocations from then on. *)
Definition with_limit (s : vm) (limit : N) : vm :=
  mkVm (all s) (nextId s) (nextAddr s) (stack s) (genv s) (numAlloc s) limit (preventGc s) (fret s) (quit s) (exitCode s) (readably s) (output s) (addrs s) (msgs s) (outside s).
Definition machine : vm :=
  Eval vm_compute in match boot library (unbooted 1024) with Ret (_, s) => s | _ => unbooted 0 end.
Lemma machine_is_booted : boot library (unbooted 1024) = Ret (tt, machine).
Proof. vm_compute. reflexivity. Qed.
(** What is left of a run: the contents of the value it gave. *)
Definition contents (o : outcome (option ref * vm)) : outcome (option data) :=
  obind o (fun p => Ret (match fst p with Some r => option_map cdata (lookup (all (snd p)) r) | None => None end)).
Definition run_text (s : vm) (t : string) : outcome (option ref * vm) := read_eval 100 (input_new (asc t)) s.
Definition value_of_text (t : string) : outcome (option data) := contents (run_text machine t).
(** The machine after a text. *)
Definition after_text (s : vm) (t : string) : vm :=
  match run_text s t with Ret (_, s') => s' | _ => s end.
(** Deciding that a list has no duplicates. *)
Fixpoint distinct {X} (eqb : X -> X -> bool) (l : list X) : bool :=
  match l with [] => true | x :: t => negb (existsb (eqb x) t) && distinct eqb t end.
Lemma distinct_nodup {X} (eqb : X -> X -> bool) l : (forall x, eqb x x = true) -> distinct eqb l = true -> NoDup l.
Proof.
  intros R. induction l as [|x l IH]; cbn; [constructor|]. intros H. apply andb_prop in H as [H1 H2]. constructor; [|auto].
  intros I. assert (K : existsb (eqb x) l = true) by (apply existsb_exists; eauto). rewrite K in H1. discriminate.
Qed.
