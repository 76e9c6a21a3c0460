(** What a host asks of a machine, for the claim that the host cannot observe when
    garbage is collected. *)
From Coq Require Import NArith ZArith Bool Lia String List.
From Verif Require Import Base HMap Heap ValueOps Eval Boot Repl Embed SpecSched.
Import ListNotations.
Local Open Scope N_scope.

(** The requests that only concern the collector. *)
Definition about_collection (q : request) : bool :=
  match q with Collect | PreventCollection _ | CollectEvery _ => true | _ => false end.
(** The requests of a host, each with the files that exist when it is made. *)
Definition asked := list ((octets -> option octets) * request).
(** Without those about the collector. *)
Definition essential (l : asked) : asked := filter (fun p => negb (about_collection (snd p))) l.
(** Making the requests; the answers to the essential ones, in order. *)
Fixpoint ask (fuel : nat) (l : asked) (s : vm) : outcome (list answer * vm) :=
  match l with
  | [] => Ret ([], s)
  | (files, q) :: t =>
      obind (perform fuel files q s) (fun p => obind (ask fuel t (snd p)) (fun r =>
      Ret ((if about_collection q then fst r else fst p :: fst r), snd r)))
  end.
(** A new machine with the functions [lib], and a host. *)
Definition host_session (lib : list (string * data)) (limit : option N) (addresses : N -> N) (messages : N -> text) (out : outer)
    (fuel : nat) (l : asked) : outcome (list answer * vm) :=
  obind (boot lib (new_machine limit addresses messages)) (fun p => ask fuel l (with_outside (snd p) out)).

(** A host that decides what to ask from the answers so far (the last one first): [None]: it stops.
    [converse] makes at most [k] requests. *)
Definition host := list answer -> option ((octets -> option octets) * request).
Fixpoint converse (fuel k : nat) (h : host) (past : list answer) (s : vm) : outcome (list answer * vm) :=
  match k with
  | O => Ret (past, s)
  | S k =>
      match h past with
      | None => Ret (past, s)
      | Some (files, q) => obind (perform fuel files q s) (fun p => converse fuel k h (fst p :: past) (snd p))
      end
  end.
Definition conversation (lib : list (string * data)) (limit : option N) (addresses : N -> N) (messages : N -> text) (out : outer)
    (fuel k : nat) (h : host) : outcome (list answer * vm) :=
  obind (boot lib (new_machine limit addresses messages)) (fun p => converse fuel k h [] (with_outside (snd p) out)).
