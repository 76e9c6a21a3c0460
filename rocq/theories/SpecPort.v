(** What a user of ports relies on (C109-C113). *)
From Coq Require Import List NArith ZArith Bool.
From Verif Require Import Base SpecText SpecDefine Port.
Import ListNotations.
Local Open Scope N_scope.

(** A history: calls of the builtins in the order in which they were made, each with its answer. *)
Inductive history (y : system) : host -> list (call * answer) -> host -> Prop :=
| history_none h : history y h [] h
| history_call h c r h1 l h' : run_call y c h = Ret (r, h1) -> history y h1 l h' -> history y h ((c, r) :: l) h'.
(** The hosts that a program can be in: it started without ports, with any files. *)
Definition reachable (y : system) (h : host) : Prop := exists w l, history y (mkHost [] w) l h.

(** The octets of the file at a path, [None] when there is none. *)
Definition file_at (h : host) (p : path) : option (list N) := disk (here h) p.
Definition octets_at (h : host) (p : path) : list N := match file_at h p with Some o => o | None => [] end.

(** Port [i] is open, of one of the kinds in [ks], on the file at [p]. *)
Definition is_open (ks : list tag) (h : host) (i : nat) (p : path) : Prop :=
  exists q, nth_error (ports h) i = Some q /\ name q = p /\ In (kind q) ks.
Definition for_output := [IsOutput; IsIo].
Definition for_input := [IsInput; IsIo].
(** Port [i] is open for input at [p], [k] octets after the beginning. *)
Definition stands (h : host) (i : nat) (p : path) (k : N) : Prop :=
  exists q st, nth_error (ports h) i = Some q /\ name q = p /\ In (kind q) for_input /\ file q = Some st /\ position st = k.
(** Port [i] exists, but is not open. *)
Definition not_open (h : host) (i : nat) : Prop := exists q, nth_error (ports h) i = Some q /\ kind q = NotOpen.

(** A call that opens the file at [p] for output: every text that names another file in UTF-8 is fine. *)
Definition other_path (p : path) (t : list N) : Prop := Forall scalar t /\ utf8_text (before_nul t) <> p.
Definition leaves_alone (p : path) (c : call) : Prop :=
  match c with
  | COpenOutput [VStr t] | COpenIo [VStr t] => other_path p t
  | _ => True
  end.

(** The octets that a value is written as. *)
Definition text_octets (t : list N) (o : list N) : Prop := Forall scalar t -> o = utf8_text t.
Inductive spelled : value -> list N -> Prop :=
| spelled_int z b : Z.of_N b = (z mod 256)%Z -> spelled (VInt z) [b]
| spelled_char t o : text_octets t o -> spelled (VChar t) o
| spelled_str t o : text_octets t o -> spelled (VStr t) o
| spelled_nil : spelled (VVec []) []
| spelled_cons v l o o' : spelled v o -> spelled (VVec l) o' -> spelled (VVec (v :: l)) (o ++ o').
(** The values that a history writes to port [i]. *)
Definition written_by (i : nat) (c : call) : list value :=
  match c with
  | CWrite [VPort j; v] => if Nat.eqb i j then [v] else []
  | _ => []
  end.
Definition written (i : nat) (l : list (call * answer)) : list value := flat_map (fun cr => written_by i (fst cr)) l.
(** How many octets that are. *)
Fixpoint size (v : value) : Z :=
  match v with
  | VInt _ => 1%Z
  | VChar t | VStr t => Z.of_nat (List.length (utf8_text t))
  | VVec l => (fix go (l : list value) : Z := match l with [] => 0%Z | v' :: l' => (size v' + go l')%Z end) l
  | _ => 0%Z
  end.
Fixpoint scalar_value (v : value) : Prop :=
  match v with
  | VChar t | VStr t => Forall scalar t
  | VVec l => (fix go (l : list value) : Prop := match l with [] => True | v' :: l' => scalar_value v' /\ go l' end) l
  | _ => True
  end.
(** Every write of the history to port [i] answered that all its octets were written. *)
Definition all_written (i : nat) (l : list (call * answer)) : Prop :=
  forall v r, In (CWrite [VPort i; v], r) l -> scalar_value v /\ (size v <= INT32_MAX)%Z /\ r = AnInt (size v).
(** A call on port [i] after which nothing waits to be written. *)
Definition passes_on (i : nat) (c : call) : Prop :=
  c = CFlush [VPort i] \/ c = CClose [VPort i] \/ exists n t, c = CSeek (VPort i :: VInt n :: t).

(** The number that an octet is read as. *)
Definition read_as (b : N) (z : Z) : Prop := (z mod 256 = Z.of_N b /\ -128 <= z < 128)%Z.
(** The numbers that an answer of port-read gives. *)
Definition numbers (r : answer) : list Z :=
  match r with
  | AnInt z => [z]
  | AVec l => l
  | _ => []
  end.
Definition reads_of (i : nat) (cr : call * answer) : list Z :=
  match fst cr with
  | CRead (VPort j :: _) => if Nat.eqb i j then numbers (snd cr) else []
  | _ => []
  end.
Definition read_from (i : nat) (l : list (call * answer)) : list Z := flat_map (reads_of i) l.
(** A call that does not move port [i] other than by reading. *)
Definition does_not_move (i : nat) (c : call) : Prop :=
  match c with
  | CClose (VPort j :: _) | CWrite (VPort j :: _) | CSeek (VPort j :: _) | CRelease j => i <> j
  | _ => True
  end.

(** ** Which calls are fine *)
(** Port [i] is there, and the last thing done with its stream was not [d]. *)
Definition not_just (d : direction) (h : host) (i : nat) : Prop :=
  exists q, nth_error (ports h) i = Some q /\ forall st, file q = Some st -> last st <> d.
Definition there (h : host) (i : nat) : Prop := (i < List.length (ports h))%nat.
Definition fine (y : system) (h : host) (c : call) : Prop :=
  match c with
  | COpenInput [v] | COpenOutput [v] | COpenIo [v] => exists t, v = VStr t /\ Forall scalar t
  | CClose [v] => exists i, v = VPort i /\ there h i
  | CRead (VPort i :: _) => not_just Writing h i
  | CWrite [VPort i; v] => not_just Reading h i /\ scalar_value v /\ (size v <= INT32_MAX)%Z
  | CSeek (VPort i :: _) | CDist (VPort i :: _) | CLength (VPort i :: _) | CFlush (VPort i :: _) | CSupportsOutput (VPort i :: _) | CSupportsInput (VPort i :: _) => there h i
  | CCopy i => there h i /\ opens y (time (here h)) = true
  | CRelease i => there h i /\ (forall t, syncs y t = true)
  | _ => True
  end.

(** Where port-seek by [n] leads, from position [k] of a file with [m] octets: from here when a symbol follows, otherwise from the
    beginning, or, for a negative number, from the end, -1 being the end itself. *)
Definition seek_to (n : Z) (from_current : bool) (k m : N) : Z :=
  if from_current then (Z.of_N k + n)%Z else if (n <? 0)%Z then (Z.of_N m + n + 1)%Z else n.
Definition seek_call_of (i : nat) (n : Z) (from_current : bool) : call :=
  CSeek (VPort i :: VInt n :: if from_current then [VSym] else []).
Definition octet_length (h : host) (p : path) : N := N.of_nat (List.length (octets_at h p)).
(** A call that opens the file at [p]. *)
Definition opens_path (p : path) (c : call) : Prop :=
  exists t, Forall scalar t /\ utf8_text (before_nul t) = p /\ (c = COpenInput [VStr t] \/ c = COpenOutput [VStr t] \/ c = COpenIo [VStr t]).
(** What port-length answers. *)
Definition says_length (y : system) (h : host) (i : nat) (n : N) : Prop := run_call y (CLength [VPort i]) h = Ret (AnInt (Z.of_N n), h).
