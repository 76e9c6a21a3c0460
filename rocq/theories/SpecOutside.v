(** What programs see of the outside: the files they read and evaluate, the
    arguments and the environment variables. *)
From Coq Require Import String List NArith ZArith Bool.
From Verif Require Import Base Utf8 HMap Heap SpecText SpecTrace SpecSpecial SpecDefine SpecBuiltin.
Import ListNotations.
Local Open Scope N_scope.
Local Open Scope list_scope.

(** A new vector with a new string for each of the texts [what] says the machine
    was given, in their order.  Arguments are an error. *)
Definition host_result (what : outer -> list text) (s : vm) (_ : ref) (xs : list ref) (s' : vm) (r : ref) : Prop :=
  match xs with
  | [] => exists ws, makes s s' r (DVec ws) /\ Forall2 (fun t w => exists t', through_c t t' /\ makes s s' w (DStr t')) (what (outside s)) ws
  | _ => complains s s' r
  end.

(** The octets at a path: what a path of the text [t] means. *)
Definition path_of (t : text) (p : list N) : Prop := Forall scalar t -> p = utf8_text (before_nul t).
(** What the octets [b] say: the characters before the first octets that are not UTF-8. *)
Definition octets_say (b : list N) (u : text) : Prop := Forall octet b -> exists rest, longest_prefix b u rest.
(** The machine looks for [b] at the path [t]: None, there is no such file. *)
Definition file_at (s : vm) (t : text) (b : option (list N)) : Prop := exists p, path_of t p /\ o_files (outside s) (nextAddr s) p = b.
(** The arguments [l] have been added to the machine, and that is all. *)
Definition given (l : list (list N)) (s s' : vm) : Prop := exists us, Forall2 octets_say l us /\
  s' = with_outside s (mkOuter (o_files (outside s)) (o_arguments (outside s) ++ us) (o_variables (outside s))).
