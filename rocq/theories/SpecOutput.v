(** What string-format, print, println and print-readably do. *)
From Coq Require Import String List NArith ZArith Bool.
From Verif Require Import Base SpecText OString HMap Heap SpecHeap ValueOps Env Builtins Eval SpecTrace SpecSpecial SpecCall SpecDefine SpecEval SpecValue SpecReal SpecPrint SpecBuiltin.
Import ListNotations.
Local Open Scope string_scope.
Local Open Scope list_scope.

(** A format string: "{}" stands for the next of the arguments [l]; [show x u]:
    the argument [x] is written as [u].  A single quote is written and makes
    what follows it literal (so "'{" is not the start of a "{}" and "''" is two
    quotes, the second of which makes nothing literal): [quoted].  Every other
    character [c] is written as [lit c].  Arguments for which there is no "{}"
    are left out; [ok] is false if there is a "{}" without an argument, and then
    only what is before it is written. *)
Inductive formatted (lit : N -> list N) (show : ref -> list N -> Prop) : bool -> text -> list ref -> list N -> bool -> Prop :=
| form_end quoted l : formatted lit show quoted [] l [] true
| form_argument t x l u o ok : show x u -> formatted lit show false t l o ok -> formatted lit show false (asc "{}" ++ t) (x :: l) (u ++ o) ok
| form_missing t : formatted lit show false (asc "{}" ++ t) [] [] false
| form_quote quoted t l o ok : formatted lit show (negb quoted) t l o ok -> formatted lit show quoted (asc "'" ++ t) l (lit 39%N ++ o) ok
| form_char quoted c t l o ok : [c] <> asc "'" -> (quoted = true \/ forall t', c :: t <> asc "{}" ++ t') ->
    formatted lit show false t l o ok -> formatted lit show quoted (c :: t) l (lit c ++ o) ok.

Definition string_format_result (s : vm) (_ : ref) (xs : list ref) (s' : vm) (r : ref) : Prop :=
  match xs with
  | [] => complains s s' r
  | [x] => exists u, shown (readably s) false (all s) x u /\ makes s s' r (DStr u)
  | x :: l => exists d, data_at s x = Some d /\
      match d with
      | DStr t => exists u ok, formatted (fun c => [c]) (shown (readably s) true (all s)) false t l u ok /\
          if ok then makes s s' r (DStr u) else complains s s' r
      | _ => complains s s' r
      end
  end.

(** The octets of a text as standard output gets them. *)
Definition octets (t : text) (o : list N) : Prop := Forall scalar t -> o = utf8_text (before_nul t).
Definition said (s : vm) (x : ref) (o : list N) : Prop := exists u, shown (readably s) false (all s) x u /\ octets u o.
(** Only standard output changes: it gets the octets [o]. *)
Definition writes (s : vm) (o : list N) (s' : vm) : Prop := keeps (stack s) (with_output s (output s ++ o)) s'.
(** [x] holds [d]; [l] are the arguments after it.  The characters of a format
    string are written as one octet each. *)
Definition printed (s : vm) (x : ref) (d : data) (l : list ref) (o : list N) (ok : bool) : Prop :=
  match d, l with
  | DStr t, _ :: _ => formatted (fun c => [(c mod 256)%N]) (said s) false t l o ok
  | _, _ => said s x o /\ ok = true
  end.
(** What is printed before an argument turns out to be missing stays printed. *)
Definition print_result (s : vm) (_ : ref) (xs : list ref) (s' : vm) (r : ref) : Prop :=
  match xs with
  | [] => writes s [] s' /\ complains s s' r
  | x :: l => exists d o ok, data_at s x = Some d /\ printed s x d l o ok /\ writes s o s' /\
      if ok then makes s s' r (DBool true) else complains s s' r
  end.
Definition println_result (s : vm) (_ : ref) (xs : list ref) (s' : vm) (r : ref) : Prop :=
  match xs with
  | [] => writes s [10%N] s' /\ makes s s' r (DBool true)
  | x :: l => exists d o ok, data_at s x = Some d /\ printed s x d l o ok /\ writes s (o ++ [10%N]) s' /\
      if ok then makes s s' r (DBool true) else complains s s' r
  end.

Definition print_readably_result (s : vm) (_ : ref) (xs : list ref) (s' : vm) (r : ref) : Prop :=
  match xs with
  | [] => keeps (stack s) s s' /\ makes s s' r (DBool (readably s))
  | [x] => exists d, data_at s x = Some d /\
      match d with
      | DBool b => keeps (stack s) (with_readably s b) s' /\ makes s s' r (DBool b)
      | _ => keeps (stack s) s s' /\ complains s s' r
      end
  | _ => keeps (stack s) s s' /\ complains s s' r
  end.
