(** What a user expects of linked lists and queues. *)
From Coq Require Import List NArith ZArith Bool.
From Verif Require Import SpecSeq DList.
Import ListNotations.

Section SpecDList.
Context {X : Type}.

Definition spec_dl_step (l : list X) (o : dl_op X) : list X :=
  match o with
  | LPushFront x => x :: l
  | LPushBack x => l ++ [x]
  | LPopFront => tl l
  | LPopBack => removelast l
  | LRemoveNth k => delete_at k l
  | LClear => []
  end.
Definition spec_dl_run (l : list X) (ops : list (dl_op X)) : list X := fold_left spec_dl_step ops l.

(** The last [n] elements. *)
Definition lastn (n : nat) (l : list X) : list X := skipn (length l - n) l.

(** A queue is the sequence of its elements, oldest first, with its limit. *)
Definition spec_q := (list X * nat * bool)%type.
Definition limited (l : list X) (n : nat) (b : bool) : list X := if b then lastn n l else l.
Definition spec_q_step (s : spec_q) (o : q_op X) : spec_q :=
  let '(l, n, b) := s in
  match o with
  | QPush x => (limited (l ++ [x]) n b, n, b)
  | QPop => (tl l, n, b)
  | QClear => ([], n, b)
  | QSetMax n' => (limited l n' b, n', b)
  | QSetHas b' => (limited l n b', n, b')
  end.
Definition spec_q_run (s : spec_q) (ops : list (q_op X)) : spec_q := fold_left spec_q_step ops s.

End SpecDList.
