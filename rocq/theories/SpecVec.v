(** What a user expects of the vector operations, in terms of plain lists. *)
From Coq Require Import List ZArith Bool.
From Verif Require Import Vec SpecSeq.
Import ListNotations.

(** Indices are ptrdiff_t values. *)
Definition ptrdiff_ok (i : Z) : Prop := (- 2 ^ 63 <= i < 2 ^ 63)%Z.

Section SpecVec.
Context {X : Type}.

(** Effect of one operation on the sequence, and the boolean it returns. *)
Definition spec_vec_step (l : list X) (o : vec_op X) : list X * bool :=
  match o with
  | VPushBack x => (l ++ [x], true)
  | VPushFront x => (x :: l, true)
  | VInsertBefore x i =>
      match position (length l) i with Some k => (insert_at k x l, true) | None => (l, false) end
  | VReplace i x =>
      match position (length l) i with Some k => (replace_at k x l, true) | None => (l, false) end
  | VReplaceOrPush x i =>
      match position (length l) i with Some k => (replace_at k x l, true) | None => (l ++ [x], true) end
  | VRemove i =>
      match position (length l) i with Some k => (delete_at k l, true) | None => (l, false) end
  | VPopBack => match l with [] => (l, false) | _ => (removelast l, true) end
  | VPopFront => match l with [] => (l, false) | _ :: t => (t, true) end
  | VClear => ([], true)
  | VSwap i j =>
      match position (length l) i, position (length l) j with
      | Some a, Some b => (swap_at a b l, true)
      | _, _ => (l, false)
      end
  | VSetLimit _ => (l, true)
  end.

Fixpoint spec_vec_run (l : list X) (ops : list (vec_op X)) : list X * list bool :=
  match ops with
  | [] => (l, [])
  | o :: rest =>
      let (l', b) := spec_vec_step l o in
      let (l'', bs) := spec_vec_run l' rest in (l'', b :: bs)
  end.

(** The indices an operation is called with. *)
Definition op_indices (o : vec_op X) : list Z :=
  match o with
  | VInsertBefore _ i | VReplace i _ | VReplaceOrPush _ i | VRemove i => [i]
  | VSwap i j => [i; j]
  | _ => []
  end.

End SpecVec.
