(** Model of octaspire_list.c (A:4218-4846) and octaspire_queue.c
    (A:4848-5112) at the level of nodes and pointers.  A pointer is
    [option nat] (None = NULL) into a heap of nodes.  Simplifications: the
    element bytes are a value of type [X]; allocation never fails and never
    reuses an address; release callbacks are not run. *)
From Coq Require Import List NArith ZArith Bool Lia Arith.
From Verif Require Import Base.
Import ListNotations.

Section DList.
Context {X : Type}.

(** struct octaspire_list_node_t, A:4237-4247. *)
Record node := mkNode { elem : X; nxt : option nat; prv : option nat }.

(** struct octaspire_list_t, A:4385-4395, together with the node heap. *)
Record dlist := mkDL
  { mem : nat -> option node; fresh : nat; front : option nat; back : option nat; count : nat }.

Definition upd (m : nat -> option node) (a : nat) (v : option node) : nat -> option node :=
  fun b => if Nat.eqb b a then v else m b.

(** octaspire_helpers_verify_not_null on the pointer, then the access;
    an access to a released node is undefined. *)
Definition deref (m : nat -> option node) (p : option nat) : outcome (nat * node) :=
  match p with
  | None => Abort
  | Some a => match m a with Some n => Ret (a, n) | None => Undef end
  end.

(** octaspire_list_node_set_next / _previous / get_next / get_previous,
    A:4337-4382. *)
Definition set_next (m : nat -> option node) (p v : option nat) :=
  obind (deref m p) (fun r => Ret (upd m (fst r) (Some (mkNode (elem (snd r)) v (prv (snd r)))))).
Definition set_prev (m : nat -> option node) (p v : option nat) :=
  obind (deref m p) (fun r => Ret (upd m (fst r) (Some (mkNode (elem (snd r)) (nxt (snd r)) v)))).
Definition get_next (m : nat -> option node) (p : option nat) : outcome (option nat) :=
  obind (deref m p) (fun r => Ret (nxt (snd r))).
Definition get_prev (m : nat -> option node) (p : option nat) : outcome (option nat) :=
  obind (deref m p) (fun r => Ret (prv (snd r))).

(** octaspire_list_node_release, A:4292-4308. *)
Definition release (m : nat -> option node) (p : option nat) :=
  match p with None => m | Some a => upd m a None end.

(** octaspire_list_new, A:4397-4421. *)
Definition dl_new : dlist := mkDL (fun _ => None) 0 None None 0.

(** "if (p) octaspire_list_node_set_xxx(p, v)". *)
Definition set_next_if (m : nat -> option node) (p v : option nat) :=
  match p with None => Ret m | Some _ => set_next m p v end.
Definition set_prev_if (m : nat -> option node) (p v : option nat) :=
  match p with None => Ret m | Some _ => set_prev m p v end.

(** octaspire_list_push_front, A:4463-4500. *)
Definition dl_push_front (d : dlist) (x : X) : outcome dlist :=
  let a := fresh d in
  let m := upd (mem d) a (Some (mkNode x (front d) None)) in
  obind (set_prev_if m (front d) (Some a)) (fun m =>
    Ret (mkDL m (S a) (Some a) (if Nat.eqb (count d) 0 then Some a else back d) (S (count d)))).

(** octaspire_list_push_back, A:4502-4549, with its two sanity checks. *)
Definition dl_push_back (d : dlist) (x : X) : outcome dlist :=
  let a := fresh d in
  let m := upd (mem d) a (Some (mkNode x None (back d))) in
  obind (set_next_if m (back d) (Some a)) (fun m =>
    let fr := if Nat.eqb (count d) 0 then Some a else front d in
    obind (get_prev m (Some a)) (fun p =>
      match count d, p with
      | S _, None => Abort
      | O, Some _ => Abort
      | _, _ => Ret (mkDL m (S a) fr (Some a) (S (count d)))
      end)).

(** octaspire_list_pop_front, A:4551-4587. *)
Definition dl_pop_front (d : dlist) : outcome dlist :=
  match front d with
  | None => Ret d
  | Some old =>
      obind (get_next (mem d) (front d)) (fun fr =>
      obind (set_prev_if (mem d) fr None) (fun m =>
      obind (set_next m (Some old) None) (fun m =>
      obind (get_prev m (Some old)) (fun p =>
        match p, count d with
        | Some _, _ => Abort
        | None, O => Abort
        | None, S n =>
            Ret (mkDL (release m (Some old)) (fresh d) fr
                      (if Nat.eqb n 0 then fr else back d) n)
        end))))
  end.

(** octaspire_list_pop_back, A:4589-4625. *)
Definition dl_pop_back (d : dlist) : outcome dlist :=
  match back d with
  | None => Ret d
  | Some old =>
      obind (get_prev (mem d) (back d)) (fun bk =>
      obind (set_next_if (mem d) bk None) (fun m =>
      obind (set_prev m (Some old) None) (fun m =>
      obind (get_next m (Some old)) (fun p =>
        match p, count d with
        | Some _, _ => Abort
        | None, O => Abort
        | None, S n =>
            Ret (mkDL (release m (Some old)) (fresh d)
                      (if Nat.eqb n 0 then bk else front d) bk n)
        end))))
  end.

Definition ptr_eqb (p q : option nat) : bool :=
  match p, q with
  | None, None => true
  | Some a, Some b => Nat.eqb a b
  | _, _ => false
  end.

(** octaspire_list_remove, A:4627-4675. *)
Definition dl_remove (d : dlist) (p : option nat) : outcome dlist :=
  if ptr_eqb p (front d) then dl_pop_front d
  else if ptr_eqb p (back d) then dl_pop_back d
  else
    obind (get_prev (mem d) p) (fun pr =>
    obind (get_next (mem d) p) (fun ne =>
    obind (set_next_if (mem d) pr ne) (fun m =>
    obind (set_prev_if m ne pr) (fun m =>
    obind (set_next m p None) (fun m =>
    obind (set_prev m p None) (fun m =>
      match count d with
      | O => Abort
      | S n => Ret (mkDL (release m p) (fresh d) (if Nat.eqb n 0 then back d else front d) (back d) n)
      end)))))).

(** octaspire_list_clear, A:4677-4692; [n] bounds the number of pops. *)
Fixpoint dl_clear_loop (n : nat) (d : dlist) : outcome dlist :=
  match front d with
  | None => Ret d
  | Some _ => match n with
              | O => NoFuel
              | S k => obind (dl_pop_front d) (dl_clear_loop k)
              end
  end.
Definition dl_clear (d : dlist) : outcome dlist := dl_clear_loop (count d) d.

(** The loops of octaspire_list_get_at, A:4700-4754 (and _const, A:4756-4814):
    the returned node pointer. *)
Fixpoint walk (step : (nat -> option node) -> option nat -> outcome (option nat))
  (m : nat -> option node) (k : nat) (p : option nat) : outcome (option nat) :=
  match k with
  | O => Ret p
  | S k' => obind (step m p) (fun q => match q with None => Ret None | Some _ => walk step m k' q end)
  end.
Definition dl_get_at (d : dlist) (i : Z) : outcome (option nat) :=
  if (i <? 0)%Z then walk get_prev (mem d) (Z.to_nat (- (i + 1))) (back d)
  else walk get_next (mem d) (Z.to_nat i) (front d).

(** octaspire_list_node_get_element of a node pointer, NULL kept as None. *)
Definition node_elem (d : dlist) (p : option nat) : outcome (option X) :=
  match p with
  | None => Ret None
  | Some _ => obind (deref (mem d) p) (fun r => Ret (Some (elem (snd r))))
  end.

(** octaspire_list_node_iterator_init / _next, A:4817-4842, run until the end
    ([n] steps at most): the elements visited. *)
Fixpoint dl_iterate (n : nat) (m : nat -> option node) (p : option nat) : outcome (list X) :=
  match p with
  | None => Ret []
  | Some _ =>
      match n with
      | O => NoFuel
      | S k => obind (deref m p) (fun r =>
                 obind (get_next m p) (fun q =>
                   obind (dl_iterate k m q) (fun l => Ret (elem (snd r) :: l))))
      end
  end.
Definition dl_forward (d : dlist) : outcome (list X) := dl_iterate (count d) (mem d) (front d).

(** The same, from the back with octaspire_list_node_get_previous. *)
Fixpoint dl_iterate_back (n : nat) (m : nat -> option node) (p : option nat) : outcome (list X) :=
  match p with
  | None => Ret []
  | Some _ =>
      match n with
      | O => NoFuel
      | S k => obind (deref m p) (fun r =>
                 obind (get_prev m p) (fun q =>
                   obind (dl_iterate_back k m q) (fun l => Ret (elem (snd r) :: l))))
      end
  end.
Definition dl_backward (d : dlist) : outcome (list X) := dl_iterate_back (count d) (mem d) (back d).

(** Histories.  [LRemoveNth k] advances an iterator k times and removes the
    node it arrives at, if any. *)
Inductive dl_op :=
| LPushFront (x : X) | LPushBack (x : X) | LPopFront | LPopBack | LRemoveNth (k : nat) | LClear.

Fixpoint iter_nth (m : nat -> option node) (k : nat) (p : option nat) : outcome (option nat) :=
  match p with
  | None => Ret None
  | Some _ => match k with
              | O => Ret p
              | S k' => obind (get_next m p) (iter_nth m k')
              end
  end.

Definition dl_step (d : dlist) (o : dl_op) : outcome dlist :=
  match o with
  | LPushFront x => dl_push_front d x
  | LPushBack x => dl_push_back d x
  | LPopFront => dl_pop_front d
  | LPopBack => dl_pop_back d
  | LRemoveNth k =>
      obind (iter_nth (mem d) k (front d)) (fun p =>
        match p with None => Ret d | Some _ => dl_remove d p end)
  | LClear => dl_clear d
  end.

Fixpoint dl_run (d : dlist) (ops : list dl_op) : outcome dlist :=
  match ops with
  | [] => Ret d
  | o :: r => obind (dl_step d o) (fun d' => dl_run d' r)
  end.

(** struct octaspire_queue_t, A:4867-4874. *)
Record queue := mkQ { qlist : dlist; maxLen : nat; hasMax : bool }.

(** octaspire_queue_new / _new_with_max_length, A:4893-4958. *)
Definition q_new : queue := mkQ dl_new 0 false.
Definition q_new_max (n : nat) : queue := mkQ dl_new n true.

(** octaspire_queue_private_ensure_max_length, A:4876-4891; [n] bounds the pops. *)
Fixpoint q_ensure_loop (n : nat) (d : dlist) (mx : nat) : outcome dlist :=
  if Nat.ltb mx (count d) then
    match n with
    | O => NoFuel
    | S k => obind (dl_pop_front d) (fun d' => q_ensure_loop k d' mx)
    end
  else Ret d.
Definition q_ensure (q : queue) : outcome queue :=
  if hasMax q then obind (q_ensure_loop (count (qlist q)) (qlist q) (maxLen q))
                         (fun d => Ret (mkQ d (maxLen q) true))
  else Ret q.

(** octaspire_queue_push / _pop / _clear / _set_max_length /
    _set_has_max_length, A:4999-5103. *)
Inductive q_op := QPush (x : X) | QPop | QClear | QSetMax (n : nat) | QSetHas (b : bool).
Definition q_step (q : queue) (o : q_op) : outcome queue :=
  match o with
  | QPush x => obind (dl_push_back (qlist q) x) (fun d => q_ensure (mkQ d (maxLen q) (hasMax q)))
  | QPop => obind (dl_pop_front (qlist q)) (fun d => Ret (mkQ d (maxLen q) (hasMax q)))
  | QClear => obind (dl_clear (qlist q)) (fun d => Ret (mkQ d (maxLen q) (hasMax q)))
  | QSetMax n => q_ensure (mkQ (qlist q) n (hasMax q))
  | QSetHas b => q_ensure (mkQ (qlist q) (maxLen q) b)
  end.
Fixpoint q_run (q : queue) (ops : list q_op) : outcome queue :=
  match ops with
  | [] => Ret q
  | o :: r => obind (q_step q o) (fun q' => q_run q' r)
  end.

(** octaspire_queue_peek, A:4974-4985. *)
Definition q_peek (q : queue) : outcome (option X) := node_elem (qlist q) (front (qlist q)).

(** octaspire_queue_get_at, A:5035-5047. *)
Definition q_get_at (q : queue) (i : Z) : outcome (option X) :=
  obind (dl_get_at (qlist q) i) (node_elem (qlist q)).

End DList.
Arguments dlist X : clear implicits.
Arguments node X : clear implicits.
Arguments queue X : clear implicits.
Arguments dl_op X : clear implicits.
Arguments q_op X : clear implicits.
