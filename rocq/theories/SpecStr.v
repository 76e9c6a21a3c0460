(** What a user expects of the string operations, in terms of lists of
    characters. *)
From Coq Require Import List NArith ZArith Bool.
From Verif Require Import Base SpecText SpecSeq SpecVec OString.
Import ListNotations.
Local Open Scope N_scope.

(** Effect of one operation on the characters. *)
Definition str_spec_step (l : list N) (o : str_op) (l' : list N) : Prop :=
  match o with
  | SPush c => l' = l ++ [c]
  | SPopFront => l' = tl l
  | SPopBack => l' = removelast l
  | SInsert cs i =>
      match position (length l) i with
      | Some k => l' = firstn k l ++ cs ++ skipn k l
      | None => l' = l
      end
  | SOverwrite cs i =>
      match position (length l) i with
      | Some k => l' = firstn k l ++ cs ++ skipn (k + length cs) l
      | None => l' = if (i <? 0)%Z then l else l ++ cs
      end
  | SConcat b => exists d rest, longest_prefix (cstr b) d rest /\ l' = l ++ d
  | SRemoveAt i =>
      match position (length l) i with Some k => l' = delete_at k l | None => l' = l end
  | SRemoveChars i n =>
      match position (length l) i with
      | Some k => l' = firstn k l ++ skipn (k + n) l
      | None => l' = l
      end
  | SClear => l' = []
  | SSet b => exists d rest, longest_prefix (cstr b) d rest /\ l' = d
  | SGetCString => l' = l
  end.

(** Arguments of the C types: indices are ptrdiff_t, text arguments octets. *)
Definition op_ok (o : str_op) : Prop :=
  match o with
  | SInsert _ i | SOverwrite _ i | SRemoveAt i => ptrdiff_ok i
  | SRemoveChars i n => ptrdiff_ok i /\ (Z.of_nat n < 2 ^ 62)%Z
  | SConcat b | SSet b => octets b
  | _ => True
  end.

(** How much an operation can add. *)
Definition op_size (o : str_op) : nat :=
  match o with
  | SPush _ => 1
  | SInsert cs _ | SOverwrite cs _ => length cs
  | SConcat b | SSet b => length b
  | _ => 0
  end%nat.

(** A history: each C string read is the UTF-8 text of the current characters,
    NUL terminated. *)
Inductive str_spec_run : list N -> list str_op -> list N -> list (list N) -> Prop :=
| ssr_nil l : str_spec_run l [] l []
| ssr_get l ops l' outs :
    Forall scalar l -> str_spec_run l ops l' outs ->
    str_spec_run l (SGetCString :: ops) l' ((utf8_text l ++ [0]) :: outs)
| ssr_op l o l1 ops l' outs :
    o <> SGetCString -> str_spec_step l o l1 -> str_spec_run l1 ops l' outs ->
    str_spec_run l (o :: ops) l' ([] :: outs).

(** Only Unicode scalar values are put into the string. *)
Definition op_scalar (o : str_op) : Prop :=
  match o with
  | SPush c => scalar c
  | SInsert cs _ | SOverwrite cs _ => Forall scalar cs
  | SConcat b | SSet b => exists l, Forall scalar l /\ Forall (fun c => c <> 0) l /\ cstr b = utf8_text l
  | _ => True
  end.


Definition occurs (sub l : list N) : Prop := exists p q, l = p ++ sub ++ q.

(** [removals sub l n r]: removing [n] occurrences one after the other turns
    [l] into [r]. *)
Inductive removals (sub : list N) : list N -> nat -> list N -> Prop :=
| rm_none l : removals sub l 0 l
| rm_one p q n l' : removals sub (p ++ q) n l' -> removals sub (p ++ sub ++ q) (S n) l'.

(** Lexicographic order by code point. *)
Fixpoint lex (a b : list N) : comparison :=
  match a, b with
  | [], [] => Eq
  | [], _ => Lt
  | _, [] => Gt
  | x :: a', y :: b' => match x ?= y with Eq => lex a' b' | r => r end
  end.
