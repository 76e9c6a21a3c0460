(** Values as trees, and the order a user expects of them. *)
From Coq Require Import List NArith ZArith Bool.
From Verif Require Import Base SpecText SpecStr Heap.
Import ListNotations.

Inductive tree :=
| TNil | TBool (b : bool) | TInt (z : Z) | TStr (s : text) | TChar (s : text) | TSym (s : text) | TErr (s : text) (line : N)
| TVec (l : list tree) | TQueue (l : list tree) | TList (l : list tree).

(** [denotes h r t]: seen through all its pointers, the value [r] is the tree [t]. *)
Inductive denotes (h : heap) : ref -> tree -> Prop :=
| den_nil r c : lookup h r = Some c -> cdata c = DNil -> denotes h r TNil
| den_bool r c b : lookup h r = Some c -> cdata c = DBool b -> denotes h r (TBool b)
| den_int r c z : lookup h r = Some c -> cdata c = DInt z -> denotes h r (TInt z)
| den_str r c s : lookup h r = Some c -> cdata c = DStr s -> denotes h r (TStr s)
| den_char r c s : lookup h r = Some c -> cdata c = DChar s -> denotes h r (TChar s)
| den_sym r c s : lookup h r = Some c -> cdata c = DSym s -> denotes h r (TSym s)
| den_err r c s n : lookup h r = Some c -> cdata c = DErr s n -> denotes h r (TErr s n)
| den_vec r c l ts : lookup h r = Some c -> cdata c = DVec l -> Forall2 (denotes h) l ts -> denotes h r (TVec ts)
| den_queue r c l m ts : lookup h r = Some c -> cdata c = DQueue l m -> Forall2 (denotes h) l ts -> denotes h r (TQueue ts)
| den_list r c l ts : lookup h r = Some c -> cdata c = DList l -> Forall2 (denotes h) l ts -> denotes h r (TList ts).

(** Kinds are ordered; within a kind: false < true, integers by size, text by
    code points, error messages by text and then by line, sequences by length and then by the first difference. *)
Definition kind (t : tree) : nat :=
  match t with
  | TNil => 1 | TBool _ => 2 | TInt _ => 3 | TStr _ => 5 | TChar _ => 6 | TSym _ => 7 | TErr _ _ => 8
  | TVec _ => 9 | TQueue _ => 11 | TList _ => 12
  end.
Definition first_difference {A} (f : A -> A -> comparison) : list A -> list A -> comparison :=
  fix go (l m : list A) : comparison :=
    match l, m with
    | x :: l', y :: m' => match f x y with Eq => go l' m' | c => c end
    | [], [] => Eq
    | [], _ => Lt
    | _, [] => Gt
    end.
Definition by_length {A} (f : A -> A -> comparison) (l m : list A) : comparison :=
  match Nat.compare (length l) (length m) with Eq => first_difference f l m | c => c end.
Fixpoint tree_order (a b : tree) : comparison :=
  match a, b with
  | TBool x, TBool y => match x, y with false, true => Lt | true, false => Gt | _, _ => Eq end
  | TInt x, TInt y => Z.compare x y
  | TStr x, TStr y | TChar x, TChar y | TSym x, TSym y => lex x y
  | TErr x i, TErr y j => match lex x y with Eq => N.compare i j | c => c end
  | TVec x, TVec y | TQueue x, TQueue y | TList x, TList y => by_length tree_order x y
  | _, _ => Nat.compare (kind a) (kind b)
  end.

(** The values the claim is about: texts of Unicode scalar values without NUL,
    integers within a window of 2^31 consecutive ones, sequences shorter than
    2^31, line numbers below 2^31. *)
Fixpoint ordinary (lo : Z) (t : tree) : Prop :=
  match t with
  | TNil | TBool _ => True
  | TInt z => (lo <= z <= lo + INT32_MAX)%Z
  | TStr s | TChar s | TSym s => Forall scalar s /\ ~ In 0%N s
  | TErr s n => (Forall scalar s /\ ~ In 0%N s) /\ (Z.of_N n <= INT32_MAX)%Z
  | TVec l | TQueue l | TList l =>
      (Z.of_nat (length l) <= INT32_MAX)%Z /\
      (fix go (l : list tree) : Prop := match l with [] => True | x :: t => ordinary lo x /\ go t end) l
  end.
Fixpoint height (t : tree) : nat :=
  match t with
  | TVec l | TQueue l | TList l => S (list_max (map height l))
  | _ => 0
  end.

(** A text of Unicode scalar values without NUL. *)
Definition sound_text (t : text) : Prop := Forall scalar t /\ ~ In 0%N t.
