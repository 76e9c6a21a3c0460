(** Precedence of Semantic Versioning 2.0.0, item 11. *)
From Coq Require Import List NArith ZArith Bool.
From Verif Require Import Base SpecText SpecStr Semver.
Import ListNotations.
Local Open Scope N_scope.

(** 11.4.1-11.4.3 *)
Definition ident_prec (x y : ident) : comparison :=
  match x, y with
  | INum m, INum n => m ?= n
  | ILex s, ILex t => lex s t
  | INum _, ILex _ => Lt
  | ILex _, INum _ => Gt
  end.

(** 11.4, 11.4.4: from left to right, a larger set of fields is higher. *)
Fixpoint idents_prec (a b : list ident) : comparison :=
  match a, b with
  | [], [] => Eq
  | [], _ => Lt
  | _, [] => Gt
  | x :: a', y :: b' => match ident_prec x y with Eq => idents_prec a' b' | r => r end
  end.

(** 11.3: a pre-release is lower than the release. *)
Definition pre_prec (a b : list ident) : comparison :=
  match a, b with
  | [], [] => Eq
  | [], _ => Gt
  | _, [] => Lt
  | _, _ => idents_prec a b
  end.

(** 11.2 *)
Definition precedence (a b : semver) : comparison :=
  match major a ?= major b with
  | Eq => match minor a ?= minor b with
          | Eq => match patch a ?= patch b with
                  | Eq => pre_prec (pre a) (pre b)
                  | r => r
                  end
          | r => r
          end
  | r => r
  end.

(** Identifiers the comparison can handle: text without NUL; numbers below
    2^31. *)
Definition ident_ok (x : ident) : Prop :=
  match x with INum n => n < 2 ^ 31 | ILex s => Forall scalar s /\ ~ In 0 s end.
Definition semver_ok (v : semver) : Prop :=
  major v < 2 ^ 31 /\ minor v < 2 ^ 31 /\ patch v < 2 ^ 31 /\
  Forall ident_ok (pre v) /\ (Z.of_nat (length (pre v)) < 2 ^ 31)%Z.

(** [others] are taken out of [l], one after the other, each at its first
    occurrence; [r]: what is left. *)
Inductive taken_out : list ident -> list ident -> list ident -> Prop :=
| out_none l : taken_out [] l l
| out_next x others l1 l2 r : ~ In x l1 -> taken_out others (l1 ++ l2) r -> taken_out (x :: others) (l1 ++ x :: l2) r.

(** What adding [w] to the version [v], or subtracting it, makes of its three
    numbers: only one number of [w] may be other than zero; an addition sets the
    lower numbers to zero. *)
Definition numbers_of (v : semver) : N * N * N := (major v, minor v, patch v).
Inductive moved : bool -> N * N * N -> N * N * N -> N * N * N -> Prop :=
| moved_none add t : moved add t (0, 0, 0) t
| plus_major a b c n : n <> 0 -> moved true (a, b, c) (n, 0, 0) ((a + n) mod 2 ^ 64, 0, 0)
| plus_minor a b c n : n <> 0 -> moved true (a, b, c) (0, n, 0) (a, (b + n) mod 2 ^ 64, 0)
| plus_patch a b c n : n <> 0 -> moved true (a, b, c) (0, 0, n) (a, b, (c + n) mod 2 ^ 64)
| minus_major a b c n : n <> 0 -> n <= a -> moved false (a, b, c) (n, 0, 0) (a - n, b, c)
| minus_minor a b c n : n <> 0 -> n <= b -> moved false (a, b, c) (0, n, 0) (a, b - n, c)
| minus_patch a b c n : n <> 0 -> n <= c -> moved false (a, b, c) (0, 0, n) (a, b, c - n).
(** [v'] is [v] after adding (or subtracting) [w]; [ok]: this was possible.  The
    identifiers of the pre-release of [w] are added at the end or taken out, up to
    the first that is not there. *)
Definition version_changed (add : bool) (v w v' : semver) (ok : bool) : Prop :=
  build v' = build v /\
  ((moved add (numbers_of v) (numbers_of w) (numbers_of v') /\
    if add then ok = true /\ pre v' = pre v ++ pre w
    else (ok = true /\ taken_out (pre w) (pre v) (pre v')) \/
         (ok = false /\ exists p x q, pre w = p ++ x :: q /\ taken_out p (pre v) (pre v') /\ ~ In x (pre v'))) \/
   ((forall t, ~ moved add (numbers_of v) (numbers_of w) t) /\ v' = v /\ ok = false)).
