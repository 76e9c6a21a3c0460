(** Model of octaspire_semver.c (A:8643-9892).  size_t values are numbers below
    2^64; identifiers are lists of characters; allocation never fails. *)
From Coq Require Import List NArith ZArith Bool Lia.
From Verif Require Import Base Utf8 OString.
Import ListNotations.
Local Open Scope N_scope.

(** struct octaspire_semver_pre_release_elem_t, A:8643-8653. *)
Inductive ident := INum (n : N) | ILex (s : list N).

(** struct octaspire_semver_t, A:8915-8923. *)
Record semver := mkSemver { major : N; minor : N; patch : N; pre : list ident; build : list (list N) }.

(** "int diff = a - b" on two size_t's. *)
Definition size_diff (a b : N) : Z := wrap32 (Z.of_N ((a + two64 - b) mod two64)).

(** octaspire_string_compare on two identifiers. *)
Definition text_compare (a b : list N) : outcome comparison :=
  str_compare (mkStr a [] None) (mkStr b [] None).

(** "(diff < 0) ? -1 : 1" *)
Definition sign_of (d : Z) : Z := if (d <? 0)%Z then (-1)%Z else 1%Z.
Definition of_cmp (c : comparison) : Z := match c with Lt => -1 | Eq => 0 | Gt => 1 end%Z.

(** The loop of octaspire_semver_compare over the identifiers present in both,
    A:9571-9618; 0 when they are all alike. *)
Fixpoint compare_idents (a b : list ident) : outcome Z :=
  match a, b with
  | x :: a', y :: b' =>
      match x, y with
      | INum m, INum n => let d := size_diff m n in
                          if (d =? 0)%Z then compare_idents a' b' else Ret (sign_of d)
      | ILex s, ILex t => obind (text_compare s t) (fun c =>
                            match c with Eq => compare_idents a' b' | _ => Ret (of_cmp c) end)
      | INum _, ILex _ => Ret (-1)%Z
      | ILex _, INum _ => Ret 1%Z
      end
  | _, _ => Ret 0%Z
  end.

(** octaspire_semver_compare, A:9524-9627. *)
Definition semver_compare (a b : semver) : outcome Z :=
  let d := size_diff (major a) (major b) in
  if negb (d =? 0)%Z then Ret (sign_of d) else
  let d := size_diff (minor a) (minor b) in
  if negb (d =? 0)%Z then Ret (sign_of d) else
  let d := size_diff (patch a) (patch b) in
  if negb (d =? 0)%Z then Ret (sign_of d) else
  match pre a, pre b with
  | [], [] => Ret 0%Z
  | [], _ => Ret 1%Z
  | _, [] => Ret (-1)%Z
  | p, q =>
      obind (compare_idents p q) (fun c =>
        if negb (c =? 0)%Z then Ret c
        else if Nat.eqb (length p) (length q) then Ret 0%Z
        else Ret (sign_of (size_diff (N.of_nat (length p)) (N.of_nat (length q)))))
  end.

(** octaspire_semver_remove_prerelease(_numerical), A:9273-9339: the first
    equal identifier; None when there is none. *)
Definition ident_eqb (a b : ident) : bool :=
  match a, b with
  | INum m, INum n => m =? n
  | ILex s, ILex t => (if list_eq_dec N.eq_dec s t then true else false)
  | _, _ => false
  end.
Fixpoint remove_ident (x : ident) (l : list ident) : option (list ident) :=
  match l with
  | [] => None
  | y :: t => if ident_eqb y x then Some t
              else match remove_ident x t with Some t' => Some (y :: t') | None => None end
  end.

(** octaspire_semver_add_prerelease re-reads a lexical identifier
    (octaspire_semver_pre_release_elem_new, A:8689-8733): one of digits only
    would become numerical (no identifier made by the library is such a
    lexical one, except through make_lexical). *)
Definition reread (x : ident) : ident := x.

(** The loop over the identifiers of the other version, A:9803-9856: the new
    identifiers and whether it succeeded. *)
Fixpoint apply_idents (add : bool) (l : list ident) (others : list ident) : list ident * bool :=
  match others with
  | [] => (l, true)
  | x :: t => if add then apply_idents add (l ++ [reread x]) t
              else match remove_ident x l with
                   | Some l' => apply_idents add l' t
                   | None => (l, false)
                   end
  end.

(** octaspire_semver_add_or_subtract, A:9723-9860: the version afterwards and
    the result. *)
Definition semver_add_or_subtract (self other : semver) (add : bool) : semver * bool :=
  let nz n := negb (n =? 0) in
  let set a b c p := mkSemver a b c p (build self) in
  let step1 :=
    if nz (major other) then
      if nz (minor other) || nz (patch other) then (self, false)
      else if add then (set ((major self + major other) mod two64) 0 0 (pre self), true)
      else if major self <? major other then (self, false)
      else (set (major self - major other) (minor self) (patch self) (pre self), true)
    else (self, true) in
  if negb (snd step1) then step1 else
  let s := fst step1 in
  let step2 :=
    if nz (minor other) then
      if nz (major other) || nz (patch other) then (s, false)
      else if add then (set (major s) ((minor s + minor other) mod two64) 0 (pre s), true)
      else if minor s <? minor other then (s, false)
      else (set (major s) (minor s - minor other) (patch s) (pre s), true)
    else (s, true) in
  if negb (snd step2) then step2 else
  let s := fst step2 in
  let step3 :=
    if nz (patch other) then
      if nz (major other) || nz (minor other) then (s, false)
      else if add then (set (major s) (minor s) ((patch s + patch other) mod two64) (pre s), true)
      else if patch s <? patch other then (s, false)
      else (set (major s) (minor s) (patch s - patch other) (pre s), true)
    else (s, true) in
  if negb (snd step3) then step3 else
  let s := fst step3 in
  let (p, ok) := apply_idents add (pre s) (pre other) in
  (set (major s) (minor s) (patch s) p, ok).
