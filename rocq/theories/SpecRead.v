(** What a user expects of the reader: layout, the grammar of forms over
    tokens, and which values print readably. *)
From Coq Require Import List NArith ZArith Bool.
From Verif Require Import Base SpecText Lexer Parser.
Import ListNotations.
Local Open Scope N_scope.

(** *** Layout *)
Definition space (c : N) : Prop := In c [9; 10; 11; 12; 13; 32].
Definition delimiter (c : N) : Prop := space c \/ In c [39; 40; 41; 91; 93; 124].

(** White space, "; ... newline" and "#! ... !#". *)
Inductive blank : list N -> Prop :=
| blank_nil : blank []
| blank_space c w : space c -> blank w -> blank (c :: w)
| blank_line body w : ~ In 10 body -> blank w -> blank (59 :: body ++ 10 :: w)
| blank_multi body w : (forall p q, body ++ [33] <> p ++ [33; 35] ++ q) -> blank w ->
    blank (35 :: 33 :: body ++ [33; 35] ++ w).

(** Text that does not continue a symbol, a string or a number. *)
Definition ends_atom (r : list N) : Prop := match r with [] => True | c :: _ => delimiter c end.

(** *** Tokens and forms *)

(** Reading tokens one after the other from [l] leaves [r]. *)
Inductive reads : list N -> list token -> list N -> Prop :=
| reads_nil l : reads l [] l
| reads_cons l t l1 ts r : lex l = Ret (Some t, l1) -> reads l1 ts r -> reads l (t :: ts) r.

(** The grammar. *)
Inductive form : list token -> sexp -> Prop :=
| f_true : form [TTrue] (SBool true)
| f_false : form [TFalse] (SBool false)
| f_nil : form [TNil] SNil
| f_int z : form [TInt z] (SInt z)
| f_real x : form [TReal x] (SReal x)
| f_str s : form [TString s] (SStr s)
| f_char s : form [TChar s] (SChar s)
| f_sym s : form [TSymbol s] (SSym s)
| f_semver a b c : form [TSemver a b c] (SSemver a b c)
| f_quote ts v : form ts v -> form (TQuote :: ts) (SVec [sym_quote; v])
| f_template_vec ts vs : form ts (SVec vs) -> form (TBackQuote :: ts) (SVec (sym_template :: vs))
| f_template ts v : form ts v -> (forall vs, v <> SVec vs) -> form (TBackQuote :: ts) (SVec [sym_template; v])
| f_vec ts vs : forms ts vs -> form (TLParen :: ts ++ [TRParen]) (SVec vs)
with forms : list token -> list sexp -> Prop :=
| fs_nil : forms [] []
| fs_cons ts v ts' vs : form ts v -> forms ts' vs -> forms (ts ++ ts') (v :: vs).

(** Opening minus closing parentheses. *)
Fixpoint depth (ts : list token) : Z :=
  match ts with
  | [] => 0
  | TLParen :: t => depth t + 1
  | TRParen :: t => depth t - 1
  | _ :: t => depth t
  end%Z.

(** *** Values that print readably *)
Definition char_ok (c : N) : Prop := scalar c /\ c <> 0.

(** A symbol's text: no delimiters, not the start of another kind of token. *)
Definition symbol_text (s : list N) : Prop :=
  Forall (fun c => char_ok c /\ ~ delimiter c) s /\
  (exists c t, s = c :: t /\ ~ (48 <= c <= 57) /\ ~ In c [59; 96; 123] /\ (forall t', s <> 35 :: 33 :: t')) /\
  s <> [116; 114; 117; 101] /\ s <> [102; 97; 108; 115; 101] /\ s <> [110; 105; 108].

Inductive readable : sexp -> Prop :=
| r_nil : readable SNil
| r_bool b : readable (SBool b)
| r_int z : (INT32_MIN < z <= INT32_MAX)%Z -> readable (SInt z)
| r_str s : Forall (fun c => char_ok c /\ c <> 93 /\ c <> 124) s -> readable (SStr s)
| r_char c : char_ok c -> readable (SChar [c])
| r_sym s : symbol_text s -> readable (SSym s)
| r_semver a b c : a < two64 -> b < two64 -> c < two64 -> readable (SSemver a b c)
| r_vec vs : Forall readable vs -> readable (SVec vs).
