(** Model of octaspire_dern_vm_parse / _parse_token (vm:3065-3477) as far as
    the value read is concerned: values are trees (their heap representation is
    in Heap.v).  Error values carry no message. *)
From Coq Require Import List NArith ZArith Bool Lia Arith.
From Coq Require Import Floats.SpecFloat.
From Verif Require Import Base Lexer.
Import ListNotations.
Local Open Scope N_scope.

(** The values the parser can build. *)
Inductive sexp :=
| SNil | SBool (b : bool) | SInt (z : Z) | SReal (r : spec_float)
| SStr (s : list N) | SChar (s : list N) | SSym (s : list N)
| SSemver (major minor patch : N) | SErr | SVec (l : list sexp).

(** "quote" and "template". *)
Definition sym_quote : sexp := SSym [113; 117; 111; 116; 101].
Definition sym_template : sexp := SSym [116; 101; 109; 112; 108; 97; 116; 101].

(** A pointer to a value (None = NULL) and the input left. *)
Definition parsed := outcome (option sexp * list N).

(** octaspire_string_new(octaspire_dern_lexer_token_get_..._as_c_string(token)),
    vm:3375-3409. *)
Definition from_cstr (l : list N) (k : list N -> sexp) (r : list N) : parsed :=
  obind (via_cstr l) (fun s => Ret (Some (k s), r)).

(** octaspire_dern_vm_parse_token, vm:3065-3460, and the loop reading the
    elements of a vector, vm:3107-3215 ([acc] in reverse order).  Every token
    takes one unit of fuel. *)
Fixpoint parse_token (fuel : nat) (t : option token) (l : list N) : parsed :=
  match fuel with
  | O => NoFuel
  | S f =>
      match t with
      | None => Ret (None, l)
      | Some tk =>
          match tk with
          | TLParen => parse_list f [] l
          | TQuote =>
              obind (lex l) (fun r => obind (parse_token f (fst r) (snd r)) (fun q =>
                match fst q with
                | None => Ret (None, snd q)
                | Some SErr => Ret (Some SErr, snd q)
                | Some v => Ret (Some (SVec [sym_quote; v]), snd q)
                end))
          | TBackQuote =>
              obind (lex l) (fun r => obind (parse_token f (fst r) (snd r)) (fun q =>
                match fst q with
                | None => Ret (None, snd q)
                | Some SErr => Ret (Some SErr, snd q)
                | Some (SVec vs) => Ret (Some (SVec (sym_template :: vs)), snd q)
                | Some v => Ret (Some (SVec [sym_template; v]), snd q)
                end))
          | TTrue => Ret (Some (SBool true), l)
          | TFalse => Ret (Some (SBool false), l)
          | TNil => Ret (Some SNil, l)
          | TInt z => Ret (Some (SInt z), l)
          | TReal r => Ret (Some (SReal r), l)
          | TString s => from_cstr s SStr l
          | TChar s => from_cstr s SChar l
          | TSymbol s => from_cstr s SSym l
          | TSemver a b c => Ret (Some (SSemver a b c), l)
          | TError => Ret (Some SErr, l)
          | TMore => Ret (None, l)
          | TRParen => Ret (Some SErr, l)
          end
      end
  end
with parse_list (fuel : nat) (acc : list sexp) (l : list N) : parsed :=
  match fuel with
  | O => NoFuel
  | S f =>
      obind (lex l) (fun r =>
        match fst r with
        | None => Ret (Some SErr, snd r)
        | Some TError => Ret (Some SErr, snd r)
        | Some TRParen => Ret (Some (SVec (rev acc)), snd r)
        | Some t =>
            obind (parse_token f (Some t) (snd r)) (fun q =>
              match fst q with
              | None => Ret (Some SErr, snd q)
              | Some SErr => Ret (Some SErr, snd q)
              | Some v => parse_list f (v :: acc) (snd q)
              end)
        end)
  end.

(** octaspire_dern_vm_parse, vm:3462-3477.  The fuel is enough (ParserProofs.v). *)
Definition parse (l : list N) : parsed :=
  obind (lex l) (fun r => parse_token (2 * length l + 2) (fst r) (snd r)).
