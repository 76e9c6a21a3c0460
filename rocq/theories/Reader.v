(** Reading values into the heap and evaluating a whole text:
    octaspire_dern_vm_parse_token, _parse and
    _read_from_octaspire_input_and_eval_in_global_environment (vm.c), with the
    evaluator as a parameter: a builtin reads texts too. *)
From Coq Require Import NArith ZArith Bool Lia String List.
From Verif Require Import Base Input Lexer Semver HMap Heap ValueOps Env Copy.
Import ListNotations.
Local Open Scope N_scope.

(** The evaluator, as seen by library functions. *)
Definition evaluator := ref -> ref -> M (option ref).
Definition pops (l : list ref) : M unit := iterM pop l.

(** A value (NULL = [None]) and the text left. *)
Definition reading := M (option ref * list N).
(** A value made from the C string of a token, vm:3375-3409. *)
Definition read_text (mk : text -> data) (s l : list N) : reading :=
  t <- lift (via_cstr s) ;; r <- alloc (mk t) ;; ret (Some r, l).
Definition read_error (l : list N) : reading := r <- new_error ;; ret (Some r, l).

(** octaspire_dern_vm_parse_token, vm:3065-3460; the value [v] being built is on
    the stack while its elements are read ([read_list], vm:3107-3215).  The
    templated value of a back quote that is NULL is pushed and popped without
    anything in between, which is left out. *)
Fixpoint read_token (fuel : nat) (t : option token) (l : list N) : reading :=
  match fuel with
  | O => nofuel
  | S f =>
      match t with
      | None => ret (None, l)
      | Some tk =>
          match tk with
          | TLParen => v <- alloc (DVec []) ;; push v ;;; read_list f v l
          | TQuote =>
              v <- alloc (DVec []) ;; push v ;;;
              s <- alloc (DSym (asc "quote")) ;; vec_push v s ;;;
              p <- lift (lex l) ;; q <- read_token f (fst p) (snd p) ;;
              match fst q with
              | None => pop v ;;; ret (None, snd q)
              | Some x =>
                  e <- is_error x ;;
                  if (e : bool) then pop v ;;; ret (Some x, snd q)
                  else vec_push v x ;;; pop v ;;; ret (Some v, snd q)
              end
          | TBackQuote =>
              p <- lift (lex l) ;; q <- read_token f (fst p) (snd p) ;;
              match fst q with
              | None => ret (None, snd q)
              | Some x =>
                  push x ;;; d <- get x ;;
                  match d with
                  | DErr _ _ => pop x ;;; ret (Some x, snd q)
                  | DVec _ =>
                      s <- alloc (DSym (asc "template")) ;; push s ;;;
                      vs <- vec_of x ;; put x (DVec (s :: vs)) ;;;
                      pops [s; x] ;;; ret (Some x, snd q)
                  | _ =>
                      s <- alloc (DSym (asc "template")) ;; push s ;;;
                      v <- alloc (DVec []) ;; push v ;;; vec_push v s ;;; vec_push v x ;;; pop v ;;;
                      pops [s; x] ;;; ret (Some v, snd q)
                  end
              end
          | TTrue => r <- value_true ;; ret (Some r, l)
          | TFalse => r <- value_false ;; ret (Some r, l)
          | TNil => r <- value_nil ;; ret (Some r, l)
          | TInt z => r <- alloc (DInt z) ;; ret (Some r, l)
          | TReal x => r <- alloc (DReal x) ;; ret (Some r, l)
          | TString s => read_text DStr s l
          | TChar s => read_text DChar s l
          | TSymbol s => read_text DSym s l
          | TSemver a b c => r <- alloc (DSemver (mkSemver a b c [] [])) ;; ret (Some r, l)
          | TError => read_error l
          | TMore => ret (None, l)
          | TRParen => read_error l
          end
      end
  end
with read_list (fuel : nat) (v : ref) (l : list N) : reading :=
  match fuel with
  | O => nofuel
  | S f =>
      p <- lift (lex l) ;;
      match fst p with
      | None | Some TError => pop v ;;; read_error (snd p)
      | Some TRParen => pop v ;;; ret (Some v, snd p)
      | Some t =>
          q <- read_token f (Some t) (snd p) ;;
          match fst q with
          | None => pop v ;;; read_error (snd q)
          | Some x =>
              e <- is_error x ;;
              if (e : bool) then pop v ;;; ret (Some x, snd q)
              else vec_push v x ;;; read_list f v (snd q)
          end
      end
  end.
(** octaspire_dern_vm_parse, vm:3462-3477. *)
Definition read_value (l : list N) : reading :=
  p <- lift (lex l) ;; read_token (2 * List.length l + 2) (fst p) (snd p).

(** octaspire_dern_vm_eval_in_global_environment (vm:3478-3483) on a pointer that
    may be NULL (vm:3595-3625). *)
Definition eval_read_by (ev : evaluator) (o : option ref) : M (option ref) :=
  match o with
  | Some v => g <- read genv ;; ev v g
  | None =>
      qt <- read quit ;;
      if (qt : bool) then r <- alloc DNil ;; ret (Some r)
      else g <- read genv ;; d <- get g ;; match d with DEnv _ _ => ret None | _ => abort end
  end.
(** octaspire_dern_value_as_error_set_line_number, value:1817-1823. *)
Definition set_line (r : ref) (n : N) : M unit :=
  d <- get r ;; match d with DErr m _ => put r (DErr m n) | _ => abort end.

(** octaspire_dern_vm_read_from_octaspire_input_and_eval_in_global_environment,
    vm:4315-4375; [last] is lastGoodResult, [k] bounds the number of forms. *)
Definition leave (last : option ref) (r : option ref) : M (option ref) :=
  match last with
  | None => ret r
  | Some g => pop g ;;; ret (match r with None => Some g | Some _ => r end)
  end.
Fixpoint read_eval_loop_by (k : nat) (ev : evaluator) (i : input) (last result : option ref) : M (option ref) :=
  if input_good i then
    match k with
    | O => nofuel
    | S k' =>
        q <- read_value (rest i) ;;
        let i' := input_pops (List.length (rest i) - List.length (snd q)) i in
        r <- eval_read_by ev (fst q) ;;
        match r with
        | None => leave last None
        | Some x =>
            match last with Some g => pop g | None => ret tt end ;;;
            push x ;;; e <- is_error x ;;
            if (e : bool) then set_line x (N.of_nat (line i')) ;;; leave (Some x) (Some x)
            else read_eval_loop_by k' ev i' (Some x) (Some x)
        end
    end
  else leave last result.
Definition read_eval_by (ev : evaluator) (i : input) : M (option ref) :=
  if input_good i then read_eval_loop_by (List.length (rest i)) ev i None None
  else r <- new_error ;; ret (Some r).
