(** Model of octaspire_input.c (A:8272-8484).  [rest] is the text from the
    current index on; the text already read is not kept (rewinding is not
    modelled). *)
From Coq Require Import List NArith ZArith Bool Lia Arith.
From Verif Require Import Base.
Import ListNotations.
Local Open Scope N_scope.

(** struct octaspire_input_t, A:8272-8279. *)
Record input := mkInput { rest : list N; index : nat; line : nat; column : nat }.

(** octaspire_input_new_from_buffer, A:8292-8321, given the decoded text. *)
Definition input_new (text : list N) : input := mkInput text 0 1 1.

(** octaspire_input_is_good, A:8433-8436. *)
Definition input_good (i : input) : bool := match rest i with [] => false | _ => true end.

(** octaspire_input_peek_next_ucs_character / _next_next_, A:8379-8401. *)
Definition input_peek (i : input) : N := match rest i with [] => 0 | c :: _ => c end.
Definition input_peek2 (i : input) : N := match rest i with _ :: c :: _ => c | _ => 0 end.

(** octaspire_input_pop_next_ucs_character, A:8403-8431. *)
Definition input_pop (i : input) : input * bool :=
  match rest i with
  | [] => (i, false)
  | c :: r =>
      (match r with
       | [] => mkInput r (S (index i)) (line i) (column i)
       | _ => if c =? 10 then mkInput r (S (index i)) (S (line i)) 1
              else mkInput r (S (index i)) (line i) (S (column i))
       end, true)
  end.

(** octaspire_input_push_back_from_c_string, A:8454-8458, given the decoded
    characters appended. *)
Definition input_push (i : input) (l : list N) : input :=
  mkInput (rest i ++ l) (index i) (line i) (column i).

(** [n] pops. *)
Fixpoint input_pops (n : nat) (i : input) : input :=
  match n with
  | O => i
  | S k => input_pops k (fst (input_pop i))
  end.
