(** Base64 (RFC 4648, section 4). *)
From Coq Require Import List NArith String Ascii.
Import ListNotations.
Local Open Scope N_scope.

Definition alphabet : string := "ABCDEFGHIJKLMNOPQRSTUVWXYZabcdefghijklmnopqrstuvwxyz0123456789+/".
Definition digit64 (n : N) : N := match String.get (N.to_nat n) alphabet with Some c => N_of_ascii c | None => 0 end.
Definition pad64 : N := 61.
(** Three octets are 24 bits, written as four digits of six bits. *)
Fixpoint rfc4648 (l : list N) : list N :=
  match l with
  | [] => []
  | [a] => [digit64 (a / 4); digit64 (a mod 4 * 16); pad64; pad64]
  | [a; b] => [digit64 (a / 4); digit64 (a mod 4 * 16 + b / 16); digit64 (b mod 16 * 4); pad64]
  | a :: b :: c :: t =>
      [digit64 (a / 4); digit64 (a mod 4 * 16 + b / 16); digit64 (b mod 16 * 4 + c / 64); digit64 (c mod 64)] ++ rfc4648 t
  end.

Definition newline : N := 10.
Definition without_newlines (l : list N) : list N := filter (fun c => negb (c =? newline)) l.
(** Lines of exactly [n] characters, the last one shorter. *)
Definition in_lines (n : nat) (l : list N) : Prop :=
  exists ls rest, l = List.concat (map (fun x => x ++ [newline]) ls) ++ rest /\
    (forall x, In x ls -> List.length x = n /\ ~ In newline x) /\ (List.length rest < n)%nat /\ ~ In newline rest.
(** No line is longer than [n] characters. *)
Definition line_of (l x : list N) : Prop := exists a b, l = a ++ x ++ b /\ ~ In newline x.
Definition lines_within (n : nat) (l : list N) : Prop := forall x, line_of l x -> (List.length x <= n)%nat.
