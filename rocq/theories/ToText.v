(** Model of octaspire_dern_private_value_to_string (value:1290-1695) on values
    in the heap: [rd] is the machine's printReadably, [plain] the flag of
    octaspire_dern_value_to_string_plain, which concerns the value itself but not
    what it contains.  The texts of NaNs (RealText.v), environments, specials and
    builtins are not modelled (NoFuel).  The texts of the elements of a collection
    are appended as they are: C copies them by way of their C strings, which
    changes nothing because they come from C strings themselves. *)
From Coq Require Import NArith ZArith Bool Lia String List.
From Coq Require Import Floats.SpecFloat.
From Verif Require Import Base OString Semver HMap Heap ValueOps Env RealText.
From Verif Require Printer.
Import ListNotations.
Local Open Scope N_scope.

(** A string made from the C string of [s]: octaspire_string_new and "%s". *)
Definition c_string_copy (s : text) : outcome text :=
  obind (str_get_c_string (text_str s)) (fun p =>
    match str_from_buffer (cstr (snd p)) with Some o => Ret (ucs o) | None => NoFuel end).

(** octaspire_string_new_from_buffer: the characters before the first octet that
    cannot be decoded. *)
Definition octets_text (b : list N) : outcome text :=
  match str_from_buffer b with Some o => Ret (ucs o) | None => NoFuel end.

Fixpoint omap {X Y} (f : X -> outcome Y) (l : list X) : outcome (list Y) :=
  match l with
  | [] => Ret []
  | x :: t => obind (f x) (fun y => obind (omap f t) (fun r => Ret (y :: r)))
  end.
(** The texts of the entries of a hash map, separated by newlines, value:1462-1525. *)
Fixpoint join_lines (l : list text) : text :=
  match l with
  | [] => []
  | [a] => a
  | a :: t => a ++ 10 :: asc "          " ++ join_lines t
  end.
(** "%d", value:1320-1332. *)
Definition signed_decimal (z : Z) : text :=
  if (0 <=? z)%Z then Printer.decimal (Z.to_N z) else 45 :: Printer.decimal (Z.to_N (- z)).
(** The sign before a number, and "%g", value:1338-1352. *)
Definition print_real (rd : bool) (f : spec_float) : outcome text :=
  obind (g_text f) (fun t =>
    Ret (if rd then (if SFleb (S754_zero false) f then asc "{D+" else asc "{D") ++ t ++ [125] else t)).
Fixpoint to_text (rd plain : bool) (fuel : nat) (h : heap) (r : ref) : outcome text :=
  match fuel with
  | O => NoFuel
  | S f =>
      let each l := omap (to_text rd false f h) l in
      match lookup h r with
      | None => Dangling
      | Some c =>
          match cdata c with
          | DNil => Ret (asc "nil")
          | DBool b => Ret (asc (if b then "true" else "false"))
          | DInt z => Ret (if rd then Printer.print_int z else signed_decimal z)
          | DReal x => print_real rd x
          | DStr s => obind (c_string_copy s) (fun t => Ret (if plain || negb rd then t else [91] ++ t ++ [93]))
          | DSemver v => Ret (semver_text v)
          | DChar s => obind (c_string_copy s) (fun t => Ret (if plain || negb rd then t else Printer.print_char t))
          | DSym s => c_string_copy s
          | DErr m _ => obind (c_string_copy m) (fun t => Ret (asc "<error>: " ++ t))
          | DVec l => obind (each l) (fun ts => Ret ([40] ++ Printer.join ts ++ [41]))
          | DMap m =>
              obind (omap (fun i => match map_get_at_index m (Z.of_nat i) with
                                    | Some e =>
                                        obind (to_text rd false f h (ekey e)) (fun k =>
                                        obind (single e) (fun v =>
                                        obind (to_text rd false f h v) (fun t => Ret (k ++ [32] ++ t))))
                                    | None => Abort
                                    end) (seq 0 (numElements m)))
                    (fun ts => Ret (asc "(hash-map " ++ join_lines ts ++ [41]))
          | DQueue l _ => obind (each l) (fun ts => Ret (asc "(queue " ++ Printer.join ts ++ [41]))
          | DList l => obind (each l) (fun ts => Ret (asc "(list " ++ Printer.join ts ++ [41]))
          | DFun g => c_string_copy (fname g)
          | DMac g => obind (c_string_copy (fname g)) (fun t => Ret (asc "macro " ++ t))
          | DEnv _ _ | DSpecial _ | DBuiltin _ => NoFuel
          end
      end
  end.
