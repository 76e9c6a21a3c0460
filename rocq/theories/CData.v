(** Model of C data, values that plug-ins make
    (/repo/dev/src/octaspire_dern_c_data.c), and of the copies of them vm:2096-2125
    and stdlib:12381-12425 make.  Allocation never fails.  The functions of a plug-in
    are functions here: they are deterministic and change nothing. *)
From Coq Require Import NArith ZArith Bool Lia String List.
From Verif Require Import Base Utf8 OString HMap Semver Heap ValueOps ToText.
Import ListNotations.
Local Open Scope N_scope.

(** struct octaspire_dern_c_data_t, c_data:32-47; the machine and the allocator are
    the same for all. *)
Record c_data := mkCData {
  pluginName : text; payloadType : text; payload : N; cleanUpName : text; lenName : text; linkAtName : text;
  copyAtName : text; toStringName : text; compareName : text; copyingAllowed : bool }.

(** octaspire_string_new of a C string. *)
Definition new_name (b : list N) : outcome text := octets_text (cstr b).
(** octaspire_dern_c_data_new, c_data:49-111. *)
Definition c_data_new (plugin type : list N) (p : N) (clean len linkAt copyAt toString compare : list N) (copying : bool) : outcome c_data :=
  obind (new_name plugin) (fun a => obind (new_name type) (fun b => obind (new_name clean) (fun c =>
  obind (new_name len) (fun d => obind (new_name linkAt) (fun e => obind (new_name copyAt) (fun f =>
  obind (new_name toString) (fun g => obind (new_name compare) (fun h => Ret (mkCData a b p c d e f g h copying))))))))).
(** octaspire_dern_c_data_new_copy, c_data:113-131: each name through its C string. *)
Definition c_data_copy (x : c_data) : outcome c_data :=
  obind (c_string_copy (pluginName x)) (fun a => obind (c_string_copy (payloadType x)) (fun b => obind (c_string_copy (cleanUpName x)) (fun c =>
  obind (c_string_copy (lenName x)) (fun d => obind (c_string_copy (linkAtName x)) (fun e => obind (c_string_copy (copyAtName x)) (fun f =>
  obind (c_string_copy (toStringName x)) (fun g => obind (c_string_copy (compareName x)) (fun h => Ret (mkCData a b (payload x) c d e f g h (copyingAllowed x)))))))))).
(** vm:2096-2125 and stdlib:12381-12420: an error (None) unless copying is allowed. *)
Definition value_copy (x : c_data) : outcome (option c_data) :=
  if copyingAllowed x then obind (c_data_copy x) (fun y => Ret (Some y)) else Ret None.

(** octaspire_string_is_equal. *)
Definition same_name (a b : text) : bool := str_is_equal (text_str a) (text_str b).
(** octaspire_dern_c_data_is_equal, c_data:203-225. *)
Definition c_data_is_equal (x y : c_data) : bool :=
  if negb (payload x =? payload y) then false
  else if same_name (pluginName x) (pluginName y) then false
  else if same_name (payloadType x) (payloadType y) then false
  else true.

(** octaspire_string_is_equal_to_c_string, A:6045-6069. *)
Definition is_c_string (t : text) (b : list N) : outcome bool :=
  match oct (str_ensure (text_str t)) with
  | [] => Ret (match cstr b with [] => true | _ => false end)
  | o => if last o 1 =? 0 then Ret (if list_eq_dec N.eq_dec (removelast o) (cstr b) then true else false) else Abort
  end.
(** octaspire_dern_c_data_is_plugin_and_payload_type_name, c_data:287-307. *)
Definition is_plugin_and_type (x : c_data) (plugin type : list N) : outcome bool :=
  obind (is_c_string (pluginName x) plugin) (fun a => if a then is_c_string (payloadType x) type else Ret false).

(** A library of the machine: of source text, or a binary one with its functions,
    which get two pieces of C data with their addresses and give a number (None: NULL). *)
Definition comparator := N * c_data -> N * c_data -> option Z.
Inductive plugin := SourceText | Binary (functions : text -> option comparator).
(** octaspire_dern_lib_dycall_2_const, lib:440-540: a library that is not binary
    gives NULL; for a function that does not exist the text of an error is given,
    which the caller reads as a number: undefined. *)
Definition dycall_2 (l : plugin) (name : text) (x y : N * c_data) : outcome (option Z) :=
  match l with
  | SourceText => Ret None
  | Binary functions => match functions name with Some f => Ret (f x y) | None => Undef end
  end.
(** octaspire_dern_c_data_compare, c_data:227-285; [x] and [y] with their addresses
    (the difference of unrelated pointers is taken as the difference of addresses). *)
Definition c_data_compare (libraries : text -> option plugin) (x y : N * c_data) : outcome Z :=
  obind (text_cmp (pluginName (snd x)) (pluginName (snd y))) (fun a =>
  if negb (a =? 0)%Z then Ret a else
  obind (text_cmp (payloadType (snd x)) (payloadType (snd y))) (fun b =>
  if negb (b =? 0)%Z then Ret b else
  match compareName (snd x) with
  | [] => Ret (of_cmp (fst x ?= fst y))
  | _ =>
      obind (c_string_copy (pluginName (snd x))) (fun p =>
      match libraries p with
      | None => Ret 0%Z
      | Some l => obind (c_string_copy (compareName (snd x))) (fun f => obind (dycall_2 l f x y) (fun r => match r with Some z => Ret z | None => Abort end))
      end)
  end)).
