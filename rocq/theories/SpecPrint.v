(** What printing a value gives. *)
From Coq Require Import String List NArith ZArith Bool.
From Coq Require Import Floats.SpecFloat.
From Verif Require Import Base SpecText OString Semver HMap Heap Env SpecValue SpecDefine SpecReal.
Import ListNotations.
Local Open Scope list_scope.
Local Open Scope N_scope.

(** An integer as the reader takes it. *)
Inductive int_text (z : Z) : text -> Prop :=
| int_plus u : (0 <= z)%Z -> numeral (Z.to_N z) u -> int_text z (asc "{D+" ++ u ++ asc "}")
| int_minus u : (z < 0)%Z -> numeral (Z.to_N (- z)) u -> int_text z (asc "{D-" ++ u ++ asc "}").
(** A real as the reader takes it; the sign is put before what "%g" gives if the
    number is not negative (so minus zero has two). *)
Definition nonnegative (f : spec_float) : bool := match f with S754_zero _ | S754_infinity false | S754_finite false _ _ => true | _ => false end.
Definition braced_real (f : spec_float) (u : text) : text := asc "{D" ++ (if nonnegative f then asc "+" else []) ++ u ++ asc "}".
(** Three characters have names. *)
Inductive char_text (t : text) : text -> Prop :=
| char_bar : t = [124] -> char_text t (asc "|bar|")
| char_newline : t = [10] -> char_text t (asc "|newline|")
| char_tab : t = [9] -> char_text t (asc "|tab|")
| char_plain : t <> [124] -> t <> [10] -> t <> [9] -> char_text t (asc "|" ++ t ++ asc "|").
(** Version: numbers, "-" and the pre-release identifiers, "+" and the build
    identifiers; dots between identifiers. *)
Inductive ident_shown : ident -> text -> Prop :=
| shown_num n u : numeral n u -> ident_shown (INum n) u
| shown_lex s : ident_shown (ILex s) s.
(** The texts with [sep] between them. *)
Definition separated (sep : text) (l : list text) : text :=
  match l with
  | [] => []
  | a :: t => a ++ List.concat (List.map (fun b => sep ++ b) t)
  end.
Inductive version_text (v : semver) : text -> Prop :=
| version_shown a b c p : numeral (major v) a -> numeral (minor v) b -> numeral (patch v) c -> Forall2 ident_shown (pre v) p ->
    version_text v (separated (asc ".") [a; b; c] ++ (match p with [] => [] | _ => asc "-" ++ separated (asc ".") p end)
                    ++ match build v with [] => [] | q => asc "+" ++ separated (asc ".") q end).

(** [shown rd plain h r u]: the value [r] prints as [u] on a machine whose
    print-readably is [rd]; [plain]: as the text of an argument of string-format,
    which makes a difference for strings and characters.  Texts pass through C
    strings.  Entries of hash maps stand on lines of their own.  Functions and
    macros print their names.  (Environments, builtins and NaNs are not here.) *)
Definition line_break : text := 10 :: asc "          ".
Inductive shown (rd : bool) : bool -> heap -> ref -> text -> Prop :=
| show_nil p h r c : lookup h r = Some c -> cdata c = DNil -> shown rd p h r (asc "nil")
| show_true p h r c : lookup h r = Some c -> cdata c = DBool true -> shown rd p h r (asc "true")
| show_false p h r c : lookup h r = Some c -> cdata c = DBool false -> shown rd p h r (asc "false")
| show_int p h r c z u : lookup h r = Some c -> cdata c = DInt z -> (if rd then int_text z u else signed_text z u) -> shown rd p h r u
| show_real p h r c f u : lookup h r = Some c -> cdata c = DReal f -> real_text f u -> shown rd p h r (if rd then braced_real f u else u)
| show_str p h r c t t' : lookup h r = Some c -> cdata c = DStr t -> through_c t t' -> shown rd p h r (if p || negb rd then t' else asc "[" ++ t' ++ asc "]")
| show_char p h r c t t' u : lookup h r = Some c -> cdata c = DChar t -> through_c t t' -> (if p || negb rd then u = t' else char_text t' u) -> shown rd p h r u
| show_sym p h r c t t' : lookup h r = Some c -> cdata c = DSym t -> through_c t t' -> shown rd p h r t'
| show_err p h r c t n t' : lookup h r = Some c -> cdata c = DErr t n -> through_c t t' -> shown rd p h r (asc "<error>: " ++ t')
| show_semver p h r c v u : lookup h r = Some c -> cdata c = DSemver v -> version_text v u -> shown rd p h r u
| show_fun p h r c f t' : lookup h r = Some c -> cdata c = DFun f -> through_c (fname f) t' -> shown rd p h r t'
| show_mac p h r c f t' : lookup h r = Some c -> cdata c = DMac f -> through_c (fname f) t' -> shown rd p h r (asc "macro " ++ t')
| show_vec p h r c l us : lookup h r = Some c -> cdata c = DVec l -> Forall2 (shown rd false h) l us -> shown rd p h r (asc "(" ++ separated (asc " ") us ++ asc ")")
| show_queue p h r c l m us : lookup h r = Some c -> cdata c = DQueue l m -> Forall2 (shown rd false h) l us -> shown rd p h r (asc "(queue " ++ separated (asc " ") us ++ asc ")")
| show_list p h r c l us : lookup h r = Some c -> cdata c = DList l -> Forall2 (shown rd false h) l us -> shown rd p h r (asc "(list " ++ separated (asc " ") us ++ asc ")")
| show_map p h r c m us : lookup h r = Some c -> cdata c = DMap m ->
    Forall2 (shown_entry rd h) (firstn (numElements m) (List.concat (buckets m))) us ->
    shown rd p h r (asc "(hash-map " ++ separated line_break us ++ asc ")")
with shown_entry (rd : bool) : heap -> element ref ref -> text -> Prop :=
| show_entry h e v ku vu : evals e = [v] -> shown rd false h (ekey e) ku -> shown rd false h v vu -> shown_entry rd h e (ku ++ asc " " ++ vu).
