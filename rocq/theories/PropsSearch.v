(** C89-C94: what the builtins that search, compare and convert give.  See SpecSearch.v
    (and [reader] in SpecBuiltin.v). *)
From Coq Require Import NArith ZArith Bool Lia Arith String List.
From Coq Require Import Floats.SpecFloat.
From Verif Require Import Base HMap Heap SpecHeap ValueOps Env Builtins Eval Read Boot Run Checks SafeBase SpecText SpecSeq SpecEdit SpecSplit SpecTrace SpecSpecial SpecForm SpecCall SpecDefine SpecEval SpecValue SpecPrint SpecBuiltin SpecWrite SpecSearch TraceProofs SpecialForms BuiltinProofs BuiltinCases PropsBuiltin SearchProofs FindProofs.
From Verif Require SpecStrtod Strtod StrtodRound StrtodProofs.
Import ListNotations.
Local Open Scope N_scope.
Local Open Scope string_scope.
Local Open Scope list_scope.

(** ** C89 *)
Theorem C89_max : exists p, named "max" p /\ reader p (best_result Gt).
Proof. exists BiMax. split; [library_name|exact max_reader]. Qed.
Print Assumptions C89_max.
Theorem C89_min : exists p, named "min" p /\ reader p (best_result Lt).
Proof. exists BiMin. split; [library_name|exact min_reader]. Qed.
Print Assumptions C89_min.
Example C89_max_case : a_case BiMax (fun _ xs _ r => match xs with [a; b; c; d] => (r =? b)%N && negb (b =? d)%N | _ => false end).
Proof. apply (arg_case _ _ "(define a as {D+2} [n]) (define b as {D+5} [n]) (define c as {D-7} [n]) (define d as {D+5} [n])" ["a"; "b"; "c"; "d"]). vm_compute. reflexivity. Qed.
Example C89_min_case : a_case BiMin (fun _ xs _ r => match xs with [a; b; c] => (r =? c)%N | _ => false end).
Proof. apply (arg_case _ _ "(define a as [ab] [n]) (define b as [b] [n]) (define c as [aa] [n])" ["a"; "b"; "c"]). vm_compute. reflexivity. Qed.
(** Of integers that differ by less than 2^31. *)
Theorem C89_max_integers : forall n m a env xs s r s' zs lo, arguments s a env xs -> builtin_call n (Eval.eval m) BiMax a env s = Ret (r, s') ->
  (2 <= List.length xs)%nat -> Forall2 (fun x z => data_at s x = Some (DInt z)) xs zs ->
  Forall (fun z => lo <= z <= lo + INT32_MAX)%Z zs ->
  exists z, In z zs /\ (forall w, In w zs -> (w <= z)%Z) /\ In r xs /\ data_at s r = Some (DInt z).
Proof.
  intros n m a env xs s r s' zs lo A E L F W. destruct (max_reader _ _ _ _ _ _ _ _ A E) as (_ & R).
  destruct xs as [|x0 [|x1 xs]]; try (cbn in L; lia). cbn [best_result] in R. revert R.
  generalize (x0 :: x1 :: xs) F. clear - W. intros xs F R. destruct R as (J & R).
  assert (K : forall x z, data_at s x = Some (DInt z) -> denotes (all s) x (TInt z)).
  { unfold data_at. intros x z D. destruct (lookup (all s) x) as [c|] eqn:C; [|discriminate]. cbn in D. injection D as D. exact (den_int (all s) x c z C D). }
  assert (G : Forall2 (denotes (all s)) xs (map TInt zs)). { clear - F K. induction F; cbn [map]; constructor; auto. }
  destruct (R lo _ G) as (l & u & t & X & D & B & C).
  { clear - W. induction W; cbn [map]; constructor; auto. }
  assert (M : forall x, In x xs -> exists z, In z zs /\ data_at s x = Some (DInt z)).
  { clear - F. induction F as [|x z l l' D F IH]; intros y J; [contradiction|]. destruct J as [<-|J]; [exists z; split; [now left|assumption]|]. destruct (IH y J) as (w & I & D'). exists w. split; [now right|assumption]. }
  destruct (M r J) as (z & I & Dr). exists z. split; [assumption|]. split; [|now split].
  assert (t = TInt z) as ->.
  { unfold data_at in Dr. destruct (lookup (all s) r) as [c|] eqn:Cr; [|discriminate]. cbn in Dr. injection Dr as Dr. clear - D Cr Dr. inversion D; subst; rewrite Cr in *; congruence. }
  intros w Jw.
  assert (exists x, In x xs /\ data_at s x = Some (DInt w)) as (x & Jx & Dx).
  { clear - F Jw. induction F as [|x z l l' D F IH]; [contradiction|]. destruct Jw as [->|J]; [exists x; split; [now left|assumption]|]. destruct (IH J) as (y & I & D'). exists y. split; [now right|assumption]. }
  rewrite X in Jx. apply in_app_iff in Jx as [Jx|[Jx|Jx]].
  - specialize (B x _ Jx (K x w Dx)). cbn in B. apply Z.compare_lt_iff in B. apply Z.lt_le_incl. exact B.
  - subst x. rewrite Dr in Dx. injection Dx as ->. lia.
  - specialize (C x _ Jx (K x w Dx)). cbn in C. destruct (Z.compare_spec w z); try lia. congruence.
Qed.
Print Assumptions C89_max_integers.

(** ** C90: to-string *)
Theorem C90_to_string_partial : exists p, named "to-string" p /\ reader p to_string_result.
Proof. exists BiToString. split; [library_name|exact to_string_reader]. Qed.
Print Assumptions C90_to_string_partial.
Example C90_case : a_case BiToString (gives_data (fun d => match d with DStr t => text_eqb t (asc "{D-12}(a [b] |newline| (true))") | _ => false end)).
Proof. apply (arg_case _ _ "(define a as {D-12} [n]) (define b as '(a [b] |newline| (true)) [n])" ["a"; "b"]). vm_compute. reflexivity. Qed.
Example C90_map_case : a_case BiToString (gives_data (fun d => match d with DStr t => text_eqb t (asc "(hash-map k nil)") | _ => false end)).
Proof. apply (arg_case _ _ "(define a as (hash-map 'k nil) [n])" ["a"]). vm_compute. reflexivity. Qed.

(** ** C91: conversions of numbers *)
Theorem C91_to_integer : exists p, named "to-integer" p /\ reader p to_integer_result.
Proof. exists BiToInteger. split; [library_name|exact to_integer_reader]. Qed.
Print Assumptions C91_to_integer.
Theorem C91_to_real : exists p, named "to-real" p /\ reader p to_real_result.
Proof. exists BiToReal. split; [library_name|exact to_real_reader]. Qed.
Print Assumptions C91_to_real.
(** Every text has exactly one leading real, and it is the double nearest to the number
    that is spelled. *)
Theorem C91_leading_real : forall t, exists f, SpecStrtod.leading_real t f /\ forall g, SpecStrtod.leading_real t g -> g = f.
Proof. intros t. exists (Strtod.strtod t). split; [apply StrtodProofs.strtod_sound|]. intros g G. symmetry. now apply StrtodProofs.strtod_leading. Qed.
Theorem C91_nearest : forall neg v f, (0 < snd v)%Z -> SpecStrtod.rounded neg v f ->
  match f with
  | S754_finite s m e => s = neg /\ SpecStrtod.a_double (Zpos m) e /\
      forall m' e', SpecStrtod.a_double m' e' -> SpecReal.at_most (SpecStrtod.distance_from v (Zpos m) e) (SpecStrtod.distance_from v m' e')
  | S754_zero s => s = neg /\ forall m' e', SpecStrtod.a_double m' e' -> SpecReal.at_most (SpecStrtod.distance_from v 0 0) (SpecStrtod.distance_from v m' e')
  | S754_infinity s => s = neg
  | S754_nan => False
  end.
Proof. exact StrtodRound.rounded_nearest. Qed.
Print Assumptions C91_leading_real.
Print Assumptions C91_nearest.
Example C91_leading_cases :
  SpecStrtod.leading_real (asc " -12.5e-1.x") (S754_finite true 5629499534213120 (-52)) /\ SpecStrtod.leading_real (asc "0x.8p+1z") (S754_finite false 4503599627370496 (-52)) /\
  SpecStrtod.leading_real (asc ".1") (S754_finite false 7205759403792794 (-56)) /\ SpecStrtod.leading_real (asc "0xg") (S754_zero false) /\ SpecStrtod.leading_real (asc "-0") (S754_zero true) /\
  SpecStrtod.leading_real (asc "1e309") (S754_infinity false) /\ SpecStrtod.leading_real (asc "-Infinit") (S754_infinity true) /\ SpecStrtod.leading_real (asc "NaN") S754_nan /\ SpecStrtod.leading_real (asc "+-1") (S754_zero false) /\
  SpecStrtod.leading_real (asc "5e-324") (S754_finite false 1 (-1074)) /\ SpecStrtod.leading_real (asc "2e-324") (S754_zero false).
Proof. repeat (split; [apply StrtodProofs.strtod_leading; vm_compute; reflexivity|]). apply StrtodProofs.strtod_leading; vm_compute; reflexivity. Qed.
Example C91_to_real_text_case : a_case BiToReal (gives_data (fun d => match d with DReal f => SFeqb f (S754_finite true 5629499534213120 (-52)) | _ => false end)).
Proof. apply (arg_case _ _ "(define a as [ -1.25kg] [n])" ["a"]). vm_compute. reflexivity. Qed.
Theorem C91_character : exists p, named "character" p /\ reader p character_result.
Proof. exists BiCharacter. split; [library_name|exact character_reader]. Qed.
Print Assumptions C91_character.
Example C91_to_integer_case : a_case BiToInteger (gives_data (is_int_b (-42))).
Proof. apply (arg_case _ _ "(define a as [ -42kg] [n])" ["a"]). vm_compute. reflexivity. Qed.
Example C91_to_integer_real_case : a_case BiToInteger (gives_data (is_int_b (-2))).
Proof. apply (arg_case _ _ "(define a as {D-2.75} [n])" ["a"]). vm_compute. reflexivity. Qed.
Example C91_to_real_case : a_case BiToReal (gives_data (fun d => match d with DReal f => SFeqb f (of_int 3) | _ => false end)).
Proof. apply (arg_case _ _ "(define a as {D+3} [n])" ["a"]). vm_compute. reflexivity. Qed.
Example C91_character_case : a_case BiCharacter (gives_data (fun d => match d with DChar [97] => true | _ => false end)).
Proof. apply (arg_case _ _ "(define a as {D+97} [n])" ["a"]). vm_compute. reflexivity. Qed.

(** ** C92: distance, sqrt, starts-with? *)
Theorem C92_distance : exists p, named "distance" p /\ reader p distance_result.
Proof. exists BiDistance. split; [library_name|exact distance_reader]. Qed.
Print Assumptions C92_distance.
Theorem C92_sqrt : exists p, named "sqrt" p /\ reader p sqrt_result.
Proof. exists BiSqrt. split; [library_name|exact sqrt_reader]. Qed.
Print Assumptions C92_sqrt.
Theorem C92_starts_with : exists p, named "starts-with?" p /\ reader p starts_result.
Proof. exists BiStartsWith. split; [library_name|exact starts_with_reader]. Qed.
Print Assumptions C92_starts_with.
Example C92_distance_case : a_case BiDistance (gives_data (is_int_b 3)).
Proof. apply (arg_case _ _ "(define a as [kitten] [n]) (define b as [sitting] [n])" ["a"; "b"]). vm_compute. reflexivity. Qed.
Example C92_sqrt_case : a_case BiSqrt (gives_data (fun d => match d with DReal f => SFeqb f (of_int 12) | _ => false end)).
Proof. apply (arg_case _ _ "(define a as {D+144} [n])" ["a"]). vm_compute. reflexivity. Qed.
Example C92_starts_case : a_case BiStartsWith (gives_data (is_bool_b true)).
Proof. apply (arg_case _ _ "(define a as [abc] [n]) (define b as [ab] [n])" ["a"; "b"]). vm_compute. reflexivity. Qed.
Example C92_starts_case2 : a_case BiStartsWith (gives_data (is_bool_b false)).
Proof. apply (arg_case _ _ "(define a as [abc] [n]) (define b as [ab] [n])" ["b"; "a"]). vm_compute. reflexivity. Qed.

(** ** C93: find *)
Theorem C93_find : exists p, named "find" p /\ reader p find_result.
Proof. exists BiFind. split; [library_name|exact find_reader]. Qed.
Print Assumptions C93_find.
Example C93_text_case : a_case BiFind (fun _ _ s' r => match data_at s' r with Some (DVec l) => match ints_of s' l with [0; 1; 4]%Z => true | _ => false end | _ => false end).
Proof. apply (arg_case _ _ "(define a as [aaabaa] [n]) (define b as [aa] [n])" ["a"; "b"]). vm_compute. reflexivity. Qed.
Example C93_vector_case : a_case BiFind (fun _ _ s' r => match data_at s' r with Some (DVec l) => match ints_of s' l with [0; 3]%Z => true | _ => false end | _ => false end).
Proof. apply (arg_case _ _ "(define a as '({D+1} {D+2} [x] {D+1}) [n]) (define b as {D+1} [n])" ["a"; "b"]). vm_compute. reflexivity. Qed.
Example C93_map_case : a_case BiFind (fun _ _ s' r => match data_at s' r with Some (DVec [a; b]) => match data_at s' a, data_at s' b with Some (DInt 2), Some DNil => true | _, _ => false end | _ => false end).
Proof. apply (arg_case _ _ "(define a as (hash-map 'k {D+2}) [n]) (define b as 'k [n]) (define c as 'l [n])" ["a"; "b"; "c"]). vm_compute. reflexivity. Qed.
Example C93_real_case : a_case BiFind (fun _ _ s' r => match data_at s' r with Some (DVec l) => match ints_of s' l with [1; 7]%Z => true | _ => false end | _ => false end).
Proof. apply (arg_case _ _ "(define a as [x0.5, -0.5] [n]) (define b as {D+0.5} [n])" ["a"; "b"]). vm_compute. reflexivity. Qed.

(** ** C94: split *)
Theorem C94_split : exists p, named "split" p /\ reader p split_result.
Proof. exists BiSplit. split; [library_name|exact split_reader]. Qed.
Print Assumptions C94_split.
Definition strings_of (s : vm) (l : list ref) : list text := flat_map (fun x => match data_at s x with Some (DStr z) => [z] | _ => [] end) l.
Example C94_case : a_case BiSplit (fun _ _ s' r => match data_at s' r with Some (DVec l) => match strings_of s' l with [[97; 98]; [99]] => true | _ => false end | _ => false end).
Proof. apply (arg_case _ _ "(define a as [ab,c] [n]) (define b as |,| [n])" ["a"; "b"]). vm_compute. reflexivity. Qed.
