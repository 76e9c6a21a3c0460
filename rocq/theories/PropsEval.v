(** C46, C54, C57-C59, C61-C64: evaluation. *)
From Coq Require Import NArith ZArith Bool Lia Arith String List.
From Coq Require Import ZifyBool ZifyNat ZifyN.
From Verif Require Import Base Input Lexer LexerProofs HMap Heap SpecHeap GcProofs VmProofs ValueOps Env Copy Builtins Specials Eval Read Boot Run SpecEnv SpecEval EnvProofs.
Import ListNotations.
Local Open Scope N_scope.
Local Open Scope string_scope.

(** ** Concrete programs that refute properties as stated *)

(** The value of (return x) is not protected from the collector: here it is freed
    before the function returns it. *)
Theorem C46_pending_return_refuted :
  run_text (with_limit machine 1)
    "(define f as (fn () (+ (len (return (vector {D+1}))) (len (vector {D+3} {D+4})))) [f] '() howto-ok) (f)" = Dangling.
Proof. vm_compute. reflexivity. Qed.
Print Assumptions C46_pending_return_refuted.

(** A (return x) outside a function stays pending and ends a later call. *)
Definition with_stale_return : vm := after_text machine "(return {D+1}) ".
Theorem C54_stale_return_refuted :
  let program := "(define f as (fn () {D+8} {D+2}) [f] '() howto-ok) (f)" in
  value_of_text program = Ret (Some (DInt 2)) /\
  contents (run_text with_stale_return program) = Ret (Some (DInt 1)).
Proof. vm_compute. auto. Qed.
Print Assumptions C54_stale_return_refuted.

(** (- s t) removes t from the string s itself. *)
Theorem C59_minus_modifies_refuted :
  value_of_text "(define s as [abc] [d]) (- s [b]) s" = Ret (Some (DStr (asc "ac"))).
Proof. vm_compute. reflexivity. Qed.
Print Assumptions C59_minus_modifies_refuted.

(** A literal in the body of a function is the value itself: changing the result
    of one call changes the literal. *)
Theorem C61_literal_changes_refuted :
  let program := "(define f as (fn () [abc]) [f] '() howto-ok) " in
  value_of_text (program ++ "(f)") = Ret (Some (DStr (asc "abc"))) /\
  value_of_text (program ++ "(+= (f) [x]) (f)") = Ret (Some (DStr (asc "abcx"))) /\
  value_of_text "(define g as (fn () {D+1}) [g] '() howto-ok) (++ (g)) (g)" = Ret (Some (DInt 2)).
Proof. vm_compute. auto. Qed.
Print Assumptions C61_literal_changes_refuted.

(** An error in an operand of and/or is dropped. *)
Theorem C62_error_dropped_refuted :
  value_of_text "(and (nope) true)" = Ret (Some (DBool true)) /\
  value_of_text "(or (nope) false)" = Ret (Some (DBool false)).
Proof. vm_compute. auto. Qed.
Print Assumptions C62_error_dropped_refuted.

(** Every argument is compared with the first one only. *)
Theorem C63_chain_refuted :
  value_of_text "(< {D+1} {D+3} {D+2})" = Ret (Some (DBool true)) /\
  value_of_text "(>= {D+3} {D+1} {D+2})" = Ret (Some (DBool true)).
Proof. vm_compute. auto. Qed.
Print Assumptions C63_chain_refuted.

(** ** C57 *)

(** After exit, evaluating anything is the allocation of a nil: what the stack
    can reach, the bindings, the exit code, what has been printed and everything else stays
    as it is. *)
Theorem C57_nothing_after_exit : forall fuel v env s o s', ids_ok s -> quit s = true ->
  eval fuel v env s = Ret (o, s') ->
  exists r, o = Some r /\ holds (all s') r DNil /\ lookup (all s) r = None /\
    (forall x c, reachable (all s) (stack s) x -> lookup (all s) x = Some c -> lookup (all s') x = Some c) /\
    stack s' = stack s /\ genv s' = genv s /\ fret s' = fret s /\ quit s' = true /\ exitCode s' = exitCode s /\
    readably s' = readably s /\ output s' = output s /\ ids_ok s'.
Proof.
  intros fuel v env s o s' OK Q E. destruct fuel as [|[|f]]; try discriminate.
  cbn [eval eval_loop] in E. apply bind_ret in E as (p & s1 & E1 & E2). unfold eval_impl in E1.
  apply bind_ret in E1 as (b & s2 & EQ & E1). injection EQ as <- <-. rewrite Q in E1.
  apply bind_ret in E1 as (r & s3 & E1 & E3). injection E3 as <- <-. injection E2 as <- <-.
  destruct (alloc_ret _ _ _ _ OK E1) as [A1 A2 A3 A4 (a & A5) A6 A7 (A8 & A9 & A10 & A11 & A12 & A13)].
  exists r. rewrite A2, A8, A9, A10, A11, A12, A13. split; [reflexivity|]. split; [eexists; split; [exact A5|reflexivity]|]. split; [|auto 10].
  destruct (lookup (all s) r) as [c|] eqn:L; [|reflexivity]. apply (lookup_in _ _ _ (proj1 (proj1 OK))), (proj2 OK) in L. lia.
Qed.
Print Assumptions C57_nothing_after_exit.
(** Such a state: the machine after a text that calls exit. *)
Example C57_witness :
  let s := after_text machine "(define x as {D+5} [x]) (exit {D+3}) " in
  quit s = true /\ exitCode s = 3%Z /\
  contents (run_text s "(= x {D+6}) ") = Ret (Some DNil) /\
  match run_text s "(= x {D+6}) ", env_get (genv s) (asc "x") s with
  | Ret (_, s'), Ret (Some r, _) => option_map cdata (lookup (all s') r) = Some (DInt 5)
  | _, _ => False
  end.
Proof. vm_compute. auto. Qed.

(** ** C58 *)
Lemma fits_int32 z : fits z -> int32_op z = Ret z.
Proof. unfold fits, int32_op, in_int32, INT32_MIN, INT32_MAX. intros H. now replace _ with true by lia. Qed.
Lemma arith_ints o : forall l zs s z0 f, Forall2 (int_at (all s)) l zs ->
  (forall n, fits (fold_left (z_arith o) (firstn n zs) z0)) ->
  arith_each o l true z0 f s = alloc (DInt (fold_left (z_arith o) zs z0)) s.
Proof.
  induction l as [|x l IH]; intros zs s z0 f H F; inversion H as [|? z ? zs' (c & L & E) H']; subst; [reflexivity|].
  cbn [arith_each]. rewrite (bind_ok _ _ _ (DInt z) s) by (apply get_ret; eauto).
  pose proof (F 1%nat) as F1. cbn in F1. rewrite (bind_ok _ _ _ (z_arith o z0 z) s) by (unfold lift; rewrite (fits_int32 _ F1); reflexivity).
  cbn [fold_left]. apply IH; [exact H'|]. intros n. apply (F (S n)).
Qed.
Lemma fold_sum zs : forall z, fold_left Z.add zs z = (z + sum zs)%Z.
Proof. induction zs as [|y zs IH]; intros z; cbn; [lia|]. rewrite IH. unfold sum. lia. Qed.
Lemma fold_minus zs : forall z, fold_left Z.sub zs z = (z - sum zs)%Z.
Proof. induction zs as [|y zs IH]; intros z; cbn; [lia|]. rewrite IH. unfold sum. lia. Qed.
Lemma fold_product zs : forall z, fold_left Z.mul zs z = (z * product zs)%Z.
Proof. induction zs as [|y zs IH]; intros z; cbn; [lia|]. rewrite IH. unfold product. lia. Qed.

(** The argument vector [a] holds the integers [zs].  If every partial result
    fits, the call is the allocation of the integer that is the mathematical
    result. *)
Theorem C58_plus_partial : forall fuel ev a env zs s, ints_at (all s) a zs ->
  (forall n, fits (sum (firstn n zs))) ->
  builtin_call fuel ev BiPlus a env s = alloc (DInt (sum zs)) s.
Proof.
  intros fuel ev a env zs s (l & V & H) F. cbn [builtin_call]. unfold b_plus, plus_numerical.
  rewrite (bind_ok _ _ _ l s) by now apply vec_of_at.
  assert (K : plus_numerical a s = alloc (DInt (sum zs)) s).
  { unfold plus_numerical. rewrite (bind_ok _ _ _ l s) by now apply vec_of_at. rewrite (arith_ints AAdd l zs); auto; [now rewrite fold_sum|].
    intros n. cbn. rewrite fold_sum. apply F. }
  inversion H as [|x z l' zs' (c & L & E) H']; subst; [exact K|].
  rewrite (bind_ok _ _ _ (DInt z) s) by (apply get_ret; eauto). exact K.
Qed.
Print Assumptions C58_plus_partial.
Theorem C58_times_partial : forall fuel ev a env zs s, ints_at (all s) a zs ->
  (forall n, fits (product (firstn n zs))) ->
  builtin_call fuel ev BiTimes a env s = alloc (DInt (product zs)) s.
Proof.
  intros fuel ev a env zs s (l & V & H) F. cbn [builtin_call]. unfold b_times.
  rewrite (bind_ok _ _ _ l s) by now apply vec_of_at. rewrite (arith_ints AMul l zs); auto; [rewrite fold_product; do 2 f_equal; lia|].
  intros n. cbn. rewrite fold_product. replace (1 * _)%Z with (product (firstn n zs)) by lia. apply F.
Qed.
Print Assumptions C58_times_partial.
(** With one argument - is negation; with more it subtracts the others from the
    first. *)
Theorem C58_minus_partial : forall fuel ev a env z zs s, ints_at (all s) a (z :: zs) ->
  let result := match zs with [] => (- z)%Z | _ => (z - sum zs)%Z end in
  fits z -> fits result -> (forall n, fits (z - sum (firstn n zs))) ->
  builtin_call fuel ev BiMinus a env s = alloc (DInt result) s.
Proof.
  intros fuel ev a env z zs s (l & V & H) result F0 F1 F. cbn [builtin_call]. unfold b_minus.
  inversion H as [|x z' l' zs' (c & L & E) H']; subst.
  rewrite (bind_ok _ _ _ (x :: l') s) by now apply vec_of_at.
  rewrite (bind_ok _ _ _ (DInt z) s) by (apply get_ret; eauto).
  unfold minus_numerical. rewrite (bind_ok _ _ _ (x :: l') s) by now apply vec_of_at. unfold result in *.
  inversion H' as [|x2 z2 l2 zs2 (c2 & L2 & E2) H2]; subst.
  - rewrite (bind_ok _ _ _ (DInt z) s) by (apply get_ret; eauto).
    rewrite (bind_ok _ _ _ (- z)%Z s) by (unfold lift; rewrite (fits_int32 _ F1); reflexivity). reflexivity.
  - rewrite (bind_ok _ _ _ (DInt z) s) by (apply get_ret; eauto).
    rewrite (arith_ints ASub _ (z2 :: zs2)); auto; [change (z_arith ASub) with Z.sub; now rewrite (fold_minus (z2 :: zs2) z)|].
    intros n. cbn [z_arith]. rewrite fold_minus. apply F.
Qed.
Print Assumptions C58_minus_partial.
(** For two integers, and for any number of summands of one sign, it is enough
    that the result fits. *)
Theorem C58_two_partial : forall fuel ev a env x y s, ints_at (all s) a [x; y] -> fits x -> fits y ->
  (fits (x + y) -> builtin_call fuel ev BiPlus a env s = alloc (DInt (x + y)) s) /\
  (fits (x - y) -> builtin_call fuel ev BiMinus a env s = alloc (DInt (x - y)) s) /\
  (fits (x * y) -> builtin_call fuel ev BiTimes a env s = alloc (DInt (x * y)) s).
Proof.
  intros fuel ev a env x y s H FX FY. assert (F0 : fits 0) by (unfold fits; lia). assert (F1 : fits 1) by (unfold fits; lia). repeat split; intros F.
  - rewrite (C58_plus_partial _ _ _ _ [x; y]); auto; [cbn; do 2 f_equal; lia|].
    intros [|[|[|n]]]; cbn; auto; try (replace (x + 0)%Z with x by lia; assumption); replace (x + (y + 0))%Z with (x + y)%Z by lia; assumption.
  - rewrite (C58_minus_partial _ _ _ _ x [y]); auto; [cbn; do 2 f_equal; lia|cbn; replace (x - (y + 0))%Z with (x - y)%Z by lia; assumption|].
    intros [|[|n]]; cbn; try (replace (x - 0)%Z with x by lia; assumption); replace (x - (y + 0))%Z with (x - y)%Z by lia; assumption.
  - rewrite (C58_times_partial _ _ _ _ [x; y]); auto; [cbn; do 2 f_equal; lia|].
    intros [|[|[|n]]]; cbn; auto; try (replace (x * 1)%Z with x by lia; assumption); replace (x * (y * 1))%Z with (x * y)%Z by lia; assumption.
Qed.
Print Assumptions C58_two_partial.
Lemma sum_app a b : sum (a ++ b) = (sum a + sum b)%Z.
Proof. unfold sum. induction a as [|x a IH]; cbn; [lia|]. rewrite IH. lia. Qed.
Lemma sum_nonneg l : Forall (fun z => 0 <= z)%Z l -> (0 <= sum l)%Z.
Proof. unfold sum. induction 1; cbn; lia. Qed.
Lemma sum_nonpos l : Forall (fun z => z <= 0)%Z l -> (sum l <= 0)%Z.
Proof. unfold sum. induction 1; cbn; lia. Qed.
Lemma Forall_split {X} (P : X -> Prop) n l : Forall P l -> Forall P (firstn n l) /\ Forall P (skipn n l).
Proof. intros H. rewrite <- (firstn_skipn n l) in H. now apply Forall_app in H. Qed.
Theorem C58_one_sign_partial : forall fuel ev a env zs s, ints_at (all s) a zs ->
  Forall (fun z => 0 <= z)%Z zs \/ Forall (fun z => z <= 0)%Z zs -> fits (sum zs) ->
  builtin_call fuel ev BiPlus a env s = alloc (DInt (sum zs)) s.
Proof.
  intros fuel ev a env zs s H SG F. apply C58_plus_partial; [exact H|]. intros n. unfold fits in *.
  pose proof (sum_app (firstn n zs) (skipn n zs)) as SA. rewrite firstn_skipn in SA.
  destruct SG as [SG|SG]; apply (Forall_split _ n) in SG as (S1 & S2).
  - apply sum_nonneg in S1, S2. lia.
  - apply sum_nonpos in S1, S2. lia.
Qed.
Print Assumptions C58_one_sign_partial.
(** The remainder of C has the sign of the dividend; by zero it is an error, as
    is dividing by zero.  Only INT32_MIN mod -1 is undefined. *)
Theorem C58_mod_partial : forall fuel ev a env x y s, ints_at (all s) a [x; y] ->
  (y = 0 -> builtin_call fuel ev BiMod a env s = new_error s)%Z /\
  (y <> 0 -> ~ (x = - 2 ^ 31 /\ y = -1) ->
   exists r, builtin_call fuel ev BiMod a env s = alloc (DInt r) s /\
             (exists q, x = y * q + r) /\ Z.abs r < Z.abs y /\ (0 <= x -> 0 <= r) /\ (x <= 0 -> r <= 0))%Z.
Proof.
  intros fuel ev a env x y s (l & V & H). inversion H as [|rx zx l' zs' (c & L & E) H']; subst. inversion H' as [|ry zy l2 zs2 (c2 & L2 & E2) H2]; subst.
  inversion H2; subst. cbn [builtin_call]. unfold b_mod. rewrite (bind_ok _ _ _ [rx; ry] s) by now apply vec_of_at.
  rewrite (bind_ok _ _ _ (DInt x) s) by (apply get_ret; eauto). rewrite (bind_ok _ _ _ (DInt y) s) by (apply get_ret; eauto).
  split.
  - intros ->. reflexivity.
  - intros NZ NM. destruct (Z.eqb_spec y 0); [congruence|].
    replace ((x =? INT32_MIN) && (y =? -1))%Z%bool with false by (unfold INT32_MIN; lia).
    exists (Z.rem x y). split; [reflexivity|]. split; [exists (Z.quot x y); apply Z.quot_rem; exact NZ|].
    split; [apply Z.rem_bound_abs; exact NZ|]. split; intros; [apply Z.rem_nonneg|apply Z.rem_nonpos]; auto.
Qed.
Print Assumptions C58_mod_partial.
Theorem C58_division_by_zero_partial : forall fuel ev a env x zs s, ints_at (all s) a (x :: zs) ->
  (match zs with [] => x = 0%Z | _ => In 0%Z zs end) ->
  builtin_call fuel ev BiDiv a env s = new_error s.
Proof.
  intros fuel ev a env x zs s (l & V & H) HZ.
  assert (K : forall l zs acc, Forall2 (int_at (all s)) l zs -> In 0%Z zs -> div_each l acc s = new_error s).
  { clear. induction l as [|y l IH]; intros zs acc F I; inversion F as [|? z ? zs' (c & L & E) F']; subst; [destruct I|].
    cbn [div_each]. rewrite (bind_ok _ _ _ (DInt z) s) by (apply get_ret; eauto). cbn [as_double].
    destruct (is_zero (sf_of_Z z)) eqn:ZZ; [reflexivity|]. destruct I as [->|I]; [|eapply IH; eauto].
    discriminate ZZ. }
  inversion H as [|rx zx l' zs' (c & L & E) H']; subst. cbn [builtin_call]. unfold b_div.
  rewrite (bind_ok _ _ _ (rx :: l') s) by now apply vec_of_at.
  inversion H' as [|ry zy l2 zs2 (c2 & L2 & E2) H2]; subst.
  - subst x. apply (K [rx] [0%Z]); [repeat constructor; eexists; eauto|now left].
  - rewrite (bind_ok _ _ _ (DInt x) s) by (apply get_ret; eauto). cbn [as_double]. eapply K; eauto.
Qed.
Print Assumptions C58_division_by_zero_partial.
(** A partial result that does not fit is undefined behaviour though the result
    fits. *)
Theorem C58_overflow_refuted :
  run_text machine "(+ {D+2147483647} {D+1} {D-2})" = Undef.
Proof. vm_compute. reflexivity. Qed.
Print Assumptions C58_overflow_refuted.
Example C58_witness :
  exists a s, ints_at (all s) a [7; -3; 5]%Z /\ (forall n, fits (sum (firstn n [7; -3; 5]%Z))) /\
  contents (obind (builtin_call 1 (fun _ _ => nofuel) BiPlus a 0 s) (fun p => Ret (Some (fst p), snd p))) = Ret (Some (DInt 9)).
Proof.
  set (c d := mkCell d None None false 0).
  exists 1, (with_all machine [(1, c (DVec [2; 3; 4])); (2, c (DInt 7)); (3, c (DInt (-3))); (4, c (DInt 5))]).
  split; [|split].
  - exists [2; 3; 4]. split; [eexists; split; reflexivity|]. repeat constructor; eexists; split; reflexivity.
  - unfold fits. intros [|[|[|[|n]]]]; cbn; lia.
  - vm_compute. reflexivity.
Qed.

(** ** C64 *)

(** What holding a result on the stack, instead of the previous one, changes. *)
Definition release (last : option ref) (s : vm) : vm :=
  match last with Some _ => with_stack s (tl (stack s)) | None => s end.
Definition hold (last : option ref) (x : ref) (s : vm) : vm :=
  with_stack s (x :: stack (release last s)).
(** The line, counted from 1, that has been reached in the text [t] when [l] is
    left of it; a newline at the very end is not counted. *)
Definition line_reached (t l : list N) : N :=
  1 + N.of_nat (count_occ N.eq_dec (firstn (List.length t - List.length l) (removelast t)) 10).
(** [text_run t l last s vs o s']: from the rest [l] of the text [t] and the state [s] the forms of
    [l] are read and evaluated in order, one after the other, giving the values
    [vs]; the run ends at the first value that is an error, at the end of the text
    or where nothing more can be read; [o] is the value of the run.  An error is
    given the line reached. *)
Inductive text_run (fuel : nat) (t : list N) : list N -> option ref -> vm -> list ref -> option ref -> vm -> Prop :=
| tr_end last s : text_run fuel t [] last s [] last (release last s)
| tr_nothing l last s p s1 s2 : l <> [] -> read_value l s = Ret (p, s1) -> eval_read fuel (fst p) s1 = Ret (None, s2) ->
    text_run fuel t l last s [] last (release last s2)
| tr_value l last s v l' s1 x s2 vs o s' : l <> [] -> read_value l s = Ret ((v, l'), s1) ->
    eval_read fuel v s1 = Ret (Some x, s2) -> lookup (all s2) x <> None -> ~ is_error_at (all s2) x ->
    text_run fuel t l' (Some x) (hold last x s2) vs o s' -> text_run fuel t l last s (x :: vs) o s'
| tr_error l last s v l' s1 x s2 s' : l <> [] -> read_value l s = Ret ((v, l'), s1) ->
    eval_read fuel v s1 = Ret (Some x, s2) -> is_error_at (all s2) x ->
    stack s' = stack (release last s2) -> (forall y, y <> x -> lookup (all s') y = lookup (all s2) y) -> (exists m, option_map cdata (lookup (all s') x) = Some (DErr m (line_reached t l'))) ->
    text_run fuel t l last s [x] (Some x) s'.

Ltac inv_bind E := let x := fresh "x" in let s := fresh "s" in let H := fresh "E" in apply bind_ret in E as (x & s & H & E).
Lemma read_token_suffix : forall f,
  (forall t l s q s', read_token f t l s = Ret (q, s') -> suffix (snd q) l) /\
  (forall v l s q s', read_list f v l s = Ret (q, s') -> suffix (snd q) l).
Proof.
  induction f as [|f (IH1 & IH2)]; [split; discriminate|].
  assert (LX : forall l s p s1, lift (lex l) s = Ret (p, s1) -> suffix (snd p) l).
  { intros l s p s1 E. unfold lift in E. pose proof (lex_lex_ok l) as K. destruct (lex l) as [[t r]| | | | |]; try discriminate. injection E as <- <-. apply K. }
  split.
  - intros t l s q s' E. cbn [read_token] in E. destruct t as [tk|]; [|injection E as <- _; apply suffix_refl].
    assert (T : forall mk x s q s', read_text mk x l s = Ret (q, s') -> suffix (snd q) l).
    { intros mk x s1 q1 s1' E1. unfold read_text in E1. inv_bind E1. inv_bind E1. injection E1 as <- _. apply suffix_refl. }
    assert (RE : forall s q s', read_error l s = Ret (q, s') -> suffix (snd q) l).
    { intros s1 q1 s1' E1. unfold read_error in E1. inv_bind E1. injection E1 as <- _. apply suffix_refl. }
    destruct tk; try (now eapply T; eauto); try (now eapply RE; eauto);
      try (injection E as <- _; apply suffix_refl); try (inv_bind E; injection E as <- _; now apply suffix_refl).
    + inv_bind E. inv_bind E. eapply IH2; eauto.
    + inv_bind E. inv_bind E. inv_bind E. inv_bind E. inv_bind E. apply LX in E4. inv_bind E. apply IH1 in E5.
      assert (K : suffix (snd x4) l) by (eapply suffix_trans; eauto). destruct (fst x4) as [y|].
      * inv_bind E. destruct x5; inv_bind E; [|inv_bind E]; injection E as <- _; exact K.
      * inv_bind E. injection E as <- _. exact K.
    + inv_bind E. apply LX in E0. inv_bind E. apply IH1 in E1.
      assert (K : suffix (snd x0) l) by (eapply suffix_trans; eauto). destruct (fst x0) as [y|]; [|injection E as <- _; exact K].
      inv_bind E. inv_bind E. destruct x2; repeat inv_bind E; injection E as <- _; exact K.
  - intros v l s q s' E. cbn [read_list] in E. inv_bind E. apply LX in E0.
    assert (RE : forall l1 s q s', suffix l1 l -> read_error l1 s = Ret (q, s') -> suffix (snd q) l).
    { intros l1 s1 q1 s1' SX E1. unfold read_error in E1. inv_bind E1. injection E1 as <- _. exact SX. }
    assert (Q : forall t s q s', (q0 <- read_token f (Some t) (snd x) ;;
          match fst q0 with
          | None => pop v ;;; read_error (snd q0)
          | Some x =>
              e <- is_error x ;;
              if (e : bool) then pop v ;;; ret (Some x, snd q0)
              else vec_push v x ;;; read_list f v (snd q0)
          end) s = Ret (q, s') -> suffix (snd q) l).
    { clear E s q s' s0. intros t s q s' E. inv_bind E. apply IH1 in E1. assert (K : suffix (snd x0) l) by (eapply suffix_trans; eauto).
      destruct (fst x0) as [y|]; [|inv_bind E; eapply RE; eauto].
      inv_bind E. destruct x1; inv_bind E; [injection E as <- _; exact K|]. apply IH2 in E. eapply suffix_trans; eauto. }
    destruct (fst x) as [tk|]; [|inv_bind E; eapply RE; eauto].
    destruct tk; try (eapply Q; eassumption); inv_bind E; [injection E as <- _; exact E0|eapply RE; eauto].
Qed.
Lemma read_value_suffix l s q s' : read_value l s = Ret (q, s') -> suffix (snd q) l.
Proof.
  intros E. unfold read_value in E. inv_bind E. apply read_token_suffix in E. unfold lift in E0. pose proof (lex_lex_ok l) as K.
  destruct (lex l) as [[t r]| | | | |]; try discriminate. injection E0 as <- <-. eapply suffix_trans; [exact E|]. apply K.
Qed.
Lemma pops_rest : forall n i, rest (input_pops n i) = skipn n (rest i).
Proof.
  induction n as [|n IH]; intros i; [reflexivity|]. cbn [input_pops]. rewrite IH. unfold input_pop. destruct (rest i) as [|c r] eqn:E; cbn [fst rest].
  - rewrite E. now rewrite !skipn_nil.
  - destruct r; cbn [rest skipn]; [reflexivity|]. destruct (c =? 10)%N; reflexivity.
Qed.
Lemma skip_suffix r l : suffix r l -> skipn (List.length l - List.length r) l = r.
Proof. intros (p & ->). rewrite app_length. replace (_ + _ - _)%nat with (List.length p) by lia. rewrite skipn_app, skipn_all, Nat.sub_diag. reflexivity. Qed.
Lemma pop_ret r s u s' : pop r s = Ret (u, s') -> s' = with_stack s (tl (stack s)).
Proof. unfold pop. destruct (stack s) as [|x t] eqn:E; [discriminate|]. destruct (x =? r)%N; [|discriminate]. now intros [= _ <-]. Qed.

Lemma pops_line : forall k i, line (input_pops k i) = (line i + count_occ N.eq_dec (firstn k (removelast (rest i))) 10%N)%nat.
Proof.
  induction k as [|k IH]; intros i; cbn [input_pops firstn]; [cbn; lia|]. rewrite IH. unfold input_pop. destruct (rest i) as [|c [|d r]] eqn:E; cbn [fst rest line].
  - rewrite E. cbn [removelast]. rewrite firstn_nil. cbn. lia.
  - cbn [removelast]. rewrite firstn_nil. cbn. lia.
  - change (removelast (c :: d :: r)) with (c :: removelast (d :: r)). cbn [firstn count_occ]. destruct (N.eqb_spec c 10) as [->|NC]; cbn [rest line].
    + destruct (N.eq_dec 10 10); [lia|congruence].
    + destruct (N.eq_dec c 10); [congruence|lia].
Qed.
Lemma removelast_skipn {X} (l : list X) : forall n, removelast (skipn n l) = skipn n (removelast l).
Proof.
  induction l as [|x l IH]; intros n; [cbn; now rewrite skipn_nil|]. destruct n as [|n]; [reflexivity|]. cbn [skipn]. rewrite IH. destruct l as [|y l]; [cbn; now rewrite !skipn_nil|reflexivity].
Qed.
Lemma firstn_more {X} (l : list X) a k : firstn (a + k) l = (firstn a l ++ firstn k (skipn a l))%list.
Proof. revert l. induction a as [|a IH]; intros l; [reflexivity|]. destruct l as [|x l]; [cbn; now rewrite firstn_nil|]. cbn. now rewrite IH. Qed.
Lemma reached_next t i l : suffix (rest i) t -> suffix l (rest i) -> N.of_nat (line i) = line_reached t (rest i) ->
  N.of_nat (line (input_pops (List.length (rest i) - List.length l) i)) = line_reached t l.
Proof.
  intros S1 S2 LI. rewrite pops_line, Nnat.Nat2N.inj_add, LI. unfold line_reached. pose proof (skip_suffix _ _ S1) as K.
  destruct S1 as (p & ET). destruct S2 as (q & ER). assert (L1 : List.length t = (List.length p + List.length (rest i))%nat) by (rewrite ET at 1; apply app_length). assert (L2 : List.length (rest i) = (List.length q + List.length l)%nat) by (rewrite ER at 1; apply app_length).
  replace (List.length t - List.length l)%nat with ((List.length t - List.length (rest i)) + (List.length (rest i) - List.length l))%nat by lia.
  rewrite firstn_more, count_occ_app. rewrite <- K at 3. rewrite removelast_skipn. lia.
Qed.

(** Every completed evaluation of a text is such a run ... *)
Theorem C64_in_order : forall fuel t s o s', t <> [] ->
  read_eval fuel (input_new t) s = Ret (o, s') -> exists vs, text_run fuel t t None s vs o s'.
Proof.
  intros fuel t s o s' NE E. unfold read_eval, read_eval_by in E. unfold input_good in E. cbn [rest input_new] in E. destruct t as [|c0 l0] eqn:ER; [congruence|]. clear NE.
  rewrite <- ER in *. clear c0 l0 ER.
  assert (L : forall k i s last, suffix (rest i) t -> N.of_nat (line i) = line_reached t (rest i) -> read_eval_loop_by k (eval fuel) i last last s = Ret (o, s') -> exists vs, text_run fuel t (rest i) last s vs o s').
  { clear. induction k as [|k IH]; intros i s last SI LI E.
    - cbn [read_eval_loop_by] in E. unfold input_good in E. destruct (rest i); [|discriminate]. exists []. unfold leave in E.
      destruct last as [g|]; [|injection E as <- <-; apply (tr_end fuel t None)]. inv_bind E. apply pop_ret in E0 as ->. injection E as <- <-. apply (tr_end fuel t (Some g)).
    - cbn [read_eval_loop_by] in E. unfold input_good in E. destruct (rest i) as [|c0 l0] eqn:ER.
      { exists []. unfold leave in E. destruct last as [g|]; [|injection E as <- <-; apply (tr_end fuel t None)].
        inv_bind E. apply pop_ret in E0 as ->. injection E as <- <-. apply (tr_end fuel t (Some g)). }
      rewrite <- ER in E, SI, LI |- *. assert (NE : rest i <> []) by congruence. clear c0 l0 ER. inv_bind E.
      pose proof (read_value_suffix _ _ _ _ E0) as SX. inv_bind E. destruct x0 as [x1|].
      + assert (ST : exists s2, (match last with Some g => pop g | None => ret tt end) s1 = Ret (tt, s2) /\ s2 = release last s1).
        { inv_bind E. destruct x0. exists s2. split; [exact E2|]. destruct last as [g|]; [now apply pop_ret in E2|]. now injection E2. }
        destruct ST as (s2 & ST & SR). rewrite (bind_ok _ _ _ tt s2 ST) in E. inv_bind E. injection E2 as _ <-. inv_bind E.
        unfold is_error in E2. apply bind_ret in E2 as (d & s4 & E2 & E3). apply get_ret in E2 as (c & LC & -> & ->). injection E3 as <- <-.
        assert (LC1 : lookup (all s1) x1 = Some c) by (rewrite SR in LC; destruct last; exact LC).
        assert (AS : all s2 = all s1) by (rewrite SR; destruct last; reflexivity).
        destruct (is_error_data (cdata c)) eqn:IE.
        * destruct (cdata c) eqn:ED; try discriminate. clear IE. inv_bind E. unfold leave in E. inv_bind E. apply pop_ret in E3 as ->. injection E as <- <-.
          unfold set_line in E2. inv_bind E2. apply get_ret in E as (c3 & L3 & -> & ->). cbn in L3. rewrite AS in L3.
          assert (c3 = c) by congruence. subst c3. rewrite ED in E2. apply put_ret in E2. destruct E2 as (c4 & L4 & ->). cbn in L4. rewrite AS in L4.
          exists [x1]. destruct x as [v l']. eapply tr_error; eauto.
          -- exists msg, line. exists c. auto.
          -- cbn. now rewrite <- SR.
          -- cbn. intros y NY. rewrite AS. rewrite lookup_update. now rewrite (proj2 (N.eqb_neq _ _) (not_eq_sym NY)).
          -- eexists. cbn. rewrite AS, lookup_update, N.eqb_refl, LC1. cbn. do 2 f_equal. apply reached_next; [exact SI|exact SX|exact LI].
        * apply IH in E as (vs & TR); [|rewrite pops_rest, (skip_suffix _ _ SX); eapply suffix_trans; eauto|rewrite pops_rest, (skip_suffix _ _ SX); now apply reached_next]. destruct x as [v l']. cbn [fst snd] in *. rewrite pops_rest, (skip_suffix _ _ SX) in TR. exists (x1 :: vs). eapply tr_value; eauto.
          -- congruence.
          -- intros (m & n & c' & L' & E'). assert (c' = c) by congruence. subst. rewrite E' in IE. discriminate.
          -- unfold hold. rewrite <- SR. replace (with_stack s1 (x1 :: stack s2)) with (with_stack s2 (x1 :: stack s2)); [exact TR|]. rewrite SR. destruct last; reflexivity.
      + exists []. unfold leave in E. destruct last as [g|].
        * inv_bind E. apply pop_ret in E2 as ->. injection E as <- <-. apply (tr_nothing fuel t _ (Some g) s x s0); auto.
        * injection E as <- <-. apply (tr_nothing fuel t _ None s x s0); auto. }
  apply L in E; [exact E|apply suffix_refl|]. cbn [input_new rest line]. unfold line_reached. now rewrite Nat.sub_diag.
Qed.
Print Assumptions C64_in_order.
(** ... so no form is evaluated after one that yields an error, and the value of
    the run is the value of the last form evaluated. *)
Theorem C64_value : forall fuel t l last s vs o s', text_run fuel t l last s vs o s' ->
  o = match vs with [] => last | _ => Some (List.last vs 0) end.
Proof.
  intros fuel t l last s vs o s' H.
  induction H as [| | ? ? ? ? ? ? ? ? vs ? ? ? ? ? ? ? ? IH|]; try reflexivity. rewrite IH. destruct vs; reflexivity.
Qed.
Print Assumptions C64_value.
Theorem C64_first_error : forall fuel t l last s v l' s1 x s2 vs o s', l <> [] ->
  read_value l s = Ret ((v, l'), s1) -> eval_read fuel v s1 = Ret (Some x, s2) -> is_error_at (all s2) x ->
  text_run fuel t l last s vs o s' -> vs = [x] /\ o = Some x /\
  exists m, option_map cdata (lookup (all s') x) = Some (DErr m (line_reached t l')).
Proof.
  intros fuel t l last s v l' s1 x s2 vs o s' NE R E IE H.
  inversion H as [| ? ? ? p ? ? ? R' E' | ? ? ? ? ? ? ? ? ? ? ? ? R' E' ? NI |? ? ? ? ? ? ? ? ? ? R' E']; subst; [congruence| | |];
    rewrite R in R'; injection R' as <- <-.
  - cbn in E'. congruence.
  - subst. rewrite E in E'. injection E' as <- <-. contradiction.
  - subst. rewrite E in E'. injection E' as <- <-. split; [reflexivity|]. split; [reflexivity|assumption].
Qed.
Print Assumptions C64_first_error.
(** The second form is an error: the third is not evaluated, the first was. *)
Example C64_witness :
  let program := "(define x as {D+1} [x]) (nope) (++ x)" in
  match run_text machine program with
  | Ret (Some r, s) => exists m n, option_map cdata (lookup (all s) r) = Some (DErr m n) /\ n = 1 /\
                                   contents (run_text s "x") = Ret (Some (DInt 1))
  | _ => False
  end.
Proof. vm_compute. eexists _, _. auto. Qed.

(** ** C65: the evaluation of a text that consists of forms whose evaluation ends
    need not end.  After exit, evaluating a token that cannot be read gives nil
    instead of an error, and the reader does not move past it. *)
Theorem C65_reading_stuck_refuted : forall k fuel i last s o s', rest i = [93] -> ids_ok s -> quit s = true ->
  read_eval_loop k fuel i last last s <> Ret (o, s').
Proof.
  induction k as [|k IH]; intros fuel i last s o s' ER OK Q E; unfold read_eval_loop in E; cbn [read_eval_loop_by] in E; unfold input_good in E; rewrite ER in E; [discriminate|].
  inv_bind E. change (read_value [93]) with (r <- new_error ;; ret (Some r, [93])) in E0. 
  apply bind_ret in E0 as (r & s1 & E0 & E1). injection E1 as <- ->. apply new_error_ret in E0 as (m & [A1 A2 A3 A4 A5 A6 A7 (A8 & A9 & A10 & A11 & A12 & A13)]); [|exact OK].
  inv_bind E. unfold eval_read, eval_read_by in E0; cbn [fst snd] in E0. inv_bind E0. injection E1 as _ <-.
  assert (Q1 : quit s0 = true) by congruence.
  apply C57_nothing_after_exit in E0 as (x2 & -> & (c & LC & EC) & _ & _ & _ & _ & _ & Q2 & _ & _ & _ & OK2); [|exact A1|exact Q1].
  inv_bind E. assert (K : quit s2 = true /\ all s2 = all s1 /\ ids_ok s2).
  { destruct last as [g|]; [apply pop_ret in E0 as ->; auto|]. injection E0 as _ <-. auto. }
  destruct K as (Q3 & AS & OK3). inv_bind E. injection E1 as _ <-. inv_bind E. unfold is_error in E1. apply bind_ret in E1 as (d & s4 & E1 & E2).
  apply get_ret in E1 as (c' & L' & -> & ->). injection E2 as <- <-. cbn in L'. rewrite AS, LC in L'. injection L' as <-. rewrite EC in E. cbn [is_error_data] in E.
  now apply IH in E.
Qed.
Print Assumptions C65_reading_stuck_refuted.
(** The text "(exit) ]" gets there. *)
Example C65_witness :
  let s := after_text machine "(exit) " in
  quit s = true /\ run_text s "]" = NoFuel /\ run_text machine "(exit) ]" = NoFuel.
Proof. vm_compute. auto. Qed.
