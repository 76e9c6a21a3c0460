(** Reading ends, and so does reading and evaluating (C65). *)
From Coq Require Import List NArith ZArith Bool Lia.
From Verif Require PropsEval.
From Verif Require Import Base Lexer LexerProofs Input Heap GcProofs VmProofs Env EnvProofs Relate RootProofs Copy Reader Eval Read PropsGc SpecEnds.
Import ListNotations.
Local Open Scope N_scope.

Definition ends {X} (m : M X) : Prop := forall s, m s <> NoFuel.
Lemma ends_ret X (x : X) : ends (ret x). Proof. discriminate. Qed.
Lemma ends_bind X Y (m : M X) (k : X -> M Y) : ends m -> (forall x, ends (k x)) -> ends (bind m k).
Proof. intros A B s. unfold bind. specialize (A s). destruct (m s) as [(x, s')| | | | |]; cbn [obind]; try discriminate; [apply B|congruence]. Qed.
Lemma ends_push r : ends (push r). Proof. discriminate. Qed.
Lemma ends_pop r : ends (pop r).
Proof. intro s. unfold pop. destruct (stack s) as [|x t]; [discriminate|]. destruct (x =? r); discriminate. Qed.
Lemma ends_get_cell r : ends (get_cell r).
Proof. intro s. unfold get_cell. destruct (lookup (all s) r); discriminate. Qed.
Lemma ends_put_cell r c : ends (put_cell r c).
Proof. intro s. unfold put_cell. destruct (lookup (all s) r); discriminate. Qed.
Lemma ends_abort X : ends (@abort X). Proof. discriminate. Qed.
Lemma ends_get r : ends (get r). Proof. apply ends_bind; [apply ends_get_cell|]. intro. apply ends_ret. Qed.
Lemma ends_put r d : ends (put r d). Proof. apply ends_bind; [apply ends_get_cell|]. intro. apply ends_put_cell. Qed.
Lemma ends_maybe_gc : ends maybe_gc.
Proof.
  intro s. unfold maybe_gc, do_gc. destruct (_ && _); [|discriminate]. pose proof (C44_gc_terminates (all s) (stack s)) as T. destruct (gc (all s) (stack s)); cbn [obind]; congruence.
Qed.
Lemma ends_fresh d : ends (fresh d). Proof. intro s. unfold fresh. destruct (_ =? _); discriminate. Qed.
Lemma ends_alloc d : ends (alloc d). Proof. apply ends_bind; [apply ends_maybe_gc|]. intros _. apply ends_fresh. Qed.
Lemma ends_new_error : ends new_error. Proof. apply ends_bind; [apply ends_maybe_gc|]. intros _ s. apply ends_fresh. Qed.
Lemma ends_is_error r : ends (is_error r). Proof. apply ends_bind; [apply ends_get|]. intro. apply ends_ret. Qed.
Lemma ends_vec_push v x : ends (vec_push v x).
Proof. apply ends_bind; [apply ends_get|]. intros []; try apply ends_abort; apply ends_put. Qed.
Lemma ends_vec_of v : ends (vec_of v).
Proof. apply ends_bind; [apply ends_get|]. intros []; try apply ends_abort; apply ends_ret. Qed.
Lemma ends_pops l : ends (pops l).
Proof. unfold pops. induction l as [|r l IH]; cbn [iterM]; [apply ends_ret|]. apply ends_bind; [apply ends_pop|auto]. Qed.
Lemma ends_lift X (o : outcome X) : o <> NoFuel -> ends (lift o).
Proof. intros N s. unfold lift. destruct o; cbn; try discriminate. congruence. Qed.
Lemma ends_read X (f : vm -> X) : ends (read f). Proof. discriminate. Qed.
Lemma ends_read_error l : ends (read_error l). Proof. apply ends_bind; [apply ends_new_error|]. intro. apply ends_ret. Qed.
Lemma ends_read_text mk s l : ends (read_text mk s l).
Proof. apply ends_bind; [apply ends_lift, via_cstr_fuel|]. intro t. apply ends_bind; [apply ends_alloc|]. intro. apply ends_ret. Qed.
Create HintDb edb.
#[local] Hint Resolve ends_ret ends_push ends_pop ends_get ends_put ends_alloc ends_new_error ends_is_error ends_vec_push ends_vec_of ends_pops ends_read ends_read_error ends_read_text ends_abort : edb.
Lemma ends_new_const d t : ends (new_const d t).
Proof. unfold new_const, set_docs. repeat (apply ends_bind; [auto with edb; try (apply ends_bind; [apply ends_get_cell|intro; apply ends_put_cell])|intro]). all: auto with edb. Qed.
Lemma ends_value_bool b : ends (if b : bool then value_true else value_false).
Proof. destruct b; apply ends_new_const. Qed.
Lemma ends_then X Y (m : M X) (k : X -> M Y) s : m s <> NoFuel -> (forall x s', m s = Ret (x, s') -> k x s' <> NoFuel) -> bind m k s <> NoFuel.
Proof. intros A B. unfold bind. destruct (m s) as [(x, s')| | | | |]; cbn [obind]; try discriminate; [apply B; reflexivity|congruence]. Qed.
Lemma lift_ret X (o : outcome X) s x s' : lift o s = Ret (x, s') -> o = Ret x /\ s' = s.
Proof. unfold lift. destruct o; cbn; try discriminate. intros [= <- <-]. auto. Qed.
Lemma lex_fst l p : lex l = Ret p -> suffix (snd p) l /\ (forall t, fst p = Some t -> t <> TError -> (List.length (snd p) < List.length l)%nat).
Proof.
  intro E. pose proof (lex_lex_ok l) as K. rewrite E in K. destruct p as (t, r). cbn [lex_ok fst snd] in *. destruct K as (A & B). split; [exact A|]. intros t' -> NE. destruct t'; try exact B. congruence.
Qed.

Lemma read_ends : forall f,
  (forall t l s, (2 * List.length l + 2 <= f)%nat -> read_token f t l s <> NoFuel) /\
  (forall v l s, (2 * List.length l + 1 <= f)%nat -> read_list f v l s <> NoFuel).
Proof.
  induction f as [|f (IH1 & IH2)]; [split; intros; lia|].
  assert (TOK : forall l p s, (2 * List.length l + 1 <= f)%nat -> lex l = Ret p -> read_token f (fst p) (snd p) s <> NoFuel).
  { intros l p s LE LX. apply lex_fst in LX as (SU & LT). apply suffix_length in SU. destruct (fst p) as [t|] eqn:FP.
    - destruct (match t with TError => true | _ => false end) eqn:TE.
      + destruct t; try discriminate TE. destruct f as [|f]; [lia|]. cbn [read_token]. apply ends_read_error.
      + apply IH1. specialize (LT t eq_refl ltac:(intros ->; discriminate TE)). lia.
    - destruct f as [|f]; [lia|]. cbn [read_token]. discriminate. }
  split.
  - intros t l s LE. cbn [read_token]. destruct t as [tk|]; [|discriminate]. destruct tk; auto with edb; try apply ends_read_error; try apply ends_read_text; try discriminate.
    all: try (apply ends_bind; [first [apply ends_alloc|apply ends_new_const|apply ends_new_error]|intro; apply ends_ret]).
    + apply ends_then; [apply ends_alloc|]. intros v s1 _. apply ends_then; [discriminate|]. intros _ s2 _. apply IH2. lia.
    + apply ends_then; [apply ends_alloc|]. intros v s1 _. apply ends_then; [discriminate|]. intros _ s2 _. apply ends_then; [apply ends_alloc|]. intros y s3 _. apply ends_then; [apply ends_vec_push|]. intros _ s4 _.
      apply ends_then; [apply ends_lift, lex_no_fuel|]. intros p s5 E. apply lift_ret in E as (E & _). apply ends_then; [eapply TOK; [|exact E]; lia|]. intros q s6 _.
      destruct (fst q); [|apply ends_bind; auto with edb]. apply ends_bind; [auto with edb|]. intros []; repeat (apply ends_bind; [auto with edb|intro]); auto with edb.
    + apply ends_then; [apply ends_lift, lex_no_fuel|]. intros p s5 E. apply lift_ret in E as (E & _). apply ends_then; [eapply TOK; [|exact E]; lia|]. intros q s6 _.
      destruct (fst q); [|discriminate]. apply ends_bind; [auto with edb|]. intros _. apply ends_bind; [auto with edb|]. intros []; repeat (apply ends_bind; [auto with edb|intro]); auto with edb.
  - intros v l s LE. cbn [read_list]. apply ends_then; [apply ends_lift, lex_no_fuel|]. intros p s1 E. apply lift_ret in E as (E & _).
    assert (REST : forall t, fst p = Some t -> t <> TError -> (q <- read_token f (Some t) (snd p) ;;
          match fst q with
          | None => pop v ;;; read_error (snd q)
          | Some x => e <- is_error x ;; if (e : bool) then pop v ;;; ret (Some x, snd q) else vec_push v x ;;; read_list f v (snd q)
          end) s1 <> NoFuel).
    { intros t FP NE. apply lex_fst in E as (SU & LT). specialize (LT t FP NE). apply ends_then; [apply IH1; lia|]. intros q s2 RT. apply PropsEval.read_token_suffix in RT. apply suffix_length in RT.
      destruct (fst q); [|apply ends_bind; auto with edb]. apply ends_then; [apply ends_is_error|]. intros [] s3 _; [apply ends_bind; auto with edb|]. apply ends_then; [apply ends_vec_push|]. intros _ s4 _. apply IH2. lia. }
    destruct (fst p) as [t|]; [|apply ends_bind; auto with edb]. destruct t; try (apply REST; [reflexivity|discriminate]); apply ends_bind; auto with edb.
Qed.
Lemma read_value_ends l : ends (read_value l).
Proof.
  intro s. unfold read_value. apply ends_then; [apply ends_lift, lex_no_fuel|]. intros p s1 E. apply lift_ret in E as (E & _). apply read_ends. apply lex_fst in E as (SU & _). apply suffix_length in SU. lia.
Qed.
(** No token: the text has been read to its end. *)
Definition none_end (x : lexed) : Prop := match x with Ret (None, r) => r = [] | _ => True end.
Lemma none_bind X (o : outcome X) (k : X -> lexed) : (forall x, none_end (k x)) -> none_end (obind o k).
Proof. intro K. destruct o; cbn [obind]; try exact I. apply K. Qed.
Lemma none_token o r : none_end (obind o (fun t => Ret (Some t, r))).
Proof. apply none_bind. intro. exact I. Qed.
Lemma number_loop_none : forall l ws base neg dot frac chars digits prev, none_end (number_loop l ws base neg dot frac chars digits prev).
Proof.
  induction l as [|c l IH]; intros; cbn [number_loop]; [destruct ws; [exact I|apply none_token]|].
  repeat match goal with |- none_end (if ?b then _ else _) => destruct b end; try exact I; try apply IH; try apply none_token.
Qed.
Lemma string_loop_none : forall l esc acc, none_end (string_loop l esc acc).
Proof.
  induction l as [|c l IH]; intros esc acc; cbn [string_loop]; [destruct esc; [exact I|reflexivity]|].
  destruct esc as [e|].
  all: repeat first [apply IH | exact I | reflexivity | match goal with
    | |- none_end (if ?b then _ else _) => destruct b
    | |- none_end (match ?x with _ => _ end) => destruct x
    | |- none_end (obind _ _) => apply none_bind; intro
    end].
Qed.
Lemma lex_token_none l : none_end (lex_token l).
Proof.
  destruct l as [|c t]; [reflexivity|]. unfold lex_token.
  repeat match goal with |- none_end (if ?b then _ else _) => destruct b; try exact I; try apply string_loop_none end.
  - unfold lex_number. destruct (expect_octet _ _) as [(?, ?)|]; [|exact I]. destruct (expect_octet _ _) as [(?, ?)|]; [|exact I]. cbv zeta. destruct (expect_octet _ _) as [(?, ?)|]; [|exact I]. apply number_loop_none.
  - unfold lex_semver. apply none_bind. intros ([?|], ?); [|exact I]. destruct (expect_octet _ _) as [(?, ?)|]; [|exact I]. apply none_bind. intros ([?|], ?); [|exact I]. destruct (expect_octet _ _) as [(?, ?)|]; [|exact I]. apply none_bind. intros ([?|], ?); exact I.
  - unfold lex_char. destruct (_ =? _); [|exact I]. destruct (until_bar _ _) as [(?, ?)|]; [|reflexivity]. apply none_token.
  - unfold lex_symbol. destruct (symbol_chars _) as ([|x s], r); [exact I|]. repeat match goal with |- none_end (if ?b then _ else _) => destruct b; [exact I|] end. apply none_bind. intro. exact I.
Qed.
Lemma lex_fuel_none f : forall l, none_end (lex_fuel f l).
Proof.
  induction f as [|f IH]; intro l; cbn [lex_fuel]; destruct (skip_ws l) as [|c t]; try reflexivity; destruct (c =? 59); try exact I; try apply IH; destruct ((c =? 35) && _); try apply lex_token_none; destruct (comment_end (tl t)); try exact I. apply IH.
Qed.
Lemma lex_none l p : lex l = Ret p -> fst p = None -> snd p = [].
Proof. intros E F. pose proof (lex_fuel_none (length l) l) as K. change (lex_fuel (length l) l) with (lex l) in K. rewrite E in K. destruct p as (t, r). cbn in *. subst t. exact K. Qed.
(** Progress, or the error of an unreadable text. *)
Lemma read_value_moves l s o r s' : ids_ok s -> read_value l s = Ret ((o, r), s') -> l <> [] ->
  suffix r l /\ ((List.length r < List.length l)%nat \/ match o with Some v => is_error_at s' v | None => False end).
Proof.
  intros OK E NE. split; [apply (PropsEval.read_value_suffix l s _ s' E)|]. unfold read_value in E. apply bind_ret in E as (p & s1 & LX & E). apply lift_ret in LX as (LX & ->). pose proof (lex_fst _ _ LX) as (SU & LT).
  pose proof E as E0. apply PropsEval.read_token_suffix in E0. cbn [snd] in E0. apply suffix_length in E0. replace (2 * List.length l + 2)%nat with (S (2 * List.length l + 1)) in E by lia. destruct (fst p) as [t|] eqn:FP.
  - destruct (match t with TError => true | _ => false end) eqn:TE.
    + destruct t; try discriminate TE. cbn [read_token] in E. unfold read_error in E. apply bind_ret in E as (v & s2 & NE2 & E). injection E as <- <- <-. right. apply new_error_ret in NE2 as (m & AE); [|exact OK]. destruct (ae_cell _ _ _ _ AE) as (a & L). eexists _, _, _. split; [exact L|reflexivity].
    + left. specialize (LT t eq_refl ltac:(intros ->; discriminate TE)). lia.
  - cbn [read_token] in E. injection E as <- <- <-. left. rewrite (lex_none l p LX FP). destruct l; [contradiction|cbn; lia].
Qed.

(** ** Evaluation and reading keep the identities in order *)
Lemma eval_ids n v e s x s' : ids_ok s -> 0 < nextId s -> eval n v e s = Ret (x, s') -> ids_ok s' /\ nextId s <= nextId s'.
Proof.
  intros OK L E. assert (K : rel 0 _ (eval n v e) (eval n v e)).
  { apply (r_eval (rel 0) (fun c => cmark c = false) (fun _ => True)); try exact (le_n _); auto using closed_all, rel_assoc, rel_ret, rel_bind, rel_nofuel, rel_push, rel_pop, rel_cell, rel_put_cell, rel_alloc, rel_new_error, rel_annotate, rel_put_fresh, rel_heap, rel_lift.
    all: try (intros; apply rel_read; reflexivity).
    all: try (intros; apply rel_set; intros; cbn; auto).
    all: intros; intros s0 I0 L0; exact Logic.I. }
  specialize (K s OK L). rewrite E in K. tauto.
Qed.
Lemma read_value_ids l s x s' : ids_ok s -> 0 < nextId s -> read_value l s = Ret (x, s') -> ids_ok s' /\ nextId s <= nextId s'.
Proof.
  intros OK L E. assert (K : rel 0 _ (read_value l) (read_value l)).
  { apply (r_read_value (rel 0) (fun c => cmark c = false) (fun _ => True)); try exact (le_n _); auto using closed_all, rel_assoc, rel_ret, rel_bind, rel_nofuel, rel_push, rel_pop, rel_cell, rel_put_cell, rel_alloc, rel_new_error, rel_annotate, rel_put_fresh, rel_heap, rel_lift.
    all: try (intros; apply rel_read; reflexivity).
    all: try (intros; apply rel_set; intros; cbn; auto).
    all: intros; intros s0 I0 L0; exact Logic.I. }
  specialize (K s OK L). rewrite E in K. tauto.
Qed.
Lemma alloc_ids d s x s' : ids_ok s -> 0 < nextId s -> alloc d s = Ret (x, s') -> ids_ok s' /\ nextId s <= nextId s'.
Proof. intros OK L E. pose proof (rel_alloc 0 d s OK L) as K. rewrite E in K. tauto. Qed.

Lemma pop_two v env s x s' : stack s = env :: v :: stack x -> pops [env; v] s = Ret (tt, s') -> s' = with_stack s (stack x).
Proof.
  intros ST E. unfold pops in E. cbn [iterM] in E. apply bind_ret in E as (u1 & s1 & E1 & E). apply bind_ret in E as (u2 & s2 & E2 & E). injection E as <-. apply PropsEval.pop_ret in E1 as ->. apply PropsEval.pop_ret in E2 as ->. cbn [stack with_stack]. rewrite ST. reflexivity.
Qed.
(** The value of an error is that error. *)
Lemma eval_error n v g s o s' : is_error_at s v -> quit s = false -> eval n v g s = Ret (o, s') -> o = Some v /\ all s' = all s.
Proof.
  intros (c & m & k & L & D) Q E. destruct n as [|n]; [discriminate E|]. cbn [eval] in E. destruct n as [|n]; [discriminate E|]. cbn [eval_loop] in E. apply bind_ret in E as ((o1, w) & s1 & E1 & E).
  assert (X : o1 = Some v /\ w = false /\ all s1 = all s).
  { unfold eval_impl in E1. apply bind_ret in E1 as (q & s2 & E2 & E1). injection E2 as <- <-. rewrite Q in E1. apply bind_ret in E1 as (ed & s2 & E2 & E1). apply get_ret in E2 as (c2 & L2 & -> & ->). destruct (cdata c2); try discriminate E1.
    apply bind_ret in E1 as (u & s2 & E2 & E1). injection E2 as <- <-. apply bind_ret in E1 as (u & s3 & E2 & E1). injection E2 as <- <-. apply bind_ret in E1 as (c3 & s4 & E2 & E1). unfold get_cell in E2. cbn [all with_stack] in E2. rewrite L in E2. injection E2 as <- <-. rewrite D in E1.
    apply bind_ret in E1 as ([] & s5 & E2 & E1). injection E1 as <- <- <-. apply (pop_two v g _ s) in E2; [|reflexivity]. subst s5. auto. }
  destruct X as (-> & -> & A). cbn [negb] in E. injection E as <- <-. auto.
Qed.

Lemma ends_leave last r : ends (leave last r).
Proof. destruct last; cbn [leave]; [apply ends_bind; [apply ends_pop|]; intro|]; apply ends_ret. Qed.
Lemma ends_set_line x n : ends (set_line x n).
Proof. apply ends_bind; [apply ends_get|]. intros []; auto with edb. Qed.
Lemma pop_ret_any r s u s' : pop r s = Ret (u, s') -> s' = with_stack s (tl (stack s)).
Proof. apply PropsEval.pop_ret. Qed.
Lemma good_rest i : input_good i = true -> rest i <> [].
Proof. unfold input_good. destruct (rest i); [discriminate|discriminate]. Qed.
Lemma pops_suffix_rest i r : suffix r (rest i) -> rest (input_pops (List.length (rest i) - List.length r) i) = r.
Proof. intro S. rewrite PropsEval.pops_rest. apply PropsEval.skip_suffix, S. Qed.

Lemma loop_ends fuel : forall k i last result s, (List.length (rest i) <= k)%nat -> ids_ok s -> 0 < nextId s ->
  (forall v g s1, asks fuel i last s v g s1 -> eval fuel v g s1 <> NoFuel /\ (quit s1 = true -> ~ is_error_at s1 v)) ->
  read_eval_loop k fuel i last result s <> NoFuel.
Proof.
  induction k as [|k IH]; intros i last result s LE OK PO H; unfold read_eval_loop; cbn [read_eval_loop_by]; destruct (input_good i) eqn:GI; try apply ends_leave.
  - apply good_rest in GI. destruct (rest i); [contradiction|cbn in LE; lia].
  - pose proof (good_rest i GI) as NE. apply ends_then; [apply read_value_ends|]. intros (o, r) s1 RV. destruct (read_value_moves _ _ _ _ _ OK RV NE) as (SU & MV). destruct (read_value_ids _ _ _ _ OK PO RV) as (OK1 & PO1). cbn [fst snd].
    set (i' := input_pops (List.length (rest i) - List.length r) i) in *. assert (RI : rest i' = r) by (apply pops_suffix_rest, SU).
    assert (GO : forall x s2, ids_ok s2 -> 0 < nextId s2 -> ((List.length r < List.length (rest i))%nat \/ is_error_at s2 x) ->
      (forall v g s3, asks fuel i' (Some x) (next_form last x s2) v g s3 -> eval fuel v g s3 <> NoFuel /\ (quit s3 = true -> ~ is_error_at s3 v)) ->
      (match last with Some g => pop g | None => ret tt end ;;; push x ;;; e <- is_error x ;; if (e : bool) then set_line x (N.of_nat (line i')) ;;; leave (Some x) (Some x) else read_eval_loop_by k (eval fuel) i' (Some x) (Some x)) s2 <> NoFuel).
    { intros x s2 OK2 PO2 MV2 H2. apply ends_then; [destruct last; [apply ends_pop|discriminate]|]. intros u s3 E3. apply ends_then; [discriminate|]. intros u4 s4 E4. injection E4 as _ <-.
      assert (S4 : with_stack s3 (x :: stack s3) = next_form last x s2) by (destruct last; [apply PropsEval.pop_ret in E3 as ->|injection E3 as _ <-]; reflexivity). rewrite S4.
      apply ends_then; [apply ends_is_error|]. intros e s5 E5. unfold is_error in E5. apply bind_ret in E5 as (d & s6 & E5 & E6). apply get_ret in E5 as (c & L & -> & ->). injection E6 as <- <-. destruct (is_error_data (cdata c)) eqn:ED.
      - apply ends_bind; [apply ends_set_line|]. intro. apply ends_leave.
      - apply IH; [|exact OK2|exact PO2|exact H2]. rewrite RI. destruct MV2 as [MV2|(c2 & m & n & L2 & D2)]; [lia|]. cbn [next_form all with_stack] in L. rewrite L2 in L. injection L as <-. rewrite D2 in ED. discriminate ED. }
    destruct o as [v|]; cbn [eval_read_by].
    + apply ends_then; [apply ends_then; [discriminate|]; intros g s2 E2; injection E2 as <- <-; apply H, (asks_now fuel i last s v r s1 GI RV)|].
      intros o s2 E2. apply bind_ret in E2 as (g & s1' & E1 & E2). injection E1 as <- <-. destruct (H v (genv s1) s1 (asks_now fuel i last s v r s1 GI RV)) as (_ & QE). destruct (eval_ids _ _ _ _ _ _ OK1 ltac:(lia) E2) as (OK2 & PO2).
      destruct o as [x|]; [|apply ends_leave]. apply GO; [exact OK2|lia| |].
      * destruct MV as [MV|MV]; [left; exact MV|right]. destruct (quit s1) eqn:Q; [exfalso; apply QE; auto|]. destruct (eval_error _ _ _ _ _ _ MV Q E2) as (X & A). injection X as ->. destruct MV as (c & m & n & L & D). exists c, m, n. rewrite A. auto.
      * intros v' g' s3 A. apply H. eapply asks_later; eauto.
    + destruct MV as [MV|[]]. apply ends_then.
      { apply ends_then; [discriminate|]. intros q s2 E2. injection E2 as <- <-. destruct (quit s1); [apply ends_bind; [apply ends_alloc|]; intro; apply ends_ret|]. apply ends_bind; [discriminate|]. intro. apply ends_bind; [apply ends_get|]. intros []; first [apply ends_abort|apply ends_ret]. }
      intros o s2 E2. apply bind_ret in E2 as (q & s1' & E1 & E2). injection E1 as <- <-. destruct (quit s1) eqn:Q.
      * apply bind_ret in E2 as (x & s3 & E3 & E2). injection E2 as <- <-. destruct (alloc_ids _ _ _ _ OK1 ltac:(lia) E3) as (OK2 & PO2). apply GO; [exact OK2|lia|auto|]. intros v' g' s4 A. apply H. eapply asks_after_nothing; eauto.
      * apply bind_ret in E2 as (g & s3 & E3 & E2). apply bind_ret in E2 as (d & s4 & E4 & E2). destruct d; try discriminate E2. injection E2 as <- <-. apply ends_leave.
Qed.
Theorem text_ends fuel i s : ids_ok s -> 0 < nextId s -> (forall v g s1, asks fuel i None s v g s1 -> eval fuel v g s1 <> NoFuel /\ (quit s1 = true -> ~ is_error_at s1 v)) -> read_eval fuel i s <> NoFuel.
Proof.
  intros OK PO H. unfold read_eval, read_eval_by. destruct (input_good i); [|apply ends_bind; [apply ends_new_error|]; intro; apply ends_ret]. apply loop_ends; [reflexivity|assumption..].
Qed.
