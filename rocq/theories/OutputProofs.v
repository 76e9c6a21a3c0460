(** string-format, print, println and print-readably do what SpecOutput.v says. *)
From Coq Require Import String List NArith ZArith Bool Lia Arith.
From Verif Require Import Base ListLemmas SpecText OString OStringProofs HMap Heap SpecHeap GcProofs VmProofs ValueOps Env Copy ToText Builtins Eval SafeBase SafeRead SafeLib SafeBuiltins SafeEval SpecTrace SpecSpecial SpecCall SpecDefine SpecEval SpecValue SpecReal SpecPrint SpecBuiltin SpecOutput TraceProofs SpecialProofs SpecialEval CallProofs CopyProofs DefineProofs RealProofs PrintProofs BuiltinProofs.
Import ListNotations.
Local Open Scope list_scope.
Local Open Scope N_scope.
Notation wp := (SafeBase.wp true).
Notation Inv := (SafeBase.Inv true).

Lemma octets_spec t o : octets_of t = Ret o -> octets t o.
Proof.
  intros E F. unfold octets_of in E. assert (CO : coherent (text_str t)) by now left.
  destruct (get_c_string_scalar (text_str t) CO F) as (s' & G & _). rewrite G in E. cbn [obind snd] in E. injection E as <-.
  assert (FB : Forall decodable (before_nul t)).
  { apply Forall_forall. intros c I. apply scalar_decodable; [|intros ->; now apply (before_nul_no t)].
    destruct (before_nul_split t) as (q & [(E1 & _)|E1]); rewrite E1 in F; [|apply Forall_app in F as (F & _)]; exact (proj1 (Forall_forall _ _) F c I). }
  cbn [text_str ucs]. destruct (before_nul_split t) as (q & [(E1 & _)|E1]).
  - rewrite E1 at 1. apply cstr_app_nul. now apply utf8_text_nonul.
  - rewrite E1 at 1. rewrite utf8_text_app, utf8_text_cons. change (utf8 0) with [0]. rewrite <- !app_assoc. cbn [app]. apply cstr_app_nul. now apply utf8_text_nonul.
Qed.

Lemma skipn_nth {X} (l : list X) k x : nth_error l k = Some x -> skipn k l = x :: skipn (S k) l.
Proof. revert k. induction l as [|y l IH]; intros [|k] E; try discriminate; [injection E as ->; reflexivity|]. cbn [nth_error] in E. cbn [skipn]. rewrite (IH k E). reflexivity. Qed.

(** The pieces of a format string, filled in. *)
Section Pieces.
Context (lit : N -> list N) (show : ref -> list N -> Prop) (l : list ref) (fill : piece -> outcome (list N)).
Context (FC : forall c o, fill (PChar c) = Ret o -> o = lit c).
Context (FA : forall k o, fill (PArg k) = Ret o -> exists x, nth_error l k = Some x /\ show x o).
Lemma pieces_formatted : forall n t k prev os, (List.length t <= n)%nat ->
  omap fill (fst (pieces (List.length l) k prev t)) = Ret os ->
  formatted lit show (prev =? 39) t (skipn k l) (List.concat os) (snd (pieces (List.length l) k prev t)).
Proof using FC FA.
  induction n as [|n IH]; intros t k prev os LE; (destruct t as [|c t]; [intros [= <-]; constructor|]); [cbn in LE; lia|].
  assert (CH : forall p' q os, omap fill (fst (add_piece (PChar c) (pieces (List.length l) k p' t))) = Ret os ->
    (formatted lit show (p' =? 39) t (skipn k l) q (snd (pieces (List.length l) k p' t)) -> True) ->
    exists o, os = lit c :: o /\ formatted lit show (p' =? 39) t (skipn k l) (List.concat o) (snd (pieces (List.length l) k p' t))).
  { intros p' q os' E _. cbn [add_piece fst omap] in E. destruct (fill (PChar c)) as [o1| | | | |] eqn:E1; try discriminate. cbn [obind] in E.
    destruct (omap fill (fst (pieces (List.length l) k p' t))) as [o2| | | | |] eqn:E2; try discriminate. cbn [obind] in E. injection E as <-. apply FC in E1. subst o1. exists o2. split; [reflexivity|]. apply IH; [cbn in LE; lia|exact E2]. }
  cbn [pieces]. destruct ((c =? 39) && (prev =? 39)) eqn:EQ.
  - apply andb_true_iff in EQ as (E1 & E2). apply N.eqb_eq in E1. subst c. rewrite E2. intros E. destruct (CH 0 [] os E (fun _ => I)) as (o & -> & K). cbn [add_piece snd List.concat].
    apply (form_quote lit show true). exact K.
  - assert (PL : c = 39 \/ (prev =? 39) = true \/ (forall t', c :: t <> asc "{}" ++ t') -> forall os, omap fill (fst (add_piece (PChar c) (pieces (List.length l) k c t))) = Ret os ->
      formatted lit show (prev =? 39) (c :: t) (skipn k l) (List.concat os) (snd (add_piece (PChar c) (pieces (List.length l) k c t)))).
    { intros C os' E. destruct (CH c [] os' E (fun _ => I)) as (o & -> & K). cbn [add_piece snd List.concat]. destruct (N.eqb_spec c 39) as [->|NC].
      - cbn [andb] in EQ. rewrite EQ. apply (form_quote lit show false). exact K.
      - apply form_char; [intros [= F]; congruence|destruct C as [C|C]; [congruence|exact C]|exact K]. }
    destruct ((c =? 123) && negb (prev =? 39)) eqn:EB; cycle 1.
    + apply PL. destruct (N.eqb_spec c 123) as [->|NB]; [cbn [andb] in EB; apply negb_false_iff in EB; auto|]. right. right. intros t' [= F]. congruence.
    + apply andb_true_iff in EB as (E1 & E2). apply N.eqb_eq in E1. apply negb_true_iff in E2. subst c. rewrite E2 in PL |- *. destruct t as [|d t]; [apply PL; right; right; intros t' F; discriminate|].
      destruct (N.eq_dec d 125) as [->|ND].
      * destruct (Nat.leb_spec (List.length l) k) as [GE|LT].
        -- intros [= <-]. rewrite skipn_all2 by exact GE. apply (form_missing lit show t).
        -- intros E. cbn [add_piece fst omap] in E. destruct (fill (PArg k)) as [o1| | | | |] eqn:F1; try discriminate. cbn [obind] in E.
           destruct (omap fill (fst (pieces (List.length l) (S k) 123 t))) as [o2| | | | |] eqn:F2; try discriminate. cbn [obind] in E. injection E as <-.
           destruct (FA _ _ F1) as (x & NX & SX). rewrite (skipn_nth _ _ _ NX). cbn [add_piece snd List.concat]. apply (form_argument lit show t x (skipn (S k) l)); [exact SX|]. apply (IH t (S k) 123 o2); [cbn in LE; lia|exact F2].
      * assert (NE : forall t', 123 :: d :: t <> asc "{}" ++ t') by (intros t' [= F _]; congruence).
        assert (RW : (match d :: t with | 125 :: t' => if Nat.leb (List.length l) k then ([], false) else add_piece (PArg k) (pieces (List.length l) (S k) 123 t') | _ => add_piece (PChar 123) (pieces (List.length l) k 123 (d :: t)) end) = add_piece (PChar 123) (pieces (List.length l) k 123 (d :: t))).
        { destruct d as [|p]; [reflexivity|]. do 7 (destruct p as [p|p|]; try reflexivity). congruence. }
        rewrite RW. intros E. apply PL; auto.
Qed.
End Pieces.

(** ** string-format *)
Ltac err1 H := eapply q_error; [exact H|auto].
Lemma string_format_reader : reader BiStringFormat string_format_result.
Proof.
  apply reader_intro; [easy|]. intros n m a env xs s c A IE L E. cbn [builtin_call]. unfold b_string_format. pose proof (args_start a s A) as H.
  apply wp_bind. eapply args_vec; [exact L|exact E|exact H|]. unfold string_format_result. destruct xs as [|x [|y t]]; [err1 H| |].
  - apply wp_bind, wp_read. apply wp_bind, wp_heap; [discriminate|]. intros u U. eapply q_alloc; [exact H|easy|]. intros r s' _ _ M _ _. exists u. split; [eapply to_text_shown; exact U|exact M].
  - apply wp_bind, wp_read. apply wp_bind. eapply args_get; [exact A|exact L|exact E|exact H|now left|]. intros d D.
    assert (NO : (forall t, d <> DStr t) -> wp new_error (fun r s' => exists d, data_at s x = Some d /\ match d with DStr w => exists u ok, formatted (fun c => [c]) (shown (readably s) true (all s)) false w (y :: t) u ok /\ (if ok then makes s s' r (DStr u) else complains s s' r) | _ => complains s s' r end) s).
    { intros ND. eapply q_error; [exact H|]. intros r s' _ C. exists d. split; [exact D|]. destruct d; try exact C. exfalso. eapply ND. reflexivity. }
    destruct d as [ |db|dz|df|dt|dt|dt|dmsg dline|l|mm|l max|l|db denc|df|df|dp|dp|dv]; try (apply NO; discriminate). clear NO.
    apply wp_bind, wp_heap; [discriminate|]. intros us U.
    assert (F : formatted (fun c => [c]) (shown (readably s) true (all s)) false dt (y :: t) (List.concat us) (snd (pieces (List.length (x :: y :: t)) 1 0 dt))).
    { apply (pieces_formatted (fun c => [c]) (shown (readably s) true (all s)) (x :: y :: t) (piece_text (readably s) n (all s) (x :: y :: t))) with (n := List.length dt) (k := 1%nat) (prev := 0); [| |lia|exact U].
      - intros ch o [= <-]. reflexivity.
      - intros k o. cbn [piece_text]. destruct (nth_error (x :: y :: t) k) as [w|]; [|discriminate]. intros EW. exists w. split; [reflexivity|eapply to_text_shown; exact EW]. }
    destruct (snd (pieces (List.length (x :: y :: t)) 1 0 dt)).
    + eapply q_alloc; [exact H|easy|]. intros r s' _ _ M _ _. eexists. split; [exact D|]. exists (List.concat us). eexists. split; [exact F|]. assumption.
    + eapply q_error; [exact H|]. intros r s' _ C. eexists. split; [exact D|]. exists (List.concat us). eexists. split; [exact F|]. assumption.
Qed.

(** ** print and println *)
Lemma output_inv P s o : Inv P s -> Inv P (with_output s o).
Proof. intros [X1 X2 X3 X4 X5 X6 X7 X8]. constructor; auto. Qed.
Lemma readably_inv P s b : Inv P s -> Inv P (with_readably s b).
Proof. intros [X1 X2 X3 X4 X5 X6 X7 X8]. constructor; auto. Qed.
Lemma wp_write o (Q : unit -> vm -> Prop) s : Q tt (with_output s (output s ++ o)) -> wp (write_out o) Q s.
Proof. intros K. exact K. Qed.
Lemma writes_at a s o G s' : At true [a] (with_output s (output s ++ o)) [] G s' -> writes s o s'.
Proof. intros H. unfold writes. change (stack s) with (stack (with_output s (output s ++ o))). eapply keeps_at. exact H. Qed.
Lemma writes_more s o s1 p : writes s o s1 -> writes s (o ++ p) (with_output s1 (output s1 ++ p)).
Proof.
  intros (K1 & K2 & K3 & K4 & K5 & K6 & K7). split; [exact K1|]. cbn [genv fret quit exitCode readably output with_output] in *. split; [exact K2|]. split; [exact K3|]. split; [exact K4|]. split; [exact K5|]. split; [exact K6|].
  now rewrite K7, app_assoc.
Qed.
Lemma print_spec n a s c xs : Inv [a] s -> lookup (all s) a = Some c -> cdata c = DVec xs -> wp (b_print n a) (fun r s' => print_result s a xs s' r) s.
Proof.
  intros A L E. unfold b_print. pose proof (args_start a s A) as H. apply wp_bind. eapply args_vec; [exact L|exact E|exact H|]. unfold print_result. destruct xs as [|x t].
  { eapply q_error; [exact H|]. intros r s' H' C. split; [|exact C]. eapply (writes_at a s []). replace (with_output s (output s ++ [])) with s by (rewrite app_nil_r; destruct s; reflexivity). exact H'. }
  apply wp_bind. eapply args_get; [exact A|exact L|exact E|exact H|now left|]. intros d D. apply wp_bind, wp_read.
  assert (YES : forall o, printed s x d t o true -> wp (write_out o ;;; value_true) (fun r s' => exists d o ok, data_at s x = Some d /\ printed s x d t o ok /\ writes s o s' /\ if ok then makes s s' r (DBool true) else complains s s' r) s).
  { intros o P. apply wp_bind, wp_write. unfold value_true. eapply q_const; [exact (at_start true true [a] _ (output_inv [a] s (output s ++ o) A))|intros y []|]. intros r s' H' _ M _. exists d, o, true. split; [exact D|]. split; [exact P|]. split; [eapply writes_at; exact H'|exact M]. }
  assert (NO : forall o, printed s x d t o false -> wp (write_out o ;;; new_error) (fun r s' => exists d o ok, data_at s x = Some d /\ printed s x d t o ok /\ writes s o s' /\ if ok then makes s s' r (DBool true) else complains s s' r) s).
  { intros o P. apply wp_bind, wp_write. eapply q_error; [exact (at_start true true [a] _ (output_inv [a] s (output s ++ o) A))|]. intros r s' H' M. exists d, o, false. split; [exact D|]. split; [exact P|]. split; [eapply writes_at; exact H'|exact M]. }
  assert (ONE : (forall o, said s x o -> printed s x d t o true) -> wp (o <- heap_op (fun h => obind (to_text (readably s) false n h x) octets_of) ;; write_out o ;;; value_true) (fun r s' => exists d o ok, data_at s x = Some d /\ printed s x d t o ok /\ writes s o s' /\ if ok then makes s s' r (DBool true) else complains s s' r) s).
  { intros K. apply wp_bind, wp_heap; [discriminate|]. intros o U. apply YES, K. destruct (to_text (readably s) false n (all s) x) as [u| | | | |] eqn:EU; try discriminate. exists u. split; [eapply to_text_shown; exact EU|apply octets_spec; exact U]. }
  destruct d as [ |db|dz|df|dt|dt|dt|dmsg dline|l|mm|l max|l|db denc|df|df|dp|dp|dv]; try (apply ONE; intros o S; split; [exact S|reflexivity]).
  destruct t as [|y t]; [apply ONE; intros o S; split; [exact S|reflexivity]|].
  apply wp_bind, wp_heap; [discriminate|]. intros us U.
  assert (F : formatted (fun c => [c mod 256]) (said s) false dt (y :: t) (List.concat us) (snd (pieces (List.length (x :: y :: t)) 1 0 dt))).
  { apply (pieces_formatted (fun c => [c mod 256]) (said s) (x :: y :: t) (piece_octets (readably s) n (all s) (x :: y :: t))) with (n := List.length dt) (k := 1%nat) (prev := 0); [| |lia|exact U].
    - intros ch o [= <-]. reflexivity.
    - intros k o. cbn [piece_octets]. destruct (nth_error (x :: y :: t) k) as [w|]; [|discriminate]. destruct (to_text (readably s) false n (all s) w) as [u| | | | |] eqn:EU; try discriminate. intros EW. exists w. split; [reflexivity|]. exists u. split; [eapply to_text_shown; exact EU|apply octets_spec; exact EW]. }
  destruct (snd (pieces (List.length (x :: y :: t)) 1 0 dt)); [now apply YES|now apply NO].
Qed.
Lemma print_does : does BiPrint print_result.
Proof.
  intros n m a env xs s r s' AR EB. destruct (arguments_inv _ _ _ _ AR) as (A & GE & IE & c & L & E).
  exact (wp_ret_inv _ _ _ _ _ (print_spec n a s c xs A L E) EB).
Qed.
Lemma println_does : does BiPrintln println_result.
Proof.
  intros n m a env xs s r s' AR EB. destruct (arguments_inv _ _ _ _ AR) as (A & GE & IE & c & L & E).
  assert (W : wp (builtin_call n (Eval.eval m) BiPrintln a env) (fun r s' => println_result s env xs s' r) s); [|exact (wp_ret_inv _ _ _ _ _ W EB)].
  cbn [builtin_call]. unfold b_println. pose proof (args_start a s A) as H. apply wp_bind. eapply args_vec; [exact L|exact E|exact H|]. destruct xs as [|x t].
  - apply wp_bind, wp_write. unfold value_true. eapply q_const; [exact (at_start true true [a] _ (output_inv [a] s (output s ++ [10]) A))|intros y []|]. intros w s2 H' _ M _. split; [eapply writes_at; exact H'|exact M].
  - apply wp_bind. eapply wp_mono; [exact (print_spec n a s c _ A L E)|]. intros w s2 (d & o & ok & D & P & W & R). apply wp_bind, wp_write. apply wp_ret. exists d, o, ok. split; [exact D|]. split; [exact P|]. split; [now apply writes_more|].
    destruct ok; exact R.
Qed.

(** ** print-readably *)
Lemma print_readably_does : does BiPrintReadably print_readably_result.
Proof.
  intros n m a env xs s r s' AR EB. destruct (arguments_inv _ _ _ _ AR) as (A & GE & IE & c & L & E).
  assert (W : wp (builtin_call n (Eval.eval m) BiPrintReadably a env) (fun r s' => print_readably_result s env xs s' r) s); [|exact (wp_ret_inv _ _ _ _ _ W EB)].
  cbn [builtin_call]. unfold b_print_readably. pose proof (args_start a s A) as H. apply wp_bind. eapply args_vec; [exact L|exact E|exact H|]. destruct xs as [|x [|y t]].
  - apply wp_bind, wp_read. eapply q_alloc; [exact H|easy|]. intros w s2 H2 _ M _ _. split; [eapply keeps_at; exact H2|exact M].
  - apply wp_bind. eapply q_push_all; [exact H|right; right; left; apply (i_priv _ _ _ A); now left|]. intros s1 H1 E1.
    apply wp_bind. eapply args_get; [exact A|exact L|exact E|exact H1|now left|]. intros d D.
    assert (NO : (forall b, d <> DBool b) -> wp (pop a ;;; new_error) (fun r s' => print_readably_result s env [x] s' r) s1).
    { intros ND. apply wp_bind. eapply at_pop; [exact H1|]. intros s2 H2 _. eapply q_error; [exact H2|]. intros w s3 H3 C. exists d. split; [exact D|]. assert (K : keeps (stack s) s s3) by (eapply keeps_at; exact H3). destruct d; try (split; [exact K|exact C]). exfalso. eapply ND. reflexivity. }
    destruct d as [ |db|dz|df|dt|dt|dt|dmsg dline|l|mm|l max|l|db denc|df|df|dp|dp|dv]; try (apply NO; discriminate). clear NO.
    apply wp_bind. unfold set_readably at 1. unfold SafeBase.wp at 1.
    assert (H2 : At true [a] (with_readably s db) [a] (fun _ => False) (with_readably s1 db)).
    { destruct H1 as [Y1 Y2 Y3 Y4 Y5 Y6 Y7 Y8]. constructor; auto using readably_inv; try easy. intros _. destruct (Y7 eq_refl) as (Z1 & Z2 & Z3 & Z4 & Z5). cbn [fret quit exitCode readably output with_readably]. auto. }
    apply wp_bind. eapply at_pop; [exact H2|]. intros s3 H3 _. apply wp_bind, wp_read. eapply q_alloc; [exact H3|easy|]. intros w s4 H4 _ M _ _. exists (DBool db). split; [exact D|].
    split; [change (stack s) with (stack (with_readably s db)); eapply keeps_at; exact H4|]. assert (RD : readably s3 = db) by (destruct (a_misc _ _ _ _ _ _ _ H3 eq_refl) as (_ & _ & _ & R & _); exact R). rewrite RD in M. exact M.
  - eapply q_error; [exact H|]. intros w s2 H2 C. split; [eapply keeps_at; exact H2|exact C].
Qed.
