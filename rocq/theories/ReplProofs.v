(** Proofs about the stand-alone program (Repl.v). *)
From Coq Require Import NArith ZArith Bool Lia Arith String List.
From Coq Require Import ZifyBool ZifyNat ZifyN.
From Verif Require Import VmProofs Base SpecText OString OStringProofs Input Lexer LexerProofs HMap Heap ValueOps Env EnvProofs ToText Eval Read SpecRead StackProofs Relate SpecHistory HistoryProofs SafeBase SafeRead SafeLib SafeBuiltins SafeSpecials SafeText SafeEval SafeRun Repl SpecRepl.
Import ListNotations.
Local Open Scope N_scope.

(** ** The command line *)
Lemma is_arg_spec a x y : reflect (either a x y) (is_arg a x y).
Proof.
  unfold is_arg, either. destruct (text_eqb_spec a (asc x)); [constructor; auto|]. destruct (text_eqb_spec a (asc y)); constructor; tauto.
Qed.
Definition plus (o : options) (l : list item) : options :=
  mkOptions (colors o || among Coloured l) (interactive o || among Interactive l) (debug o || among Debugging l) (keepLibraries o || among KeepLibraries l)
            (strings o ++ strings (asked l None)) (includes o ++ includes (asked l None)) (script o).
Lemma plus_nil o : plus o [] = o.
Proof. destruct o as [c i d k s n sc]. unfold plus. cbn. now rewrite !orb_false_r, !app_nil_r. Qed.
Ltac plus_cons := match goal with o : options |- _ => destruct o as [c i d k st n sc] end; unfold plus; cbn;
  rewrite ?orb_true_r, <- ?app_assoc; cbn [orb app]; reflexivity.
Lemma plus_colors o l : plus (with_colors o) l = plus o (Coloured :: l). Proof. plus_cons. Qed.
Lemma plus_interactive o l : plus (with_interactive o) l = plus o (Interactive :: l). Proof. plus_cons. Qed.
Lemma plus_debug o l : plus (with_debug o) l = plus o (Debugging :: l). Proof. plus_cons. Qed.
Lemma plus_libraries o l : plus (with_libraries o) l = plus o (KeepLibraries :: l). Proof. plus_cons. Qed.
Lemma plus_string o s l : plus (with_string o s) l = plus o (Evaluate s :: l). Proof. plus_cons. Qed.
Lemma plus_include o s l : plus (with_include o s) l = plus o (Include s :: l). Proof. plus_cons. Qed.
Lemma p_colors : forall a o l, either a "-c" "--color-diagnostics" -> parse_args false false o (a :: l) = parse_args false false (with_colors o) l. 
Proof. intros a o l [->| ->]; reflexivity. Qed.
Lemma p_interactive : forall a o l, either a "-i" "--interactive" -> parse_args false false o (a :: l) = parse_args false false (with_interactive o) l.
Proof. intros a o l [->| ->]; reflexivity. Qed.
Lemma p_debug : forall a o l, either a "-g" "--debug" -> parse_args false false o (a :: l) = parse_args false false (with_debug o) l.
Proof. intros a o l [->| ->]; reflexivity. Qed.
Lemma p_libraries : forall a o l, either a "-d" "--no-dlclose" -> parse_args false false o (a :: l) = parse_args false false (with_libraries o) l.
Proof. intros a o l [->| ->]; reflexivity. Qed.
Lemma p_evaluate : forall a o l, either a "-e" "--evaluate" -> parse_args false false o (a :: l) = parse_args true false o l.
Proof. intros a o l [->| ->]; reflexivity. Qed.
Lemma p_include : forall a o l, either a "-I" "--include" -> parse_args false false o (a :: l) = parse_args false true o l.
Proof. intros a o l [->| ->]; reflexivity. Qed.
Lemma p_version : forall a o l, either a "-v" "--version" -> parse_args false false o (a :: l) = ShowVersion.
Proof. intros a o l [->| ->]; reflexivity. Qed.
Lemma p_help : forall a o l, either a "-h" "--help" -> parse_args false false o (a :: l) = ShowUsage.
Proof. intros a o l [->| ->]; reflexivity. Qed.
Lemma p_other a o l : ~ known a -> parse_args false false o (a :: l) = match a with 45 :: _ => Refuse a | _ => Start (with_script o a l) end.
Proof.
  intro K. unfold known in K. cbn [parse_args].
  destruct (is_arg_spec a "-c" "--color-diagnostics"); [tauto|]. destruct (is_arg_spec a "-i" "--interactive"); [tauto|].
  destruct (is_arg_spec a "-I" "--include"); [tauto|]. destruct (is_arg_spec a "-e" "--evaluate"); [tauto|].
  destruct (is_arg_spec a "-v" "--version"); [tauto|]. destruct (is_arg_spec a "-h" "--help"); [tauto|].
  destruct (is_arg_spec a "-g" "--debug"); [tauto|]. destruct (is_arg_spec a "-d" "--no-dlclose"); [tauto|]. reflexivity.
Qed.
Lemma parse_written is l : written is l -> forall o r, parse_args false false o (l ++ r) = parse_args false false (plus o is) r.
Proof.
  induction 1 as [|i w is l N W IH]; intros o r; [now rewrite plus_nil|]. rewrite <- app_assoc. destruct N as [a E|a E|a E|a E|a s E|a d E]; cbn [app].
  - now rewrite (p_colors a o _ E), IH, plus_colors.
  - now rewrite (p_interactive a o _ E), IH, plus_interactive.
  - now rewrite (p_debug a o _ E), IH, plus_debug.
  - now rewrite (p_libraries a o _ E), IH, plus_libraries.
  - rewrite (p_evaluate a o _ E). cbn [parse_args]. now rewrite IH, plus_string.
  - rewrite (p_include a o _ E). cbn [parse_args]. now rewrite IH, plus_include.
Qed.
Lemma plus_none is : plus no_options is = asked is None.
Proof. reflexivity. Qed.
Lemma known_dashed a : known a -> dashed a.
Proof. unfold known, either. intro H. repeat destruct H as [H|H]; subst; (eexists; reflexivity). Qed.
Lemma meaning_parse args c : meaning args c -> parse_args false false no_options args = c.
Proof.
  destruct 1 as [is l W|is l a W E|is l p rest W ND|is l a rest W E|is l a rest W E|is l a rest W D NK].
  - rewrite <- (app_nil_r l), (parse_written _ _ W). reflexivity.
  - rewrite (parse_written _ _ W). destruct E as [E|E]; [rewrite (p_evaluate _ _ _ E)|rewrite (p_include _ _ _ E)]; reflexivity.
  - rewrite (parse_written _ _ W), p_other by (intro K; apply ND, known_dashed, K). destruct p as [|x p]; [reflexivity|].
    destruct (N.eq_dec x 45) as [->|NE]; [elim ND; eexists; reflexivity|]. destruct x as [|q]; [reflexivity|]. do 6 (destruct q as [q|q|]; try reflexivity). now elim NE.
  - now rewrite (parse_written _ _ W), (p_version _ _ _ E).
  - now rewrite (parse_written _ _ W), (p_help _ _ _ E).
  - rewrite (parse_written _ _ W), p_other by exact NK. destruct D as (t & ->). reflexivity.
Qed.
Lemma written_snoc is l i w : written is l -> named i w -> written (is ++ [i]) (l ++ w).
Proof.
  induction 1 as [|j w' is l N W IH]; intro H; cbn [app].
  - rewrite <- (app_nil_r w). constructor; [exact H|constructor].
  - rewrite <- app_assoc. constructor; auto.
Qed.
Lemma either_dec a x y : {either a x y} + {~ either a x y}.
Proof. destruct (is_arg_spec a x y); auto. Qed.
Lemma meaning_exists args : exists c, meaning args c.
Proof.
  assert (G : forall n args is l, (List.length args <= n)%nat -> written is l -> exists c, meaning (l ++ args) c).
  { induction n as [|n IH]; intros a is l LE W.
    - destruct a; [|cbn in LE; lia]. eexists. rewrite app_nil_r. now constructor 1 with (is := is).
    - destruct a as [|a r]; [eexists; rewrite app_nil_r; now constructor 1 with (is := is)|]. cbn [List.length] in LE.
      assert (ONE : forall i, named i [a] -> exists c, meaning (l ++ a :: r) c).
      { intros i N. change (a :: r) with ([a] ++ r). rewrite app_assoc. apply (IH r (is ++ [i])); [lia|]. now apply written_snoc. }
      destruct (either_dec a "-c" "--color-diagnostics"); [apply (ONE Coloured); now constructor|].
      destruct (either_dec a "-i" "--interactive"); [apply (ONE Interactive); now constructor|].
      destruct (either_dec a "-g" "--debug"); [apply (ONE Debugging); now constructor|].
      destruct (either_dec a "-d" "--no-dlclose"); [apply (ONE KeepLibraries); now constructor|].
      destruct (either_dec a "-e" "--evaluate").
      { destruct r as [|s r]; [eexists; now apply (m_dangling is); [|left]|]. cbn [List.length] in LE. change (a :: s :: r) with ([a; s] ++ r). rewrite app_assoc.
        apply (IH r (is ++ [Evaluate s])); [lia|]. apply written_snoc; [exact W|now constructor]. }
      destruct (either_dec a "-I" "--include").
      { destruct r as [|s r]; [eexists; now apply (m_dangling is); [|right]|]. cbn [List.length] in LE. change (a :: s :: r) with ([a; s] ++ r). rewrite app_assoc.
        apply (IH r (is ++ [Include s])); [lia|]. apply written_snoc; [exact W|now constructor]. }
      destruct (either_dec a "-v" "--version"); [eexists; now apply (m_version is)|].
      destruct (either_dec a "-h" "--help"); [eexists; now apply (m_help is)|].
      assert (DD : dashed a \/ ~ dashed a).
      { destruct a as [|x a]; [right; intros (t & [=])|]. destruct (N.eq_dec x 45) as [->|NE]; [left; eexists; reflexivity|right; intros (t & [= J _]); auto]. }
      destruct DD as [D|D]; [eexists; apply (m_unknown is); [exact W|exact D|unfold known; tauto]|eexists; now apply (m_script is)]. }
  exact (G (List.length args) args [] [] (le_n _) w_nil).
Qed.

(** ** Lines *)
Lemma utf8_newline c : c <> 10 -> decodable c -> ~ In 10 (utf8 c).
Proof.
  intros NE (A & B) J. unfold utf8 in J. destruct (c <? 0x80) eqn:E1; [destruct J as [J|[]]; lia|]. destruct (c <? 0x800) eqn:E2; [destruct J as [J|[J|[]]]; lia|].
  destruct (c <? 0x10000); cbn [In] in J; intuition lia.
Qed.
Lemma utf8_text_newline l : ~ In 10 l -> Forall decodable l -> ~ In 10 (utf8_text l).
Proof.
  induction l as [|c l IH]; intros NI D J; [exact J|]. rewrite utf8_text_cons in J. inversion D as [|? ? D1 D2]; subst. apply in_app_or in J as [J|J].
  - apply (utf8_newline c); auto. intros ->. apply NI. now left.
  - apply IH; auto. intro K. apply NI. now right.
Qed.
Lemma lines_part : forall b acc, ~ In 10 b -> lines_from acc b = [].
Proof.
  induction b as [|c b IH]; intros acc NI; cbn [lines_from]; [reflexivity|]. destruct (N.eqb_spec c 10) as [->|NE]; [elim NI; now left|]. apply IH. intro J. apply NI. now right.
Qed.
Lemma lines_line : forall a acc b, ~ In 10 a -> lines_from acc (a ++ 10 :: b) = (acc ++ a ++ [10]) :: lines_from [] b.
Proof.
  induction a as [|c a IH]; intros acc b NI; cbn [lines_from app].
  - reflexivity.
  - destruct (N.eqb_spec c 10) as [->|NE]; [elim NI; now left|]. rewrite IH by (intro J; apply NI; now right). now rewrite <- app_assoc.
Qed.
Lemma typed_textual l : typed l -> textual l /\ l <> [].
Proof.
  intros (a & -> & NL & SC & NZ). split; [|destruct a; discriminate]. apply textual_app. split; [now split|]. split; [constructor; [unfold scalar; lia|constructor]|]. intros [J|[]]; discriminate J.
Qed.
Lemma lines_typed ls part : Forall typed ls -> ~ In 10 part -> Forall scalar part -> ~ In 0 part ->
  lines (utf8_text (List.concat ls ++ part)) = map utf8_text ls.
Proof.
  intros T NP SP ZP. unfold lines. induction T as [|l ls (a & -> & NL & SC & NZ) T IH]; cbn [List.concat map app].
  - apply lines_part, utf8_text_newline; [exact NP|]. apply textual_decodable. now split.
  - rewrite <- !app_assoc, utf8_text_app. change ([10] ++ List.concat ls ++ part) with (10 :: List.concat ls ++ part). rewrite utf8_text_cons. change (utf8 10) with [10].
    cbn [app]. rewrite lines_line by (apply utf8_text_newline; [exact NL|apply textual_decodable; now split]). rewrite IH. cbn [app]. now rewrite utf8_text_app.
Qed.
Lemma octets_text_ok l : textual l -> octets_text (utf8_text l) = Ret l.
Proof. intro T. unfold octets_text. now rewrite from_good by exact T. Qed.
Lemma copy_ok l : textual l -> c_string_copy l = Ret l.
Proof.
  intro T. pose proof (via_cstr_ok l T) as V. unfold via_cstr in V. unfold c_string_copy. change (text_str l) with (mkStr l [] None) in *.
  destruct (str_get_c_string _) as [p| | | | |] eqn:E; try discriminate V. cbn [obind] in *. destruct (str_from_buffer (cstr (snd p))) as [o|]; [|discriminate V]. destruct (err o); congruence.
Qed.

(** ** One turn *)
Lemma bal_ret {X} (m : M X) s x s' : balanced m -> m s = Ret (x, s') -> stack s' = stack s.
Proof. intros B E. specialize (B (stack s) s eq_refl). now rewrite E in B. Qed.
Lemma pop_top v s st : stack s = v :: st -> pop v s = Ret (tt, with_stack s st).
Proof. intro E. unfold pop. now rewrite E, N.eqb_refl. Qed.
(** The part of [enter] after a token has been found. *)
Definition turn (fuel : nat) (v : ref) : M (option (bool * text)) :=
  push v ;;; g <- read genv ;; o <- eval fuel v g ;;
  match o with
  | None => pop v ;;; ret None
  | Some x => t <- value_text fuel x ;; e <- is_error v ;; pop v ;;; ret (Some (e, t))
  end.
Lemma enter_read fuel p s : enter fuel p s =
  match lex p with
  | Ret (None, _) => Undef
  | Ret (Some _, _) => obind (read_value p s) (fun '((o, _), s1) => match o with None => Ret (None, s1) | Some v => turn fuel v s1 end)
  | o => obind (no_stack o) (fun _ => Undef)
  end.
Proof.
  unfold enter, read_value, bind, lift. destruct (lex p) as [[[t|] l]| | | | |]; cbn [no_stack obind fst snd]; try reflexivity.
  destruct (read_token (2 * List.length p + 2) (Some t) l s) as [[[[v|] r] s1]| | | | |]; reflexivity.
Qed.
Lemma read_token_found p s v r s1 : read_value p s = Ret ((Some v, r), s1) -> exists t l, lex p = Ret (Some t, l).
Proof.
  unfold read_value, bind, lift. destruct (lex p) as [[[t|] l]| | | | |]; cbn [no_stack obind fst snd]; try discriminate; [eauto|].
  replace (2 * List.length p + 2)%nat with (S (2 * List.length p + 1)) by lia. cbn [read_token]. discriminate.
Qed.
Lemma turn_spec fuel v s : turn fuel v s =
  obind (eval fuel v (genv s) (with_stack s (v :: stack s))) (fun '(o, s2) =>
    match o with
    | None => Ret (None, with_stack s2 (stack s))
    | Some x => obind (no_stack (to_text (readably s2) false fuel (all s2) x)) (fun t =>
        match lookup (all s2) v with Some c => Ret (Some (is_error_data (cdata c), t), with_stack s2 (stack s)) | None => Dangling end)
    end).
Proof.
  unfold turn. unfold bind at 1, push. cbn [obind fst snd]. unfold bind at 1, read. cbn [obind fst snd genv with_stack]. unfold bind at 1.
  destruct (eval fuel v (genv s) (with_stack s (v :: stack s))) as [[[x|] s2]| | | | |] eqn:E; cbn [obind fst snd]; [| |reflexivity..]; apply (bal_ret _ _ _ _ (bal_eval fuel v (genv s))) in E; cbn [stack with_stack] in E.
  - unfold bind at 1, value_text. unfold bind at 1, read. cbn [obind fst snd]. unfold heap_op. destruct (to_text (readably s2) false fuel (all s2) x); cbn [no_stack obind fst snd]; try reflexivity.
    unfold bind at 1, is_error, get, get_cell, bind. cbn [obind fst snd]. destruct (lookup (all s2) v) as [c|]; cbn [obind fst snd]; [|reflexivity]. unfold ret. cbn [obind fst snd]. rewrite (pop_top v s2 _ E). reflexivity.
  - unfold bind. rewrite (pop_top v s2 _ E). reflexivity.
Qed.
Lemma enter_answered fuel p s e t s' : enter fuel p s = Ret (Some (e, t), s') <-> answered fuel s p e t s'.
Proof.
  rewrite enter_read. split.
  - destruct (lex p) as [[[tk|] l]| | | | |] eqn:LX; cbn [no_stack obind]; try discriminate. destruct (read_value p s) as [[[[v|] r] s1]| | | | |] eqn:RV; cbn [obind]; try discriminate.
    rewrite turn_spec. pose proof (bal_ret _ _ _ _ (bal_read_value p) RV) as ST. rewrite ST. destruct (eval _ _ _ _) as [[[x|] s2]| | | | |] eqn:E; cbn [obind]; try discriminate.
    destruct (to_text _ _ _ _ _) as [w| | | | |] eqn:TX; cbn [no_stack obind]; try discriminate. destruct (lookup (all s2) v) as [c|] eqn:L; [|discriminate]. intros [= <- <- <-].
    exists v, r, s1, x, s2, c. rewrite ST. auto 10.
  - intros (v & r & s1 & x & s2 & c & RV & E & TX & L & -> & ->). destruct (read_token_found _ _ _ _ _ RV) as (tk & l & ->). rewrite RV. cbn [obind]. rewrite turn_spec, E. cbn [obind]. rewrite TX. cbn [no_stack obind]. rewrite L.
    now rewrite (bal_ret _ _ _ _ (bal_read_value p) RV).
Qed.
Lemma enter_unanswered fuel p s s' : enter fuel p s = Ret (None, s') <-> unanswered fuel s p s'.
Proof.
  rewrite enter_read. split.
  - destruct (lex p) as [[[tk|] l]| | | | |] eqn:LX; cbn [no_stack obind]; try discriminate. destruct (read_value p s) as [[[[v|] r] s1]| | | | |] eqn:RV; cbn [obind]; try discriminate.
    + rewrite turn_spec. pose proof (bal_ret _ _ _ _ (bal_read_value p) RV) as ST. rewrite ST. destruct (eval _ _ _ _) as [[[x|] s2]| | | | |] eqn:E; cbn [obind]; try discriminate.
      * destruct (to_text _ _ _ _ _) as [w| | | | |] eqn:TX; cbn [no_stack obind]; try discriminate. destruct (lookup (all s2) v) as [c|] eqn:L; discriminate.
      * intros [= <-]. right. exists v, r, s1, s2. rewrite ST. auto.
    + intros [= <-]. left. eauto.
  - intros [(t & l & r & -> & ->)|(v & r & s1 & s2 & RV & E & ->)]; [reflexivity|]. destruct (read_token_found _ _ _ _ _ RV) as (tk & l & ->). rewrite RV. cbn [obind]. rewrite turn_spec, E. cbn [obind].
    now rewrite (bal_ret _ _ _ _ (bal_read_value p) RV).
Qed.
Lemma session_line fuel l ls p s : textual l -> l <> [] ->
  session fuel (utf8_text l :: ls) p s = obind (enter fuel (p ++ l) s) (fun '(a, s1) =>
    match a with
    | None => obind (session fuel ls (p ++ l) s1) (fun '(m, s2) => Ret (MorePrompt :: m, s2))
    | Some (e, w) => if quit s1 then Ret ([Answer e w], s1) else obind (session fuel ls [] s1) (fun '(m, s2) => Ret (Answer e w :: Prompt :: m, s2))
    end).
Proof.
  intros T NE. cbn [session]. unfold bind at 1, lift. rewrite (octets_text_ok l T). cbn [no_stack obind fst snd]. destruct l as [|c l]; [contradiction|]. unfold bind at 1, lift. rewrite (copy_ok _ T). cbn [no_stack obind fst snd].
  unfold bind at 1. destruct (enter fuel (p ++ c :: l) s) as [[[[e w]|] s1]| | | | |]; cbn [obind fst snd]; try reflexivity.
  - unfold bind at 1, read. cbn [obind fst snd]. destruct (quit s1); [reflexivity|]. unfold bind. destruct (session fuel ls [] s1) as [[m s2]| | | | |]; reflexivity.
  - unfold bind. destruct (session fuel ls (p ++ c :: l) s1) as [[m s2]| | | | |]; reflexivity.
Qed.
Lemma session_talk fuel : forall ls p s m s', Forall typed ls -> (session fuel (map utf8_text ls) p s = Ret (m, s') <-> talk fuel s p ls m s').
Proof.
  induction ls as [|l ls IH]; intros p s m s' T.
  - cbn [map session]. split; [intros [= <- <-]; constructor|]. inversion 1; subst. reflexivity.
  - inversion T as [|? ? TL TS]; subst. destruct (typed_textual l TL) as (TX & NE). cbn [map]. rewrite (session_line _ _ _ _ _ TX NE). split.
    + destruct (enter fuel (p ++ l) s) as [[[[e w]|] s1]| | | | |] eqn:E; cbn [obind]; try discriminate.
      * apply enter_answered in E. destruct (quit s1) eqn:Q; [intros [= <- <-]; eapply t_exit; eassumption|].
        destruct (session fuel (map utf8_text ls) [] s1) as [[m1 s2]| | | | |] eqn:S; cbn [obind]; try discriminate. intros [= <- <-]. eapply t_answer; [exact E|exact Q|]. now apply IH.
      * apply enter_unanswered in E. destruct (session fuel (map utf8_text ls) (p ++ l) s1) as [[m1 s2]| | | | |] eqn:S; cbn [obind]; try discriminate. intros [= <- <-]. eapply t_more; [exact E|]. now apply IH.
    + inversion 1 as [|? ? ? ? e w s1 m1 ? A Q K|? ? ? ? e w s1 A Q|? ? ? ? s1 m1 ? A K]; subst.
      * apply enter_answered in A. rewrite A. cbn [obind]. rewrite Q. apply IH in K; [|exact TS]. now rewrite K.
      * apply enter_answered in A. rewrite A. cbn [obind]. now rewrite Q.
      * apply enter_unanswered in A. rewrite A. cbn [obind]. apply IH in K; [|exact TS]. now rewrite K.
Qed.
(** A blank line at the prompt. *)
Lemma session_blank fuel w ls s : blank w -> textual w -> w <> [] -> lex w = Ret (None, []) -> session fuel (utf8_text w :: ls) [] s = Undef.
Proof. intros B T NE LX. rewrite session_line by assumption. cbn [app]. rewrite enter_read, LX. reflexivity. Qed.

(** ** Safety *)
Section Safe.
Context (D : bool).
Notation wp := (SafeBase.wp D).
Notation Inv := (SafeBase.Inv D).
Notation At := (SafeBase.At D).
Ltac has := solve [unfold has; cbn [In app]; auto 15].
Ltac inc H := apply (a_good _ _ _ _ _ _ _ H); auto.
Lemma nd_octets b : nd (octets_text b).
Proof. unfold octets_text. destruct (str_from_buffer b); discriminate. Qed.
Lemma value_text_ok fuel x P s0 pre G (Q : text -> vm -> Prop) s : At false P s0 pre G s -> has false s0 pre G x -> (forall t, Q t s) -> wp (value_text fuel x) Q s.
Proof.
  intros H J K. unfold value_text. apply wp_bind, wp_read. apply wp_heap; [|auto]. intros ED. apply nd_to_text; [eapply at_closed; eauto|]. eapply at_live; eauto.
Qed.
Lemma turn_ok fuel v s : Inv [] s -> good D [] s v -> wp (turn fuel v) (fun _ s' => At false [] s [] (fun _ => False) s') s.
Proof.
  intros A GV. pose proof (at_start D false [] s A) as H0. assert (H : At false [] s [] (eq v) s) by (eapply at_weaken; [exact H0|intros x <-; exact GV]). clear H0.
  unfold turn. apply wp_bind, (r_push D false [] s v [] _ _ _ H); [has|]. clear H. intros s1 H. apply wp_bind, wp_read. apply wp_bind.
  eapply (r_use D false false [] s _ _ _ (fun o r => o = Some r)); [exact H|apply eval_safe; [apply H|inc H|apply good_genv; apply H|intros ED; left; now apply (i_genv _ _ _ (a_inv _ _ _ _ _ _ _ H))]|auto|].
  clear H. intros [x|] s2 H.
  - apply wp_bind. eapply (value_text_ok fuel x); [exact H|has|]. intros t. apply wp_bind. eapply (r_is_error D false [] s v); [exact H|has|]. intros b. apply wp_bind, (r_pop D false [] s v [] _ _ _ H). intros s3 H3. apply wp_ret. eapply at_weaken; [exact H3|easy].
  - apply wp_bind, (r_pop D false [] s v [] _ _ _ H). intros s3 H3. apply wp_ret. eapply at_weaken; [exact H3|easy].
Qed.
Lemma enter_ok fuel p s : Inv [] s -> wp (enter fuel p) (fun _ s' => At false [] s [] (fun _ => False) s') s.
Proof.
  intros A. pose proof (read_value_ok D [] s p A) as RV. pose proof (nd_lex p) as NL. unfold SafeBase.wp in *. rewrite enter_read.
  destruct (lex p) as [[[t|] l]| | | | |]; cbn [no_stack obind]; try exact I; [|now elim NL].
  destruct (read_value p s) as [[[[v|] r] s1]| | | | |]; cbn [obind] in *; auto.
  - destruct RV as (H & _). cbn [fst] in H. assert (GV : good D [] s1 v) by (apply (a_good _ _ _ _ _ _ _ H); reflexivity). pose proof (turn_ok fuel v s1 (a_inv _ _ _ _ _ _ _ H) GV) as W. unfold SafeBase.wp in W.
    destruct (turn fuel v s1) as [[o s2]| | | | |]; auto. exact (at_call D _ _ _ _ _ _ _ _ _ (at_loud D _ _ _ _ _ _ H) W (fun e => e)).
  - destruct RV as (H & _). eapply at_weaken; [exact (at_loud D _ _ _ _ _ _ H)|easy].
Qed.
Definition kept_well (s s' : vm) : Prop := Inv [] s' /\ stack s' = stack s /\ genv s' = genv s.
Lemma kept_trans s s1 s2 : kept_well s s1 -> kept_well s1 s2 -> kept_well s s2.
Proof. intros (A1 & A2 & A3) (B1 & B2 & B3). split; [exact B1|split; congruence]. Qed.
Lemma at_kept q G s s' : At q [] s [] G s' -> kept_well s s'.
Proof. intro H. split; [apply H|]. split; [rewrite (a_stack _ _ _ _ _ _ _ H); reflexivity|apply H]. Qed.
Lemma wp_then {X Y} (m : M X) (k : X -> M Y) s : wp m (fun _ => kept_well s) s -> (forall x s1, kept_well s s1 -> wp (k x) (fun _ => kept_well s1) s1) -> wp (bind m k) (fun _ => kept_well s) s.
Proof.
  intros W K. apply wp_bind. eapply wp_mono; [exact W|]. intros x s1 R. eapply wp_mono; [exact (K x s1 R)|]. intros y s2 R2. exact (kept_trans _ _ _ R R2).
Qed.
Lemma kept_refl s : Inv [] s -> kept_well s s. Proof. intro A. split; [exact A|split; reflexivity]. Qed.
Lemma kept_lift {X} (o : outcome X) s : Inv [] s -> nd o -> wp (lift o) (fun _ => kept_well s) s.
Proof. intros A N. apply wp_lift; [auto|]. intros. now apply kept_refl. Qed.
Lemma nd_copy t : nd (c_string_copy t).
Proof. unfold c_string_copy. apply nd_bind; [apply nd_c_string|]. intros x _. destruct (str_from_buffer _); discriminate. Qed.
Lemma session_ok fuel : forall ls p s, Inv [] s -> wp (session fuel ls p) (fun _ => kept_well s) s.
Proof.
  induction ls as [|b ls IH]; intros p s A; cbn [session]; [now apply wp_ret, kept_refl|].
  apply wp_then; [apply kept_lift; [exact A|apply nd_octets]|]. intros l s1 (A1 & _). destruct l as [|c l].
  - apply wp_bind, wp_read. destruct (quit s1); [now apply wp_ret, kept_refl|]. apply wp_then; [now apply IH|]. intros m s2 (A2 & _). now apply wp_ret, kept_refl.
  - apply wp_then; [apply kept_lift; [exact A1|apply nd_copy]|]. intros t s2 (A2 & _). apply wp_then; [eapply wp_mono; [now apply enter_ok|]; intros x s3 H; eapply at_kept; exact H|].
    intros [[e w]|] s3 (A3 & _).
    + apply wp_bind, wp_read. destruct (quit s3); [now apply wp_ret, kept_refl|]. apply wp_then; [now apply IH|]. intros m s4 (A4 & _). now apply wp_ret, kept_refl.
    + apply wp_then; [now apply IH|]. intros m s4 (A4 & _). now apply wp_ret, kept_refl.
Qed.
(** What follows the evaluation of a string or a script. *)
Lemma outcome_ok fuel t (none : M (option message)) (fine : M (option message)) s : Inv [] s ->
  (forall s1, Inv [] s1 -> wp none (fun _ => kept_well s1) s1) -> (forall s1, Inv [] s1 -> wp fine (fun _ => kept_well s1) s1) ->
  wp (o <- read_eval fuel (input_new t) ;;
      match o with
      | None => none
      | Some x => e <- is_error x ;; if (e : bool) then w <- value_text fuel x ;; ret (Some (Complaint w)) else fine
      end) (fun _ => kept_well s) s.
Proof.
  intros A N F. apply wp_bind. eapply wp_mono; [now apply (read_eval_ok D fuel (input_new t) [] s)|]. intros o s1 H. pose proof (at_kept _ _ _ _ H) as K. destruct o as [x|].
  - apply wp_bind. eapply (r_is_error D false [] s x); [exact H|has|]. intros [|].
    + apply wp_bind. eapply (value_text_ok fuel x); [exact H|has|]. intros w. apply wp_ret. exact K.
    + eapply wp_mono; [apply F, K|]. intros y s2 K2. exact (kept_trans _ _ _ K K2).
  - eapply wp_mono; [apply N, K|]. intros y s2 K2. exact (kept_trans _ _ _ K K2).
Qed.
Lemma run_strings_ok fuel : forall l s, Inv [] s -> wp (run_strings fuel l) (fun _ => kept_well s) s.
Proof.
  induction l as [|b l IH]; intros s A; cbn [run_strings]; [now apply wp_ret, kept_refl|].
  apply wp_then; [apply kept_lift; [exact A|apply nd_octets]|]. intros t s1 (A1 & _). apply wp_then; [apply kept_lift; [exact A1|apply nd_copy]|]. intros t' s2 (A2 & _).
  apply outcome_ok; auto. intros s3 A3. now apply wp_ret, kept_refl.
Qed.
Lemma run_script_ok fuel files path s : Inv [] s -> wp (run_script fuel files path) (fun _ => kept_well s) s.
Proof.
  intros A. unfold run_script. destruct (files path) as [[|c b]|]; try now apply wp_ret, kept_refl.
  apply wp_then; [apply kept_lift; [exact A|apply nd_octets]|]. intros t s1 (A1 & _). apply outcome_ok; auto; [intros; apply wp_abort|]. intros s3 A3. now apply wp_ret, kept_refl.
Qed.
Lemma script_given fuel files path l s : Inv [] s -> wp (run_script fuel files path) (fun _ => kept_well s) (add_arguments l s).
Proof. intros A. apply (inv_outside _ _ _ (outside (add_arguments l s))) in A. exact (run_script_ok fuel files path (add_arguments l s) A). Qed.
Lemma program_ok fuel files args stdin s : Inv [] s ->
  match program fuel files args stdin s with Ret (_, _, s') => kept_well s s' | Dangling => D = true | _ => True end.
Proof.
  intros A. unfold program. destruct (parse_args false false no_options args) as [o| | |a]; try now apply kept_refl.
  pose proof (run_strings_ok fuel (strings o) s A) as W1. unfold SafeBase.wp in W1. destruct (run_strings fuel (strings o) s) as [[[m|] s1]| | | | |]; cbn [obind]; auto.
  assert (W2 : match (match script o with Some (path, rest) => run_script fuel files path (add_arguments rest s1) | None => Ret (None, s1) end) with Ret (_, s2) => kept_well s1 s2 | Dangling => D = true | _ => True end).
  { destruct (script o) as [[path l]|]; [apply script_given, W1|apply kept_refl, W1]. }
  destruct (match script o with Some (path, rest) => run_script fuel files path (add_arguments rest s1) | None => Ret (None, s1) end) as [[[m|] s2]| | | | |]; cbn [obind]; auto; [now apply (kept_trans s s1)|].
  pose proof (kept_trans _ _ _ W1 W2) as K. destruct (_ && _); [exact K|]. pose proof (session_ok fuel (lines stdin) [] s2 (proj1 K)) as W3. unfold SafeBase.wp in W3.
  destruct (session fuel (lines stdin) [] s2) as [[m s3]| | | | |]; cbn [obind]; auto. exact (kept_trans _ _ _ K W3).
Qed.
End Safe.

(** ** The stack discipline *)
Lemma bal_value_text fuel x : balanced (value_text fuel x). Proof. unfold value_text. bal. Qed.
#[local] Hint Resolve bal_value_text : bal.
Lemma bal_enter fuel p : balanced (enter fuel p).
Proof.
  intros st s ES. rewrite enter_read. destruct (lex p) as [[[t|] l]| | | | |]; cbn [no_stack obind]; try exact I.
  pose proof (bal_read_value p st s ES) as B. destruct (read_value p s) as [[[[v|] r] s1]| | | | |]; cbn [obind]; try exact I; try exact B.
  rewrite turn_spec. pose proof (bal_eval fuel v (genv s1) (v :: stack s1) (with_stack s1 (v :: stack s1)) eq_refl) as B2.
  destruct (eval fuel v (genv s1) (with_stack s1 (v :: stack s1))) as [[[x|] s2]| | | | |]; cbn [obind]; try exact I; try exact B2; [|exact B].
  destruct (to_text (readably s2) false fuel (all s2) x); cbn [no_stack obind]; try exact I. destruct (lookup (all s2) v); [exact B|exact I].
Qed.
#[local] Hint Resolve bal_enter bal_read_eval : bal.
Lemma bal_session fuel : forall ls p, balanced (session fuel ls p).
Proof. induction ls as [|b ls IH]; intros p; cbn [session]; bal. Qed.
Lemma bal_run_strings fuel : forall l, balanced (run_strings fuel l).
Proof. induction l as [|b l IH]; cbn [run_strings]; bal. Qed.
Lemma bal_run_script fuel files path : balanced (run_script fuel files path).
Proof. unfold run_script. destruct (files path) as [[|c b]|]; bal. Qed.
Lemma bal_no {X} (m : M X) s : balanced m -> m s <> Unbalanced.
Proof. intros B E. specialize (B (stack s) s eq_refl). now rewrite E in B. Qed.
Lemma program_balanced fuel files args stdin s : program fuel files args stdin s <> Unbalanced.
Proof.
  unfold program. destruct (parse_args false false no_options args) as [o| | |a]; try discriminate.
  pose proof (bal_no _ s (bal_run_strings fuel (strings o))) as B1. destruct (run_strings fuel (strings o) s) as [[[m|] s1]| | | | |]; cbn [obind]; try discriminate; [|congruence].
  destruct (match script o with Some (path, rest) => run_script fuel files path (add_arguments rest s1) | None => Ret (None, s1) end) as [[[m|] s2]| | | | |] eqn:E2; cbn [obind]; try discriminate.
  - destruct (_ && _); [discriminate|]. pose proof (bal_no _ s2 (bal_session fuel (lines stdin) [])) as B3. destruct (session fuel (lines stdin) [] s2) as [[m s3]| | | | |]; cbn [obind]; try discriminate. congruence.
  - destruct (script o) as [[path l]|]; [|discriminate]. now apply (bal_no _ (add_arguments l s1) (bal_run_script fuel files path)) in E2.
Qed.

(** ** History *)
Notation step := HistoryProofs.on.
Notation later := SpecHistory.later.
Lemma step_read f t l : step (read_token f t l) (read_token f t l).
Proof.
  apply (r_read_both (@HistoryProofs.on) (fun _ => True) (fun _ => True)); auto using closed_all, on_assoc, on_bind, on_cell, on_ret, on_nofuel, on_undef, on_abort, on_push, on_pop, on_put_cell, on_alloc, on_new_error, on_annotate, on_put_fresh, on_heap, on_lift, on_read, on_set_fret, on_set_quit, on_write_out, on_set_readably.
Qed.
Lemma step_eval n v e : step (eval n v e) (eval n v e). Proof. intros s x s'. apply eval_later. Qed.
Lemma step_read_eval n i : step (read_eval n i) (read_eval n i). Proof. intros s x s'. apply read_eval_later. Qed.
Lemma step_is_error r : step (is_error r) (is_error r).
Proof. apply on_bind; [apply on_bind; [apply on_get_cell|intros; apply on_ret]|intros; apply on_ret]. Qed.
Lemma step_value_text fuel x : step (value_text fuel x) (value_text fuel x).
Proof. apply on_bind; [apply on_read|]. intros. apply on_heap. Qed.
Ltac steps := repeat (first [apply on_bind; [|intros ?]|apply on_ret|apply on_lift|apply on_abort|apply on_undef|apply on_heap|apply on_get_cell|apply on_read|apply on_push|apply on_pop|apply step_read|apply step_eval|apply step_read_eval|apply step_is_error|apply step_value_text
  |match goal with |- HistoryProofs.on (match ?x with _ => _ end) _ => destruct x end]).
Lemma step_enter fuel p : step (enter fuel p) (enter fuel p).
Proof. unfold enter. steps. Qed.
Lemma step_session fuel : forall ls p, step (session fuel ls p) (session fuel ls p).
Proof. induction ls as [|b ls IH]; intros p; cbn [session]; steps; first [apply IH|apply step_enter]. Qed.
Lemma step_run_strings fuel : forall l, step (run_strings fuel l) (run_strings fuel l).
Proof. induction l as [|b l IH]; cbn [run_strings]; steps; apply IH. Qed.
Lemma step_run_script fuel files path : step (run_script fuel files path) (run_script fuel files path).
Proof. unfold run_script. destruct (files path) as [[|c b]|]; steps. Qed.
Lemma script_later (sc : option (octets * list octets)) fuel files s r s' :
  match sc with Some (path, rest) => run_script fuel files path (add_arguments rest s) | None => Ret (None, s) end = Ret (r, s') -> later s s'.
Proof. destruct sc as [[path l]|]; [intro E; exact (step_run_script _ _ _ _ _ _ E)|intros [= _ <-]; apply later_refl]. Qed.
Lemma program_later fuel files args stdin s m st s' : program fuel files args stdin s = Ret (m, st, s') -> later s s'.
Proof.
  unfold program. destruct (parse_args false false no_options args) as [o| | |a]; try (intros [= _ _ <-]; apply later_refl).
  destruct (run_strings fuel (strings o) s) as [[[m1|] s1]| | | | |] eqn:E1; cbn [obind]; try discriminate; apply step_run_strings in E1; [intros [= _ _ <-]; exact E1|].
  destruct (match script o with Some (path, rest) => run_script fuel files path (add_arguments rest s1) | None => Ret (None, s1) end) as [[[m2|] s2]| | | | |] eqn:E2; cbn [obind]; try discriminate; apply script_later in E2; pose proof (later_trans _ _ _ E1 E2) as L2; [intros [= _ _ <-]; exact L2|].
  destruct (_ && _); [intros [= _ _ <-]; exact L2|]. destruct (session fuel (lines stdin) [] s2) as [[m3 s3]| | | | |] eqn:E3; cbn [obind]; try discriminate. intros [= _ _ <-]. apply step_session in E3. exact (later_trans _ _ _ L2 E3).
Qed.

(** ** Which messages *)
Lemma strings_message fuel : forall l s m s', run_strings fuel l s = Ret (Some m, s') -> failing m.
Proof.
  induction l as [|b l IH]; intros s m s' E; cbn [run_strings] in E; [discriminate|]. apply bind_ret in E as (t & s1 & _ & E). apply bind_ret in E as (t' & s2 & _ & E). apply bind_ret in E as (o & s3 & _ & E).
  destruct o as [x|]; [|injection E as <- _; exact I]. apply bind_ret in E as (e & s4 & _ & E). destruct e; [|eapply IH; exact E]. apply bind_ret in E as (w & s5 & _ & E). injection E as <- _. exact I.
Qed.
Lemma script_message fuel files path s m s' : run_script fuel files path s = Ret (Some m, s') -> failing m.
Proof.
  unfold run_script. destruct (files path) as [[|c b]|]; intros E; try (injection E as <- _; exact I). apply bind_ret in E as (t & s1 & _ & E). apply bind_ret in E as (o & s2 & _ & E).
  destruct o as [x|]; [|discriminate]. apply bind_ret in E as (e & s4 & _ & E). destruct e; [|discriminate]. apply bind_ret in E as (w & s5 & _ & E). injection E as <- _. exact I.
Qed.
Lemma session_message fuel : forall ls p s m s', session fuel ls p s = Ret (m, s') -> Forall (fun x => ~ failing x) m.
Proof.
  induction ls as [|b ls IH]; intros p s m s' E; cbn [session] in E; [injection E as <- _; constructor|]. apply bind_ret in E as (l & s1 & _ & E). destruct l as [|c l].
  - apply bind_ret in E as (q & s2 & _ & E). destruct q; [injection E as <- _; constructor|]. apply bind_ret in E as (m1 & s3 & E1 & E). injection E as <- _. constructor; [easy|]. eapply IH. exact E1.
  - apply bind_ret in E as (t & s2 & _ & E). apply bind_ret in E as (a & s3 & _ & E). destruct a as [[e w]|].
    + apply bind_ret in E as (q & s4 & _ & E). destruct q; [injection E as <- _; repeat constructor; easy|]. apply bind_ret in E as (m1 & s5 & E1 & E). injection E as <- _. constructor; [easy|]. constructor; [easy|]. eapply IH. exact E1.
    + apply bind_ret in E as (m1 & s5 & E1 & E). injection E as <- _. constructor; [easy|]. eapply IH. exact E1.
Qed.
Lemma program_status fuel files args stdin s m st s' : program fuel files args stdin s = Ret (m, st, s') ->
  ((exists x, In x m /\ failing x) /\ st = 1%Z) \/ (Forall (fun x => ~ failing x) m /\ st = exitCode s') \/ ((m = [VersionText] \/ m = [UsageText]) /\ st = 0%Z /\ s' = s).
Proof.
  unfold program. destruct (parse_args false false no_options args) as [o| | |a].
  - destruct (run_strings fuel (strings o) s) as [[[m1|] s1]| | | | |] eqn:E1; cbn [obind]; try discriminate.
    { intros [= <- <- <-]. left. split; [|reflexivity]. exists m1. split; [now left|]. eapply strings_message. exact E1. }
    destruct (match script o with Some (path, rest) => run_script fuel files path (add_arguments rest s1) | None => Ret (None, s1) end) as [[[m2|] s2]| | | | |] eqn:E2; cbn [obind]; try discriminate.
    { intros [= <- <- <-]. left. split; [|reflexivity]. exists m2. split; [now left|]. destruct (script o) as [[path l]|]; [|discriminate]. eapply script_message. exact E2. }
    intro H. right. left. revert H. destruct (_ && _); [intros [= <- <- <-]; split; [constructor|reflexivity]|].
    destruct (session fuel (lines stdin) [] s2) as [[m3 s3]| | | | |] eqn:E3; cbn [obind]; try discriminate. intros [= <- <- <-]. split; [|reflexivity]. constructor; [easy|]. constructor; [easy|]. eapply session_message. exact E3.
  - intros [= <- <- <-]. right. right. auto.
  - intros [= <- <- <-]. right. right. auto.
  - intros [= <- <- <-]. left. split; [|reflexivity]. exists (UnknownArgument a). split; [now left|exact I].
Qed.

(** ** After (exit) *)
(** Nothing more is written, and the exit code stands. *)
Definition stopped (s s' : vm) : Prop := quit s = true -> quit s' = true /\ exitCode s' = exitCode s /\ output s' = output s.
Definition quiet {X} (m _ : M X) : Prop := forall s x s', m s = Ret (x, s') -> stopped s s'.
Lemma stopped_refl s : stopped s s. Proof. intro. auto. Qed.
Lemma stopped_trans s s1 s2 : stopped s s1 -> stopped s1 s2 -> stopped s s2.
Proof. intros A B Q. destruct (A Q) as (Q1 & E1 & O1). destruct (B Q1) as (Q2 & E2 & O2). repeat split; congruence. Qed.
Lemma q_bind X Y (m m' : M X) (k k' : X -> M Y) : quiet m m' -> (forall x, quiet (k x) (k' x)) -> quiet (bind m k) (bind m' k').
Proof. intros A B s y s' E. apply bind_ret in E as (x & s1 & E1 & E2). eapply stopped_trans; [eapply A; exact E1|eapply B; exact E2]. Qed.
Lemma q_assoc X Y Z (m m' : M X) (f f' : X -> M Y) (k k' : Y -> M Z) : quiet (bind m (fun x => bind (f x) k)) (bind m' (fun x => bind (f' x) k')) -> quiet (bind (bind m f) k) (bind (bind m' f') k').
Proof. intros K s x s' E. rewrite bind_assoc in E. exact (K s x s' E). Qed.
Lemma q_same X (m m' : M X) : (forall s x s', m s = Ret (x, s') -> quit s' = quit s /\ exitCode s' = exitCode s /\ output s' = output s) -> quiet m m'.
Proof. intros K s x s' E Q. destruct (K _ _ _ E) as (A & B & C). rewrite A. auto. Qed.
Ltac same := apply q_same; intros s y s' E.
Lemma q_ret X (x : X) : quiet (ret x) (ret x). Proof. same. injection E as _ <-. auto. Qed.
Lemma q_lift X (o o' : outcome X) : quiet (lift o) (lift o'). Proof. same. unfold lift in E. destruct (no_stack o); try discriminate E. injection E as _ <-. auto. Qed.
Lemma q_heap X (f f' : heap -> outcome X) : quiet (heap_op f) (heap_op f').
Proof. same. unfold heap_op in E. destruct (f (all s)); try discriminate E. injection E as _ <-. auto. Qed.
Lemma q_get_cell r : quiet (get_cell r) (get_cell r).
Proof. same. unfold get_cell in E. destruct (lookup (all s) r); try discriminate E. injection E as _ <-. auto. Qed.
Lemma q_cell X r (k k' : cell -> M X) : (forall c, True -> quiet (k c) (k' c)) -> quiet (bind (get_cell r) k) (bind (get_cell r) k').
Proof. intros A. apply q_bind; [apply q_get_cell|auto]. Qed.
Lemma q_put_cell r c : quiet (put_cell r c) (put_cell r c).
Proof. same. unfold put_cell in E. destruct (lookup (all s) r); [|discriminate]. injection E as _ <-. auto. Qed.
Lemma q_gc : quiet maybe_gc maybe_gc.
Proof.
  same. unfold maybe_gc, do_gc in E. destruct (_ && _); [|injection E as _ <-; auto]. destruct (gc (all s) (stack s)) as [h| | | | |]; try discriminate. injection E as _ <-. auto.
Qed.
Lemma q_fresh d : quiet (fresh d) (fresh d).
Proof. same. unfold fresh in E. destruct (_ =? _); [discriminate|]. injection E as _ <-. auto. Qed.
Lemma q_alloc d : quiet (alloc d) (alloc d). Proof. apply q_bind; [apply q_gc|intros; apply q_fresh]. Qed.
Lemma q_new_error : quiet new_error new_error.
Proof. apply q_bind; [apply q_gc|]. intros _ s r s' E. apply (q_fresh _ s r s' E). Qed.
Lemma q_push r : quiet (push r) (push r). Proof. same. injection E as _ <-. auto. Qed.
Lemma q_pop r : quiet (pop r) (pop r).
Proof. same. unfold pop in E. destruct (stack s); [discriminate|]. destruct (_ =? _); [|discriminate]. injection E as _ <-. auto. Qed.
Lemma q_read X (f : vm -> X) : quiet (read f) (read f). Proof. same. injection E as _ <-. auto. Qed.
Lemma q_none X (m m' : M X) : (forall s, match m s with Ret _ => False | _ => True end) -> quiet m m'.
Proof. intros K s x s' E. specialize (K s). rewrite E in K. destruct K. Qed.
Lemma q_annotate r : quiet (annotate r) (annotate r).
Proof.
  apply q_bind; [apply q_get_cell|]. intros c. destruct (cdata c); try apply q_ret.
  intros s0 x s0' E Q. unfold put_cell in E. cbn [all with_nextAddr] in E. destruct (lookup (all s0) r); [|discriminate]. injection E as _ <-. auto.
Qed.
Lemma q_put_fresh r d : quiet (put_fresh r d) (put_fresh r d).
Proof.
  apply q_bind; [apply q_get_cell|]. intros c s x s' E Q. unfold put_cell in E. cbn [all with_nextAddr] in E. destruct (lookup (all s) r); [|discriminate]. injection E as _ <-. auto.
Qed.
Lemma q_eval n v e : quiet (eval n v e) (eval n v e).
Proof.
  intros s x s' E Q. destruct n as [|n]; [discriminate|]. cbn [eval] in E. destruct n as [|n]; cbn [eval_loop] in E; [discriminate|].
  (apply bind_ret in E as (p & s1 & E1 & E2); unfold eval_impl in E1; apply bind_ret in E1 as (qt & s2 & R & E1); unfold read in R; injection R as <- <-; rewrite Q in E1;
    apply bind_ret in E1 as (r & s3 & A & E1); injection E1 as <- <-; injection E2 as _ <-; exact (q_alloc _ _ _ _ A Q)).
Qed.
Lemma q_read_eval n i : quiet (read_eval n i) (read_eval n i).
Proof.
  apply (r_read_eval_by (@quiet) (fun _ => True) (fun _ => True)); auto using closed_all, q_assoc, q_ret, q_bind, q_push, q_pop, q_cell, q_put_cell, q_alloc, q_new_error, q_lift, q_read, q_eval; intros; apply q_none; intros; exact I.
Qed.
Lemma q_read_token f t l : quiet (read_token f t l) (read_token f t l).
Proof.
  apply (r_read_both (@quiet) (fun _ => True) (fun _ => True)); auto using closed_all, q_assoc, q_ret, q_bind, q_push, q_pop, q_cell, q_put_cell, q_alloc, q_new_error, q_lift, q_read, q_eval; intros; apply q_none; intros; exact I.
Qed.
Ltac quiets := repeat (first [apply q_bind; [|intros ?]|apply q_ret|apply q_lift|apply q_heap|apply q_get_cell|apply q_read|apply q_push|apply q_pop|apply q_read_token|apply q_eval|apply q_read_eval
  |match goal with |- quiet (match ?x with _ => _ end) _ => destruct x end]).
Lemma q_abort X : quiet (@abort X) abort. Proof. apply q_none. intros; exact I. Qed.
Lemma q_undef X : quiet (@undef X) undef. Proof. apply q_none. intros; exact I. Qed.
Lemma q_session fuel : forall ls p, quiet (session fuel ls p) (session fuel ls p).
Proof. induction ls as [|b ls IH]; intros p; cbn [session]; unfold enter, value_text, is_error, get; quiets; first [apply IH|apply q_undef]. Qed.
Lemma q_run_strings fuel : forall l, quiet (run_strings fuel l) (run_strings fuel l).
Proof. induction l as [|b l IH]; cbn [run_strings]; unfold value_text, is_error, get; quiets; apply IH. Qed.
Lemma q_run_script fuel files path : quiet (run_script fuel files path) (run_script fuel files path).
Proof. unfold run_script, value_text, is_error, get. destruct (files path) as [[|c b]|]; quiets; apply q_abort. Qed.

(** ** Strings and scripts *)
Definition result (fuel : nat) (x : ref) (s : vm) : outcome (option text * vm) :=
  match lookup (all s) x with
  | Some c => if is_error_data (cdata c) then obind (no_stack (to_text (readably s) false fuel (all s) x)) (fun w => Ret (Some w, s)) else Ret (None, s)
  | None => Dangling
  end.
Lemma result_is fuel x (k : M (option message)) s :
  (e <- is_error x ;; if (e : bool) then w <- value_text fuel x ;; ret (Some (Complaint w)) else k) s =
  obind (result fuel x s) (fun '(o, s1) => match o with Some w => Ret (Some (Complaint w), s1) | None => k s1 end).
Proof.
  unfold result, is_error, get, get_cell, bind, value_text, read, heap_op, ret. destruct (lookup (all s) x) as [c|]; cbn [obind fst snd]; [|reflexivity].
  destruct (is_error_data (cdata c)); [|reflexivity]. unfold bind. cbn [obind fst snd]. destruct (to_text _ _ _ _ _); reflexivity.
Qed.
Lemma result_cases fuel x s o s' : result fuel x s = Ret (o, s') <->
  s' = s /\ ((o = None /\ lookup (all s) x <> None /\ ~ error_in s x) \/ (exists w, o = Some w /\ error_in s x /\ to_text (readably s) false fuel (all s) x = Ret w)).
Proof.
  unfold result, error_in. destruct (lookup (all s) x) as [c|] eqn:L.
  - destruct (is_error_data (cdata c)) eqn:E.
    + assert (X : exists c0 m n, Some c = Some c0 /\ cdata c0 = DErr m n) by (destruct (cdata c) eqn:D; try discriminate E; eauto).
      destruct (to_text _ _ _ _ _) as [w| | | | |]; cbn [no_stack obind]; (split; [try discriminate|]).
      * intros [= <- <-]. split; [reflexivity|]. right. eauto.
      * intros (-> & [(-> & _ & N)|(w' & -> & _ & [= <-])]); [contradiction|reflexivity].
      * intros (-> & [(-> & _ & N)|(w' & _ & _ & K)]); [contradiction|discriminate].
      * intros (-> & [(-> & _ & N)|(w' & _ & _ & K)]); [contradiction|discriminate].
      * intros (-> & [(-> & _ & N)|(w' & _ & _ & K)]); [contradiction|discriminate].
      * intros (-> & [(-> & _ & N)|(w' & _ & _ & K)]); [contradiction|discriminate].
      * intros (-> & [(-> & _ & N)|(w' & _ & _ & K)]); [contradiction|discriminate].
    + split.
      * intros [= <- <-]. split; [reflexivity|]. left. split; [reflexivity|]. split; [discriminate|]. intros (c0 & m & n & [= <-] & D). rewrite D in E. discriminate.
      * intros (-> & [(-> & _)|(w & _ & (c0 & m & n & [= <-] & D) & _)]); [reflexivity|]. rewrite D in E. discriminate.
  - split; [discriminate|]. intros (_ & [(_ & N & _)|(w & _ & (c0 & m & n & K & _) & _)]); [contradiction|discriminate].
Qed.
Lemma strings_step fuel t l s : textual t -> run_strings fuel (utf8_text t :: l) s =
  obind (read_eval fuel (input_new t) s) (fun '(o, s1) =>
    match o with
    | None => Ret (Some Incomplete, s1)
    | Some x => obind (result fuel x s1) (fun '(o, s2) => match o with Some w => Ret (Some (Complaint w), s2) | None => run_strings fuel l s2 end)
    end).
Proof.
  intro T. cbn [run_strings]. unfold bind at 1, lift. rewrite (octets_text_ok t T). cbn [no_stack obind fst snd]. unfold bind at 1, lift. rewrite (copy_ok t T). cbn [no_stack obind fst snd].
  unfold bind at 1. destruct (read_eval fuel (input_new t) s) as [[[x|] s1]| | | | |]; cbn [obind fst snd]; try reflexivity. apply result_is.
Qed.
Lemma strings_loads fuel : forall ts s r s', Forall textual ts -> (run_strings fuel (map utf8_text ts) s = Ret (r, s') <-> loads fuel s ts r s').
Proof.
  induction ts as [|t ts IH]; intros s r s' T; cbn [map].
  - cbn [run_strings]. split; [intros [= <- <-]; constructor|]. inversion 1; subst. reflexivity.
  - inversion T as [|? ? T1 T2]; subst. rewrite (strings_step fuel t _ s T1). split.
    + destruct (read_eval fuel (input_new t) s) as [[[x|] s1]| | | | |] eqn:E; cbn [obind]; try discriminate; [|intros [= <- <-]; now apply l_incomplete].
      destruct (result fuel x s1) as [[o s2]| | | | |] eqn:R; cbn [obind]; try discriminate. apply result_cases in R as (-> & [(-> & NN & NE)|(w & -> & ER & TX)]).
      * intro H. eapply l_next; [exact E|exact NN|exact NE|]. now apply IH.
      * intros [= <- <-]. eapply l_error; eassumption.
    + inversion 1 as [|? ? ? x s1 ? ? E NN NE K|? ? ? x s1 w E ER TX|? ? ? s1 E]; subst; rewrite E; cbn [obind].
      * replace (result fuel x s1) with (Ret (@None text, s1)) by (symmetry; apply result_cases; auto). cbn [obind]. now apply IH.
      * replace (result fuel x s') with (Ret (Some w, s')) by (symmetry; apply result_cases; eauto 6). reflexivity.
      * reflexivity.
Qed.
Lemma script_loads fuel files path t s r s' : textual t -> t <> [] -> files path = Some (utf8_text t) ->
  (run_script fuel files path s = Ret (r, s') <-> loads fuel s [t] r s' /\ r <> Some Incomplete).
Proof.
  intros T NE F. unfold run_script. rewrite F. pose proof (octets_text_ok t T) as O. destruct (utf8_text t) as [|c b] eqn:U.
  { assert (K : octets_text [] = Ret []) by reflexivity. rewrite K in O. injection O as <-. contradiction. }
  unfold bind at 1, lift. rewrite O. cbn [no_stack obind fst snd]. unfold bind at 1. split.
  - destruct (read_eval fuel (input_new t) s) as [[[x|] s1]| | | | |] eqn:E; cbn [obind fst snd]; try discriminate. rewrite result_is.
    destruct (result fuel x s1) as [[o s2]| | | | |] eqn:R; cbn [obind]; try discriminate. apply result_cases in R as (-> & [(-> & NN & NX)|(w & -> & ER & TX)]); intros [= <- <-]; (split; [|discriminate]).
    + eapply l_next; [exact E|exact NN|exact NX|constructor].
    + eapply l_error; eassumption.
  - intros (H & NI). inversion H as [|? ? ? x s1 ? ? E NN NX K|? ? ? x s1 w E ER TX|? ? ? s1 E]; subst; rewrite E; cbn [obind fst snd].
    + rewrite result_is. replace (result fuel x s1) with (Ret (@None text, s1)) by (symmetry; apply result_cases; auto). cbn [obind]. inversion K; subst. reflexivity.
    + rewrite result_is. replace (result fuel x s') with (Ret (Some w, s')) by (symmetry; apply result_cases; eauto 6). reflexivity.
    + now elim NI.
Qed.
Lemma strings_app fuel : forall a b s m s', run_strings fuel a s = Ret (Some m, s') -> run_strings fuel (a ++ b) s = Ret (Some m, s').
Proof.
  induction a as [|x a IH]; intros b s m s' E; cbn [run_strings app] in *; [discriminate|].
  apply bind_ret in E as (t & s1 & E1 & E). unfold bind at 1. rewrite E1. cbn [obind fst snd]. apply bind_ret in E as (t' & s2 & E2 & E). unfold bind at 1. rewrite E2. cbn [obind fst snd].
  apply bind_ret in E as (o & s3 & E3 & E). unfold bind at 1. rewrite E3. cbn [obind fst snd]. destruct o as [v|]; [|exact E].
  apply bind_ret in E as (e & s4 & E4 & E). unfold bind at 1. rewrite E4. cbn [obind fst snd]. destruct e; [exact E|]. now apply IH.
Qed.
Lemma parse_strings : forall args ev inc o o', parse_args ev inc o args = Start o' -> exists l, strings o' = strings o ++ l.
Proof.
  induction args as [|a args IH]; intros ev inc o o' E; cbn [parse_args] in E; [injection E as <-; exists []; now rewrite app_nil_r|].
  assert (SAME : forall ev inc o1, strings o1 = strings o -> parse_args ev inc o1 args = Start o' -> exists l, strings o' = strings o ++ l) by (intros e i o1 S P; rewrite <- S; exact (IH e i o1 o' P)).
  destruct ev; [apply IH in E as (l & E); exists (a :: l); rewrite E; cbn [with_string strings]; now rewrite <- app_assoc|].
  destruct inc; [apply SAME in E; [exact E|reflexivity]|].
  repeat match type of E with (if ?b then _ else _) = _ => destruct b; [try discriminate E; try (apply SAME in E; [exact E|reflexivity])|] end.
  assert (E' : Start (with_script o a args) = Start o' \/ Refuse a = Start o') by (destruct a as [|x a]; [left; exact E|]; destruct x as [|q]; [left; exact E|]; do 6 (destruct q as [q|q|]; try (left; exact E)); right; exact E).
  destruct E' as [[= <-]|E']; [|discriminate]. exists []. now rewrite app_nil_r.
Qed.
