(** What calls do: builtins and functions, as relations between the events, in
    their order, and the result. *)
From Coq Require Import List NArith ZArith Bool.
From Verif Require Import Base HMap Heap SpecHeap Env Builtins Eval SpecTrace SpecSpecial SpecForm.
Import ListNotations.

(** The arguments of the form [v], from its element [i] on; [s]: the machine
    before.  The form is looked at anew before each argument.  [xs]: the values,
    in order, up to the first error; [o]: that error. *)
Inductive args_run (env v : ref) : vm -> nat -> list event -> list ref -> option (ref * data) -> Prop :=
| args_end s i l : data_at s v = Some (DVec l) -> nth_error l i = None -> args_run env v s i [] [] None
| args_next s i l x e r d evs xs o : data_at s v = Some (DVec l) -> nth_error l i = Some x -> gives e x env r d -> ~ is_err d ->
    args_run env v (after e) (S i) evs xs o -> args_run env v s i (e :: evs) (r :: xs) o
| args_error s i l x e r d : data_at s v = Some (DVec l) -> nth_error l i = Some x -> gives e x env r d -> is_err d ->
    args_run env v s i [e] [] (Some (r, d)).

(** ** Builtins *)

(** The arguments of a builtin: the vector [a] is on the stack, and nothing
    refers to it. *)
Record arguments (s : vm) (a env : ref) (xs : list ref) : Prop := {
  ar_sane : sane s;
  ar_values : data_at s a = Some (DVec xs);
  ar_held : In a (stack s) /\ In env (stack s);
  ar_own : forall r c, lookup (all s) r = Some c -> ~ refers c a /\ cdocvec c <> Some a;
  ar_other : a <> env /\ a <> genv s /\ fret s <> Some a
}.

(** The value [f] is a builtin.  When an argument is an error it is the result.
    Otherwise the builtin [f] then holds is called with the values of the
    arguments; after return the value is pending. *)
Inductive builtin_run (env v f : ref) (s : vm) : list event -> ref -> option data -> Prop :=
| bi_args evs xs r d : args_run env v s 1 evs xs (Some (r, d)) -> builtin_run env v f s evs r (Some d)
| bi_call evs xs p a s1 r s2 p' : args_run env v s 1 evs xs None -> data_at s1 f = Some (DBuiltin p) -> arguments s1 a env xs ->
    data_at s2 f = Some (DBuiltin p') -> p' <> BiReturn ->
    builtin_run env v f s (evs ++ [Builtin p a env s1 r s2]) r (data_at s2 r)
| bi_return evs xs p a s1 r s2 s3 s4 : args_run env v s 1 evs xs None -> data_at s1 f = Some (DBuiltin p) -> arguments s1 a env xs ->
    data_at s2 f = Some (DBuiltin BiReturn) ->
    builtin_run env v f s (evs ++ [Builtin p a env s1 r s2; Pend (Some r) s3 s4]) r (data_at s2 r).

(** The calls of builtins that change nothing the program can reach; [-] only
    when its first argument is not a string. *)
Definition only_reads (s : vm) (p : builtin) (xs : list ref) : Prop :=
  match p with
  | BiNot | BiVector | BiLen | BiUid | BiDoc | BiMod | BiDiv | BiTimes | BiPlus | BiHashMap | BiQueue | BiQueueMax | BiList
  | BiEnvNew | BiEnvCurrent | BiEnvGlobal | BiLnAt | BiIs _
  | BiMax | BiMin | BiStartsWith | BiToReal | BiToInteger | BiToString | BiDistance | BiCharacter | BiFind | BiSplit | BiCpAt | BiSqrt | BiStringFormat | BiAbort | BiHostArguments | BiHostVariables => True
  | BiMinus => match xs with x :: _ => forall t, data_at s x <> Some (DStr t) | [] => True end
  | _ => False
  end.

(** Such a call changes nothing that [base] or the arguments reach. *)
Definition reads_kept (base : list ref) (e : event) : Prop :=
  match e with Builtin p a _ s _ s' => forall xs, data_at s a = Some (DVec xs) -> only_reads s p xs -> keeps (a :: base) s s' | _ => True end.

(** ** Functions *)

Definition holds_fun (s : vm) (f : ref) (g : func) : Prop := data_at s f = Some (DFun g) \/ data_at s f = Some (DMac g).
(** The body of the function [f], from its form [i] on, in the environment [ext];
    [last]: the value of the form before. *)
Inductive fbody_run (f ext : ref) : vm -> nat -> option (ref * data) -> list event -> option (ref * option data) -> Prop :=
| fb_end s i g l last : holds_fun s f g -> data_at s (fbody g) = Some (DVec l) -> nth_error l i = None ->
    fbody_run f ext s i last [] (match last with Some (r, d) => Some (r, Some d) | None => None end)
| fb_next s i g l last x e r d evs o : holds_fun s f g -> data_at s (fbody g) = Some (DVec l) -> nth_error l i = Some x ->
    gives e x ext r d -> ~ is_err d -> pending e = None -> fbody_run f ext (after e) (S i) (Some (r, d)) evs o ->
    fbody_run f ext s i last (e :: evs) o
| fb_error s i g l last x e r d : holds_fun s f g -> data_at s (fbody g) = Some (DVec l) -> nth_error l i = Some x ->
    gives e x ext r d -> is_err d -> fbody_run f ext s i last [e] (Some (r, Some d))
| fb_return s i g l last x e r d y s1 s2 : holds_fun s f g -> data_at s (fbody g) = Some (DVec l) -> nth_error l i = Some x ->
    gives e x ext r d -> ~ is_err d -> pending e = Some y ->
    fbody_run f ext s i last [e; Pend None s1 s2] (Some (y, data_at (after e) y)).
(** A new environment [ext] inside the one the function was made in; the formals
    are bound in it to the values of the arguments, and the body is run in it. *)
Inductive function_run (env v f : ref) (s : vm) : list event -> option (ref * option data) -> Prop :=
| fu_args evs xs r d : args_run env v s 1 evs xs (Some (r, d)) -> function_run env v f s evs (Some (r, Some d))
| fu_refused evs xs g ext a s1 r s2 : args_run env v s 1 evs xs None -> holds_fun s1 f g -> (nextId s <= ext)%N ->
    data_at s1 ext = Some (DEnv [] (Some (fenv g))) -> data_at s1 a = Some (DVec xs) ->
    function_run env v f s (evs ++ [Extend ext (fformals g) a s1 (Some r) s2]) (Some (r, data_at s2 r))
| fu_run evs xs g ext a s1 s2 evs' o : args_run env v s 1 evs xs None -> holds_fun s1 f g -> (nextId s <= ext)%N ->
    data_at s1 ext = Some (DEnv [] (Some (fenv g))) -> data_at s1 a = Some (DVec xs) ->
    fbody_run f ext s2 0 None evs' o ->
    function_run env v f s (evs ++ Extend ext (fformals g) a s1 None s2 :: evs') o.

(** ** Their evaluation *)

(** In [s] the form [v] is evaluated in [env]; the value of its first element [x]
    is [f]. [s2]: the machine after that; [o], [s']: the result and the machine at
    the end. *)
Record calls_form (fuel : nat) (env v : ref) (s : vm) (x f : ref) (s2 : vm) (o : option ref) (s' : vm) : Prop := {
  cf_sane : sane s;
  cf_form : (v < nextId s)%N;
  cf_env : (env < nextId s)%N;
  cf_runs : quit s = false;
  cf_first : exists xs, data_at s v = Some (DVec (x :: xs));
  cf_operator : eval fuel x env (inside v env s) = Ret (Some f, s2);
  cf_result : eval (S fuel) v env s = Ret (o, s')
}.
