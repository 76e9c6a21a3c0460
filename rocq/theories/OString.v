(** Model of octaspire_string.c (A:5119-6858): a string of UCS characters with
    a lazily rebuilt cache of its UTF-8 octets.  Simplifications: the two
    vectors are lists (the vector model is refined separately in VecProofs.v);
    allocation never fails; printf-style formatting is not modelled. *)
From Coq Require Import List NArith ZArith Bool Lia Arith.
From Verif Require Import Base Utf8 Vec SpecSeq.
Import ListNotations.
Local Open Scope N_scope.

(** struct octaspire_string_t, A:5137-5144; [err] is errorStatus/errorAtOctet:
    [Some i] is DECODING_ERROR at octet i. *)
Record ostr := mkStr { ucs : list N; oct : list N; err : option nat }.

(** (ptrdiff_t)n of a size_t. *)
Definition ptrdiff_of_size (z : Z) : Z :=
  let m := (z mod 2 ^ 64)%Z in if (m <? 2 ^ 63)%Z then m else (m - 2 ^ 64)%Z.

(** The decoding loop shared by octaspire_string_new_from_buffer (A:5220-5255)
    and octaspire_string_concatenate_c_string (A:5770-5795): decode at octet
    [index] until the input ends or a decoding error occurs.  Every successful
    decode consumes at least one octet, so [length b] is enough fuel; [None]
    marks exhausted fuel. *)
Fixpoint decode_loop (fuel : nat) (b : list N) (index : nat) : option (list N * option nat) :=
  match b with
  | [] => Some ([], None)
  | _ =>
      match fuel with
      | O => None
      | S f =>
          match decode_character b with
          | (DecOk, c, n) =>
              match decode_loop f (skipn n b) (index + n)%nat with
              | Some (l, e) => Some (c :: l, e)
              | None => None
              end
          | _ => Some ([], Some index)
          end
      end
  end.

(** octaspire_string_new_from_buffer, A:5179-5263. *)
Definition str_from_buffer (b : list N) : option ostr :=
  match decode_loop (length b) b 0 with
  | Some (l, e) => Some (mkStr l [] e)
  | None => None
  end.

(** The octets of a C string: up to the first NUL. *)
Fixpoint cstr (b : list N) : list N :=
  match b with
  | [] => []
  | o :: t => if o =? 0 then [] else o :: cstr t
  end.

(** octaspire_string_concatenate_c_string, A:5748-5800. *)
Definition str_concat_cstr (s : ostr) (b : list N) : option ostr :=
  match cstr b with
  | [] => Some (mkStr (ucs s) (oct s) None)
  | b' =>
      match decode_loop (length b') b' 0 with
      | Some (l, e) => Some (mkStr (ucs s ++ l) [] e)
      | None => None
      end
  end.

(** The loop of octaspire_string_private_ensure_octets_are_up_to_date,
    A:6728-6781: encode every character, then append NUL; an unencodable
    character ends the loop at once, without NUL. *)
Fixpoint encode_octets (l : list N) : list N :=
  match l with
  | [] => [0]
  | c :: t =>
      match encode_character c with
      | Some u => u8_bytes u ++ encode_octets t
      | None => []
      end
  end.

Definition str_ensure (s : ostr) : ostr :=
  match oct s with
  | [] => mkStr (ucs s) (encode_octets (ucs s)) (err s)
  | _ => s
  end.

(** octaspire_string_get_c_string, A:5695-5712: the octets including the
    terminating NUL (the empty static string is [0]). *)
Definition str_get_c_string (s : ostr) : outcome (ostr * list N) :=
  let s' := str_ensure s in
  match oct s' with
  | [] => Ret (s', [0])
  | o => if last o 1 =? 0 then Ret (s', o) else Abort
  end.

(** octaspire_string_get_length_in_ucs_characters, A:5595-5601. *)
Definition str_length (s : ostr) : nat := length (ucs s).

(** octaspire_string_private_is_index_valid, A:5631-5664: the second component
    is [isValid], the first the index that callers use. *)
Definition str_index (s : ostr) (i : Z) : Z * bool :=
  let len := Z.of_nat (str_length s) in
  let direct := (size_of_ptrdiff i, (size_of_ptrdiff i <? len)%Z) in
  if (i <? 0)%Z then
    let tmp := (len + i)%Z in
    if ((0 <=? tmp) && (tmp <? len))%Z then (tmp, true) else direct
  else direct.

(** octaspire_string_get_ucs_character_at_index, A:5678-5693. *)
Definition str_get (s : ostr) (i : Z) : outcome N :=
  match str_index s i with
  | (k, true) =>
      match nth_error (ucs s) (Z.to_nat k) with Some c => Ret c | None => Undef end
  | (_, false) => Abort
  end.

(** octaspire_string_push_back_ucs_character, A:6351-6363. *)
Definition str_push_back (s : ostr) (c : N) : ostr := mkStr (ucs s ++ [c]) [] (err s).

(** octaspire_string_remove_character_at, A:5888-5914. *)
Definition str_remove_at (s : ostr) (i : Z) : ostr * bool :=
  match str_index s i with
  | (k, true) => (mkStr (delete_at (Z.to_nat k) (ucs s)) [] (err s), true)
  | (_, false) => (s, false)
  end.

(** The loop of octaspire_string_remove_characters_at, A:5943-5951, for
    i = n-1 down to 0; counts the successful removals. *)
Fixpoint remove_loop (s : ostr) (k : Z) (n : nat) (acc : nat) : ostr * nat :=
  match n with
  | O => (s, acc)
  | S m =>
      let (s', ok) := str_remove_at s (ptrdiff_of_size (k + Z.of_nat m)) in
      remove_loop s' k m (if ok then S acc else acc)
  end.

(** octaspire_string_remove_characters_at, A:5916-5954. *)
Definition str_remove_chars (s : ostr) (i : Z) (n : nat) : ostr * nat :=
  match n with
  | O => (s, O)
  | _ =>
      match str_index s i with
      | (k, true) => remove_loop (mkStr (ucs s) [] (err s)) k n 0
      | (_, false) => (s, O)
      end
  end.

(** octaspire_string_private_check_substring_match_at, A:5828-5857. *)
Fixpoint check_match (l : list N) (sub : list N) {struct sub} : bool :=
  match sub, l with
  | [], _ => true
  | x :: sub', y :: l' => (y =? x) && check_match l' sub'
  | _ :: _, [] => false
  end.

(** The search loop of octaspire_string_find_first_substring, A:5876-5885:
    [n] positions starting at the head of [l], which is position [i]. *)
Fixpoint find_loop (n : nat) (l : list N) (i : nat) (sub : list N) : option nat :=
  match n with
  | O => None
  | S m => if check_match l sub then Some i else find_loop m (tl l) (S i) sub
  end.

(** octaspire_string_find_first_substring, A:5859-5886; None is -1. *)
Definition str_find_first (s : ostr) (start : Z) (sub : list N) : option nat :=
  match str_index s start with
  | (k, true) => find_loop (str_length s) (skipn (Z.to_nat k) (ucs s)) (Z.to_nat k) sub
  | (_, false) => None
  end.

(** The loop of octaspire_string_remove_all_substrings, A:5970-5997. *)
Fixpoint remove_all_loop (fuel : nat) (s : ostr) (sub : list N) (acc : nat) : outcome (ostr * nat) :=
  match ucs s with
  | [] => Ret (s, acc)
  | _ =>
      match str_find_first s 0 sub with
      | None => Ret (s, acc)
      | Some i =>
          match fuel with
          | O => NoFuel
          | S f =>
              let (s', n) := str_remove_chars s (Z.of_nat i) (length sub) in
              remove_all_loop f s' sub (match n with O => acc | S _ => S acc end)
          end
      end
  end.

(** octaspire_string_remove_all_substrings, A:5956-5998. *)
Definition str_remove_all (fuel : nat) (s : ostr) (sub : list N) : outcome (ostr * nat) :=
  remove_all_loop fuel (mkStr (ucs s) [] (err s)) sub 0.

(** octaspire_string_clear, A:6000-6007. *)
Definition str_clear (s : ostr) : ostr := mkStr [] [] None.

(** octaspire_string_set_from_c_string, A:5569-5588. *)
Definition str_set_cstr (s : ostr) (b : list N) : option ostr := str_concat_cstr (str_clear s) b.

(** octaspire_string_is_equal, A:6009-6041. *)
Definition str_is_equal (a b : ostr) : bool :=
  (Nat.eqb (str_length a) (str_length b)) && check_match (ucs a) (ucs b).

(** octaspire_string_pop_front_ucs_character, A:6365-6381. *)
Definition str_pop_front (s : ostr) : ostr * bool :=
  match ucs s with
  | [] => (s, false)
  | _ => str_remove_at (mkStr (ucs s) [] (err s)) 0
  end.

(** octaspire_string_pop_back_ucs_character, A:6383-6402. *)
Definition str_pop_back (s : ostr) : ostr * bool :=
  match ucs s with
  | [] => (s, false)
  | _ => str_remove_at (mkStr (ucs s) [] (err s)) (Z.of_nat (str_length s) - 1)
  end.

(** The insertion loop of octaspire_string_insert_string_to, A:6423-6440:
    insert the i-th character before position k+i. *)
Fixpoint insert_chars (l : list N) (k : nat) (cs : list N) : list N * bool :=
  match cs with
  | [] => (l, true)
  | c :: cs' =>
      match norm_index (length l) (Z.of_nat k) with
      | Some p => insert_chars (insert_at p c l) (S k) cs'
      | None => (l, false)
      end
  end.

(** octaspire_string_insert_string_to, A:6404-6441 ([cs] are the characters of
    the inserted string, a different object). *)
Definition str_insert (s : ostr) (cs : list N) (i : Z) : ostr * bool :=
  match str_index s i with
  | (k, true) =>
      let (l, ok) := insert_chars (ucs s) (Z.to_nat k) cs in (mkStr l [] (err s), ok)
  | (_, false) => (s, false)
  end.

(** The loop of octaspire_string_overwrite_with_string_at, A:6468-6486:
    replace position k+i or push back. *)
Fixpoint overwrite_chars (l : list N) (k : Z) (cs : list N) : list N :=
  match cs with
  | [] => l
  | c :: cs' =>
      let l' := match norm_index (length l) (ptrdiff_of_size k) with
                | Some p => replace_at p c l
                | None => l ++ [c]
                end in
      overwrite_chars l' (k + 1)%Z cs'
  end.

(** octaspire_string_overwrite_with_string_at, A:6443-6487. *)
Definition str_overwrite (s : ostr) (cs : list N) (i : Z) : ostr * bool :=
  let (k, valid) := str_index s i in
  if (negb valid && (i <? 0)%Z)%bool then (s, false)
  else (mkStr (overwrite_chars (ucs s) k cs) [] (err s), true).

(** octaspire_string_new_substring_from_given_index_and_length, A:5501-5553;
    None is the NULL result. *)
Definition str_substring (s : ostr) (start len : nat) : option ostr :=
  if Nat.leb (str_length s) (start + len) then None
  else Some (mkStr (firstn len (skipn start (ucs s))) [] None).

(** octaspire_string_starts_with, A:6230-6257. *)
Definition str_starts_with (a b : list N) : bool :=
  Nat.leb (length b) (length a) && check_match a b.

(** octaspire_string_ends_with, A:6277-6306. *)
Definition str_ends_with (a b : list N) : bool :=
  Nat.leb (length b) (length a) && check_match (skipn (length a - length b) a) b.

(** One character of the loop of octaspire_string_split, A:6527-6561. [coll]
    is the collector string, [toks] the result so far.  assert(token) fails
    (Abort) when the substring call returns NULL. *)
Definition split_step (delim : list N) (coll : list N) (c : N)
  : outcome (list N * option (list N)) :=
  let coll := coll ++ [c] in
  if (Nat.eqb (length coll) (length delim) && check_match coll delim)%bool then Ret ([], None)
  else if str_ends_with coll delim then
    match str_substring (mkStr coll [] None) 0 (length coll - length delim) with
    | Some tok => Ret ([], Some (ucs tok))
    | None => Abort
    end
  else Ret (coll, None).

Fixpoint split_loop (delim : list N) (coll : list N) (l : list N) : outcome (list (list N)) :=
  match l with
  | [] =>
      (* A:6563-6605: the rest after the loop *)
      match coll with
      | [] => Ret []
      | _ =>
          if (Nat.eqb (length coll) (length delim) && check_match coll delim)%bool then Ret []
          else if str_ends_with coll delim then
            match str_substring (mkStr coll [] None) 0 (length coll - length delim) with
            | Some tok => Ret [ucs tok]
            | None => Abort
            end
          else Ret [coll]
      end
  | c :: t =>
      obind (split_step delim coll c) (fun r =>
        obind (split_loop delim (fst r) t) (fun toks =>
          Ret (match snd r with Some tok => tok :: toks | None => toks end)))
  end.

(** octaspire_string_split, A:6489-6613 ([delim]: the decoded delimiter). *)
Definition str_split (s : ostr) (delim : list N) : outcome (list (list N)) :=
  split_loop delim [] (ucs s).

(** strcmp: sign of the difference at the first differing octet. *)
Fixpoint strcmp (a b : list N) : comparison :=
  match a, b with
  | [], [] => Eq
  | [], _ :: _ => Lt
  | _ :: _, [] => Gt
  | x :: a', y :: b' => match x ?= y with Eq => strcmp a' b' | r => r end
  end.

(** octaspire_string_compare / octaspire_string_compare_to_c_string,
    A:6199-6228. *)
Definition str_compare (a b : ostr) : outcome comparison :=
  obind (str_get_c_string b) (fun rb =>
    let a' := str_ensure a in
    match oct a' with
    | [] => Ret Eq
    | o => if last o 1 =? 0 then Ret (strcmp (cstr o) (cstr (snd rb))) else Abort
    end).

(** jenkins_one_at_a_time_hash, A:1869-1890, in uint32_t arithmetic. *)
Definition u32 (n : N) : N := n mod two32.
Definition jenkins_step (h o : N) : N :=
  let h := u32 (h + o) in
  let h := u32 (h + u32 (N.shiftl h 10)) in
  N.lxor h (N.shiftr h 6).
Definition jenkins (data : list N) : N :=
  let h := fold_left jenkins_step data 0 in
  let h := u32 (h + u32 (N.shiftl h 3)) in
  let h := N.lxor h (N.shiftr h 11) in
  u32 (h + u32 (N.shiftl h 15)).

(** octaspire_string_get_hash, A:6326-6349. *)
Definition str_hash (s : ostr) : outcome N :=
  let s' := str_ensure s in
  match oct s' with
  | [] => Ret 0
  | o => if last o 1 =? 0 then Ret (jenkins o) else Abort
  end.

(** octaspire_string_find_char, A:6689-6726 (for a valid character index,
    [c] being the character looked for): the indices of its occurrences. *)
Fixpoint find_char_loop (l : list N) (i : nat) (c : N) : list nat :=
  match l with
  | [] => []
  | x :: t => if x =? c then i :: find_char_loop t (S i) c else find_char_loop t (S i) c
  end.

(** octaspire_string_find_string, A:6809-6855, for the part [pat] of the
    pattern string selected by its index and length (both valid). *)
Fixpoint find_string_loop (l : list N) (i : nat) (pat : list N) : list nat :=
  match l with
  | [] => []
  | _ :: t => if check_match l pat then i :: find_string_loop t (S i) pat
              else find_string_loop t (S i) pat
  end.

(** Mutating and reading operations, for histories. *)
Inductive str_op :=
| SPush (c : N) | SPopFront | SPopBack | SInsert (cs : list N) (i : Z)
| SOverwrite (cs : list N) (i : Z) | SConcat (b : list N) | SRemoveAt (i : Z)
| SRemoveChars (i : Z) (n : nat) | SClear | SSet (b : list N) | SGetCString.

(** One operation; the octet list is the C string returned by SGetCString. *)
Definition str_step (s : ostr) (o : str_op) : outcome (ostr * list N) :=
  match o with
  | SPush c => Ret (str_push_back s c, [])
  | SPopFront => Ret (fst (str_pop_front s), [])
  | SPopBack => Ret (fst (str_pop_back s), [])
  | SInsert cs i => Ret (fst (str_insert s cs i), [])
  | SOverwrite cs i => Ret (fst (str_overwrite s cs i), [])
  | SConcat b => match str_concat_cstr s b with Some s' => Ret (s', []) | None => NoFuel end
  | SRemoveAt i => Ret (fst (str_remove_at s i), [])
  | SRemoveChars i n => Ret (fst (str_remove_chars s i n), [])
  | SClear => Ret (str_clear s, [])
  | SSet b => match str_set_cstr s b with Some s' => Ret (s', []) | None => NoFuel end
  | SGetCString => str_get_c_string s
  end.

Fixpoint str_run (s : ostr) (ops : list str_op) : outcome (ostr * list (list N)) :=
  match ops with
  | [] => Ret (s, [])
  | o :: rest =>
      obind (str_step s o) (fun r =>
        obind (str_run (fst r) rest) (fun r' => Ret (fst r', snd r :: snd r')))
  end.
