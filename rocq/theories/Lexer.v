(** Model of octaspire_dern_lexer.c.  The lexer reads the rest of the input
    (a list of characters) and returns a token and what is left; line and
    column of the input follow from the number of characters popped (Input.v),
    and are only used for positions inside tokens, which are not modelled.
    Error tokens carry no message.  Simplifications: isspace, isdigit and
    isxdigit are those of the C locale and false for characters above 127 (the
    C code passes any UCS character to them); pow(base, i) is exact when the
    result is representable; allocation never fails. *)
From Coq Require Import List NArith ZArith Bool Lia Arith.
From Coq Require Import Floats.SpecFloat.
From Verif Require Import Base Utf8 OString Base64 Input.
Import ListNotations.
Local Open Scope N_scope.

(** octaspire_dern_lexer_token_tag_t and the value of the token,
    lexer:28-60 and 168-340. *)
Inductive token :=
| TLParen | TRParen | TQuote | TBackQuote | TTrue | TFalse | TNil
| TInt (z : Z) | TReal (r : spec_float) | TSemver (major minor patch : N)
| TString (s : list N) | TChar (s : list N) | TSymbol (s : list N)
| TError | TMore.

(** A pointer to a token (None = NULL) and the input left. *)
Definition lexed := outcome (option token * list N).

(** A string rendered as a C string and read back by octaspire_string_new,
    whose error status octaspire_dern_lexer_token_new then verifies
    (lexer:239-256 and the like). *)
Definition via_cstr (l : list N) : outcome (list N) :=
  obind (str_get_c_string (mkStr l [] None)) (fun r =>
    match str_from_buffer (cstr (snd r)) with
    | Some s => match err s with None => Ret (ucs s) | Some _ => Abort end
    | None => NoFuel
    end).

(** octaspire_dern_lexer_private_pop_whitespace, lexer:955-972. *)
Fixpoint skip_ws (l : list N) : list N :=
  match l with
  | [] => []
  | c :: t => if isspace c then skip_ws t else l
  end.

(** octaspire_dern_lexer_private_pop_rest_of_line, lexer:974-994. *)
Fixpoint rest_of_line (l : list N) : list N :=
  match l with
  | [] => []
  | c :: t => if c =? 10 then t else rest_of_line t
  end.

(** The loop of octaspire_dern_lexer_private_pop_multiline_comment,
    lexer:1046-1109, after "#!": None is MORE_INPUT_REQUIRED. *)
Fixpoint comment_end (l : list N) : option (list N) :=
  match l with
  | [] => None
  | c :: t =>
      if c =? 33 then
        match t with
        | [] => None
        | d :: t' => if d =? 35 then Some t' else comment_end t
        end
      else comment_end t
  end.

(** octaspire_dern_lexer_private_is_delimeter, lexer:1130-1142. *)
Definition is_delim (c : N) : bool :=
  isspace c || (c =? 124) || (c =? 91) || (c =? 93) || (c =? 40) || (c =? 41) || (c =? 39) || (c =? 10).

(** octaspire_dern_lexer_private_expect_octet, lexer:1432-1492: strchr converts
    the character to char, and finds the terminating NUL too.  None is the
    error token. *)
Definition expect_octet (expected : list N) (l : list N) : option (N * list N) :=
  match l with
  | [] => None
  | c :: t => if existsb (N.eqb (c mod 256)) (0 :: expected) then Some (c, t) else None
  end.

Definition isdigit (c : N) : bool := (48 <=? c) && (c <=? 57).
Definition isxdigit (c : N) : bool :=
  isdigit c || ((65 <=? c) && (c <=? 70)) || ((97 <=? c) && (c <=? 102)).
(** "c - '0'" or "10 + (tolower(c) - 'a')", lexer:1846-1856. *)
Definition digit_value (c : N) : N :=
  if isdigit c then c - 48 else if c <=? 70 then c - 55 else c - 87.

(** Rounding of a natural number to a double (53 significant bits, half to
    even). *)
Definition round53 (n : N) : N :=
  if n <? 2 ^ 53 then n
  else
    let k := N.log2 n - 52 in
    let q := N.shiftr n k in
    let r := n - N.shiftl q k in
    let half := N.shiftl 1 (k - 1) in
    let q' := if (half <? r) || ((half =? r) && N.odd q) then q + 1 else q in
    N.shiftl q' k.

(** (size_t)(pow(base, i) * d): undefined when out of the range of size_t. *)
Definition digit_term (base d : N) (i : N) : outcome N :=
  let x := round53 (base ^ i * d) in
  if x <? two64 then Ret x else Undef.

(** The summation loop, lexer:1842-1857 (and 1527-1531, 1543-1547): [digits] is
    the digit buffer in reverse order. *)
Fixpoint sum_digits (base : N) (digits : list N) (i : N) (value : N) : outcome N :=
  match digits with
  | [] => Ret value
  | c :: t => obind (digit_term base (digit_value c) i) (fun x =>
                sum_digits base t (i + 1) ((value + x) mod two64))
  end.

(** factor = +-1, divided by base once per digit after the dot. *)
Definition sf_of_N (n : N) : spec_float :=
  match n with N0 => S754_zero false | Npos p => binary_normalize 53 1024 (Zpos p) 0 false end.
Fixpoint sf_divs (n : nat) (f b : spec_float) : spec_float :=
  match n with O => f | S k => sf_divs k (SFdiv 53 1024 f b) b end.

(** The end of octaspire_dern_lexer_private_pop_integer_or_real_number,
    lexer:1806-1888. *)
Definition finish_number (base : N) (neg dot : bool) (frac : nat) (digits : list N) (prev : N)
  : outcome token :=
  if prev =? 46 then Ret TError
  else obind (sum_digits base digits 0 0) (fun value =>
    if dot then
      let one := sf_of_N 1 in
      let factor := sf_divs frac (if neg then SFopp one else one) (sf_of_N base) in
      Ret (TReal (SFmul 53 1024 (sf_of_N value) factor))
    else
      let v := wrap32 (Z.of_N value) in
      let r := if neg then (- v)%Z else v in
      if in_int32 r then Ret (TInt r) else Undef).

Definition digit_ok (base c : N) : bool :=
  if base =? 2 then (c =? 48) || (c =? 49)
  else if base =? 8 then (48 <=? c) && (c <=? 55)
  else if base =? 10 then isdigit c
  else true.

(** The loop of octaspire_dern_lexer_private_pop_integer_or_real_number,
    lexer:1642-1804.  [ws]: white space was skipped since the loop condition
    was last checked, so that at the end of input the character is NUL;
    [chars] is charsRead, [digits] the digit buffer in reverse order. *)
Fixpoint number_loop (l : list N) (ws : bool) (base : N) (neg dot : bool) (frac chars : nat)
  (digits : list N) (prev : N) : lexed :=
  match l with
  | [] => if ws then Ret (Some TError, [])
          else obind (finish_number base neg dot frac digits prev) (fun t => Ret (Some t, []))
  | c :: t =>
      if isspace c then number_loop t true base neg dot frac chars digits prev
      else if c =? 46 then
        if dot then Ret (Some TError, l)
        else if Nat.eqb chars 0 then Ret (Some TError, l)
        else number_loop t false base neg true frac (S chars) digits c
      else if isxdigit c then
        if Nat.leb 256 (length digits) then Abort
        else if digit_ok base c
        then number_loop t false base neg dot (if dot then S frac else frac) (S chars) (c :: digits) c
        else Ret (Some TError, l)
      else if c =? 125 then
        obind (finish_number base neg dot frac digits prev) (fun tk => Ret (Some tk, t))
      else Ret (Some TError, l)
  end.

(** octaspire_dern_lexer_private_pop_integer_or_real_number, lexer:1555-1889. *)
Definition lex_number (l : list N) : lexed :=
  match expect_octet [123] l with
  | None => Ret (Some TError, l)
  | Some (_, l1) =>
      match expect_octet [88; 68; 79; 66] l1 with
      | None => Ret (Some TError, l1)
      | Some (b, l2) =>
          let base := if b =? 88 then 16 else if b =? 79 then 8 else if b =? 66 then 2 else 10 in
          match expect_octet [43; 45] l2 with
          | None => Ret (Some TError, l2)
          | Some (s, l3) => number_loop l3 false base (s =? 45) false 0 0 [] 0
          end
      end
  end.

(** octaspire_dern_lexer_private_expect_semver_number, lexer:1494-1553: the
    digits read, in reverse order. *)
Fixpoint semver_digits (l : list N) (digits : list N) : outcome (list N * list N) :=
  match l with
  | [] => Ret (digits, [])
  | c :: t => if isdigit c then
                if Nat.leb 256 (length digits) then Abort else semver_digits t (c :: digits)
              else Ret (digits, l)
  end.
Definition semver_number (l : list N) : outcome (option N * list N) :=
  obind (semver_digits l []) (fun r =>
    match fst r with
    | [] => Ret (None, snd r)
    | ds => obind (sum_digits 10 ds 0 0) (fun v => Ret (Some v, snd r))
    end).

(** octaspire_dern_lexer_private_pop_semver, lexer:1891-2097. *)
Definition lex_semver (l : list N) : lexed :=
  obind (semver_number l) (fun r1 =>
  match r1 with
  | (None, l1) => Ret (Some TError, l1)
  | (Some major, l1) =>
  match expect_octet [46] l1 with
  | None => Ret (Some TError, l1)
  | Some (_, l2) =>
  obind (semver_number l2) (fun r2 =>
  match r2 with
  | (None, l3) => Ret (Some TError, l3)
  | (Some minor, l3) =>
  match expect_octet [46] l3 with
  | None => Ret (Some TError, l3)
  | Some (_, l4) =>
  obind (semver_number l4) (fun r3 =>
  match r3 with
  | (None, l5) => Ret (Some TError, l5)
  | (Some patch, l5) => Ret (Some (TSemver major minor patch), l5)
  end) end end) end end).

(** The characters between the bars, lexer:2388-2472: None when the input ends
    first. *)
Fixpoint until_bar (l : list N) (acc : list N) : option (list N * list N) :=
  match l with
  | [] => None
  | c :: t => if c =? 124 then Some (rev acc, t) else until_bar t (c :: acc)
  end.

Fixpoint eqb_list (a b : list N) : bool :=
  match a, b with
  | [], [] => true
  | x :: s, y :: t => (x =? y) && eqb_list s t
  | _, _ => false
  end.

(** "bar", "newline", "tab", "string-start", "string-end". *)
Definition named_char (s : list N) : option N :=
  if eqb_list s [98; 97; 114] then Some 124
  else if eqb_list s [110; 101; 119; 108; 105; 110; 101] then Some 10
  else if eqb_list s [116; 97; 98] then Some 9
  else if eqb_list s [115; 116; 114; 105; 110; 103; 45; 115; 116; 97; 114; 116] then Some 91
  else if eqb_list s [115; 116; 114; 105; 110; 103; 45; 101; 110; 100] then Some 93
  else None.

(** strspn(s, "0123456789abcdefABCDEF"). *)
Fixpoint hex_span (l : list N) : nat :=
  match l with
  | [] => O
  | c :: t => if isxdigit c then S (hex_span t) else O
  end.
Definition hex_value (l : list N) : N := fold_left (fun v c => 16 * v + digit_value c) l 0.

(** What a complete |...| denotes, lexer:2496-2719. *)
Definition char_token (s : list N) : outcome token :=
  match s with
  | [] => Ret TError
  | [_] => obind (via_cstr s) (fun v => Ret (TChar v))
  | _ =>
      match named_char s with
      | Some c => Ret (TChar [c])
      | None =>
          obind (str_get_c_string (mkStr s [] None)) (fun r =>
            if Nat.eqb (hex_span (cstr (snd r))) (length s) then
              if Nat.ltb 8 (length s) then Ret TError
              else obind (via_cstr [hex_value s]) (fun v => Ret (TChar v))
            else Ret TError)
      end
  end.

(** octaspire_dern_lexer_private_pop_character, lexer:2357-2720; the dispatch
    guarantees the first bar. *)
Definition lex_char (l : list N) : lexed :=
  match l with
  | [] => Ret (None, [])
  | c :: t =>
      if c =? 124 then
        match until_bar t [] with
        | None => Ret (None, [])
        | Some (s, t') => obind (char_token s) (fun tk => Ret (Some tk, t'))
        end
      else Ret (Some TError, l)
  end.

(** octaspire_dern_lexer_private_pop_string, lexer:2099-2355, after the '['.
    [esc] holds the characters of an unfinished |...|, in reverse order; [acc]
    the string so far, in reverse order. *)
Fixpoint string_loop (l : list N) (esc : option (list N)) (acc : list N) : lexed :=
  match l with
  | [] => match esc with None => Ret (None, []) | Some _ => Ret (Some TError, []) end
  | c :: t =>
      match esc with
      | Some e =>
          if c =? 124 then
            obind (char_token (rev e)) (fun tk =>
              match tk with
              | TChar (x :: _) => string_loop t None (x :: acc)
              | TChar [] => Abort
              | _ => Ret (Some TError, t)
              end)
          else string_loop t (Some (c :: e)) acc
      | None =>
          if c =? 93 then
            match t with
            | [] => obind (via_cstr (rev acc)) (fun s => Ret (Some (TString s), t))
            | d :: _ => if is_delim d then obind (via_cstr (rev acc)) (fun s => Ret (Some (TString s), t))
                        else Ret (Some TError, t)
            end
          else if c =? 124 then string_loop t (Some []) acc
          else string_loop t None (c :: acc)
      end
  end.

(** The characters up to the next delimiter, lexer:2752-2787. *)
Fixpoint symbol_chars (l : list N) : list N * list N :=
  match l with
  | [] => ([], [])
  | c :: t => if is_delim c then ([], l)
              else let (s, r) := symbol_chars t in (c :: s, r)
  end.

(** octaspire_dern_lexer_private_pop_true_or_false_or_nil_or_symbol,
    lexer:2722-2880. *)
Definition lex_symbol (l : list N) : lexed :=
  let (s, r) := symbol_chars l in
  match s with
  | [] => Ret (Some TError, r)
  | _ =>
      if eqb_list s [116; 114; 117; 101] then Ret (Some TTrue, r)
      else if eqb_list s [102; 97; 108; 115; 101] then Ret (Some TFalse, r)
      else if eqb_list s [110; 105; 108] then Ret (Some TNil, r)
      else obind (via_cstr s) (fun v => Ret (Some (TSymbol v), r))
  end.

(** The switch of octaspire_dern_lexer_pop_next_token for a character that is
    neither white space nor the start of a comment, lexer:2930-3065. *)
Definition lex_token (l : list N) : lexed :=
  match l with
  | [] => Ret (None, [])
  | c :: t =>
      if c =? 40 then Ret (Some TLParen, t)
      else if c =? 41 then Ret (Some TRParen, t)
      else if c =? 39 then Ret (Some TQuote, t)
      else if c =? 96 then Ret (Some TBackQuote, t)
      else if c =? 123 then lex_number l
      else if isdigit c then lex_semver l
      else if c =? 91 then string_loop t None []
      else if c =? 124 then lex_char l
      else lex_symbol l
  end.

(** octaspire_dern_lexer_pop_next_token, lexer:2882-3070; each comment takes
    one unit of fuel. *)
Fixpoint lex_fuel (fuel : nat) (l : list N) : lexed :=
  match skip_ws l with
  | [] => Ret (None, [])
  | c :: t =>
      if c =? 59 then
        match fuel with O => NoFuel | S f => lex_fuel f (rest_of_line (c :: t)) end
      else if (c =? 35) && (match t with d :: _ => d =? 33 | [] => false end) then
        match comment_end (tl t) with
        | None => Ret (Some TMore, [])
        | Some r => match fuel with O => NoFuel | S f => lex_fuel f r end
        end
      else lex_token (c :: t)
  end.
Definition lex (l : list N) : lexed := lex_fuel (length l) l.

(** octaspire_dern_lexer_pop_next_token on an input. *)
Definition lex_input (i : input) : outcome (option token * input) :=
  obind (lex (rest i)) (fun r => Ret (fst r, input_pops (length (rest i) - length (snd r)) i)).
