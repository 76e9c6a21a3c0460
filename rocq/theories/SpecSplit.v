(** Splitting a text at a delimiter, as a user understands it. *)
From Coq Require Import List NArith Bool Lia.
Import ListNotations.

(** [sub] occurs in [l] as a contiguous part. *)
Definition appears (sub l : list N) : Prop := exists p q, l = p ++ sub ++ q.

(** [tokens delim l toks]: cut [l] at the delimiters from the left; the
    non-empty pieces are the tokens.  [p ++ delim] is the part up to the end
    of the first delimiter: no delimiter ends earlier. *)
Inductive tokens (delim : list N) : list N -> list (list N) -> Prop :=
| tk_end : tokens delim [] []
| tk_last l : l <> [] -> ~ appears delim l -> tokens delim l [l]
| tk_skip q toks :
    tokens delim q toks -> tokens delim (delim ++ q) toks
| tk_cut p q toks :
    p <> [] -> ~ appears delim (p ++ removelast delim) ->
    tokens delim q toks -> tokens delim (p ++ delim ++ q) (p :: toks).
