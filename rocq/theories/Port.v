(** File ports: octaspire_dern_port.c and the builtins of stdlib:4871-5645 that use it.

    Citations: [port:n-m] = /repo/dev/src/octaspire_dern_port.c.

    The C library's streams are modelled as ISO C and POSIX describe them: octets that were written wait in the
    stream's buffer ([pending]) until the library passes them on to the file, at a time of its own choosing
    ([drains]), at the latest when the stream is flushed, positioned or closed; a file opened with "a" is only
    appended to; input directly after output or output directly after input (unless the input met the end of the
    file) without a flush or a positioning in between is undefined behaviour.
    Simplified: reading is not buffered (a read sees the file as it is at that moment); files are not removed and not written by
    other processes; a path names a file, not a directory; reads do not fail; memory allocation does not fail. *)
From Coq Require Import List NArith ZArith Bool.
From Verif Require Import Base OString ValueOps.
Import ListNotations.
Local Open Scope N_scope.

(** ** The C library and the file system *)

Definition path := list N.
Definition files := path -> option (list N).
Definition path_dec : forall p q : path, {p = q} + {p <> q} := list_eq_dec N.eq_dec.
Definition put_file (p : path) (o : list N) (f : files) : files := fun q => if path_dec p q then Some o else f q.

(** The answers of the operating system, by the number of the call: may the file be opened, how many of the octets are
    accepted by fwrite, how many of the waiting octets reach the file, and do all of them (flush)? *)
Record system := mkSystem { opens : nat -> bool; takes : nat -> N; drains : nat -> N; syncs : nat -> bool }.

Record world := mkWorld { disk : files; time : nat }.

Inductive direction := Still | Reading | Writing.
Record stream := mkStream { at_path : path; position : N; pending : list N; last : direction }.

Definition content (w : world) (p : path) : list N := match disk w p with Some o => o | None => [] end.
Definition len (l : list N) : N := N.of_nat (List.length l).
Definition take (n : N) (l : list N) : list N := firstn (N.to_nat n) l.
Definition skip (n : N) (l : list N) : list N := skipn (N.to_nat n) l.
Definition tick (w : world) : world := mkWorld (disk w) (S (time w)).

(** fopen(path, "rb"). *)
Definition open_read (y : system) (p : path) (w : world) : option stream * world :=
  match disk w p with
  | Some _ => (if opens y (time w) then Some (mkStream p 0 [] Still) else None, tick w)
  | None => (None, tick w)
  end.
(** fopen(path, "a") and fopen(path, "a+b"); the position is at the end for "a" (the C library of POSIX systems) and at the beginning for "a+b". *)
Definition open_append (y : system) (at_end : bool) (p : path) (w : world) : option stream * world :=
  if opens y (time w)
  then (Some (mkStream p (if at_end then len (content w p) else 0) [] Still), tick (mkWorld (put_file p (content w p) (disk w)) (time w)))
  else (None, tick w).

(** The first [n] waiting octets reach the file. *)
Definition drain (n : N) (st : stream) (w : world) : stream * world :=
  match take n (pending st) with
  | [] => (st, tick w)
  | o => (mkStream (at_path st) (position st) (skip n (pending st)) (last st),
          tick (mkWorld (put_file (at_path st) (content w (at_path st) ++ o) (disk w)) (time w)))
  end.

(** fwrite of octets on a stream opened for appending: the number of octets written. *)
Definition fwrite (y : system) (o : list N) (st : stream) (w : world) : outcome (N * stream * world) :=
  match last st with
  | Reading => Undef
  | _ =>
      let k := N.min (len o) (takes y (time w)) in
      let (st', w') := drain (drains y (time w)) (mkStream (at_path st) (position st) (pending st ++ take k o) Writing) w in
      Ret (k, mkStream (at_path st') (len (content w' (at_path st')) + len (pending st')) (pending st') Writing, w')
  end.
(** fread. *)
Definition fread (n : N) (st : stream) (w : world) : outcome (list N * stream * world) :=
  match last st with
  | Writing => Undef
  | _ =>
      let o := take n (skip (position st) (content w (at_path st))) in
      Ret (o, mkStream (at_path st) (position st + len o) (pending st) (if len o <? n then Still else Reading), tick w)
  end.
Definition settled (d : direction) : direction := match d with Writing => Still | _ => d end.
(** fflush: true when all the waiting octets reached the file; it ends writing, but not reading. *)
Definition fflush (y : system) (st : stream) (w : world) : bool * stream * world :=
  match pending st with
  | [] => (true, mkStream (at_path st) (position st) [] (settled (last st)), tick w)
  | _ =>
      if syncs y (time w)
      then let (st', w') := drain (len (pending st)) st w in (true, mkStream (at_path st') (position st') (pending st') (settled (last st')), w')
      else let (st', w') := drain (drains y (time w)) st w in (false, st', w')
  end.
Inductive whence := FromStart | FromHere | FromEnd.
(** fseek: flushes, then moves; a position before the beginning of the file is refused. *)
Definition fseek (y : system) (off : Z) (from : whence) (st : stream) (w : world) : bool * stream * world :=
  let '(ok, st', w') := fflush y st w in
  if ok then
    let target := (match from with FromStart => 0 | FromHere => Z.of_N (position st') | FromEnd => Z.of_N (len (content w' (at_path st'))) end + off)%Z in
    if (target <? 0)%Z then (false, mkStream (at_path st) (position st) (pending st') (last st), w') else (true, mkStream (at_path st') (Z.to_N target) (pending st') Still, w')
  else (false, st', w').
(** fclose. *)
Definition fclose (y : system) (st : stream) (w : world) : bool * world :=
  let '(ok, _, w') := fflush y st w in (ok, w').

(** ** octaspire_dern_port.c *)

Inductive tag := IsInput | IsOutput | IsIo | NotOpen.
(** struct octaspire_dern_port_t, port:26-40; [file] is [None] for the NULL pointer. *)
Record port := mkPort { name : path; kind : tag; file : option stream; octet_count : Z }.

(** The end of the constructors for input: port:140-143, 199-202, 70-72, 86-88. *)
Definition measure (y : system) (st : stream) (w : world) : outcome (Z * stream * world) :=
  let '(ok, st1, w1) := fseek y 0 FromEnd st w in
  if ok then
    let n := Z.of_N (position st1) in
    let '(ok2, st2, w2) := fseek y 0 FromStart st1 w1 in
    if ok2 then Ret (n, st2, w2) else Abort
  else Abort.

(** octaspire_dern_port_new_input_file, port:117-146. *)
Definition new_input (y : system) (p : path) (w : world) : outcome (port * world) :=
  match open_read y p w with
  | (None, w') => Ret (mkPort p NotOpen None (-1), w')
  | (Some st, w') => obind (measure y st w') (fun '(n, st', w'') => Ret (mkPort p IsInput (Some st') n, w''))
  end.
(** octaspire_dern_port_new_output_file, port:148-174. *)
Definition new_output (y : system) (p : path) (w : world) : outcome (port * world) :=
  match open_append y true p w with
  | (None, w') => Ret (mkPort p NotOpen None (-1), w')
  | (Some st, w') => Ret (mkPort p IsOutput (Some st) (Z.of_N (position st)), w')
  end.
(** octaspire_dern_port_new_io_file, port:176-205. *)
Definition new_io (y : system) (p : path) (w : world) : outcome (port * world) :=
  match open_append y false p w with
  | (None, w') => Ret (mkPort p NotOpen None (-1), w')
  | (Some st, w') => obind (measure y st w') (fun '(n, st', w'') => Ret (mkPort p IsIo (Some st') n, w''))
  end.
(** octaspire_dern_port_new_copy, port:42-115: the file is opened again; when that fails, the NULL pointer is used (fseek, ftell: undefined behaviour). *)
Definition new_copy (y : system) (q : port) (w : world) : outcome (port * world) :=
  match kind q with
  | IsIo => match open_append y false (name q) w with
            | (None, _) => Undef
            | (Some st, w') => obind (measure y st w') (fun '(n, st', w'') => Ret (mkPort (name q) IsIo (Some st') n, w''))
            end
  | IsInput => match open_read y (name q) w with
               | (None, _) => Undef
               | (Some st, w') => obind (measure y st w') (fun '(n, st', w'') => Ret (mkPort (name q) IsInput (Some st') n, w''))
               end
  | IsOutput => match open_append y true (name q) w with
                | (None, _) => Undef
                | (Some st, w') => Ret (mkPort (name q) IsOutput (Some st) (Z.of_N (position st)), w')
                end
  | NotOpen => Ret (mkPort (name q) NotOpen None (octet_count q), w)
  end.
(** octaspire_dern_port_release, port:207-228. *)
Definition release (y : system) (q : port) (w : world) : outcome world :=
  match kind q, file q with
  | NotOpen, _ => Ret w
  | _, None => Undef
  | _, Some st => let (ok, w') := fclose y st w in if ok then Ret w' else Abort
  end.
(** octaspire_dern_port_write, port:230-249. *)
Definition port_write (y : system) (o : list N) (q : port) (w : world) : outcome (Z * port * world) :=
  match kind q with
  | IsIo | IsOutput =>
      match file q with
      | None => Abort
      | Some st => obind (fwrite y o st w) (fun '(k, st', w') => Ret (Z.of_N k, mkPort (name q) (kind q) (Some st') (octet_count q), w'))
      end
  | _ => Ret ((-1)%Z, q, w)
  end.
(** octaspire_dern_port_read, port:251-270: -1, or the number of octets read, with the octets. *)
Definition port_read (n : N) (q : port) (w : world) : outcome (option (list N) * port * world) :=
  match kind q with
  | IsIo | IsInput =>
      match file q with
      | None => Abort
      | Some st => obind (fread n st w) (fun '(o, st', w') => Ret (Some o, mkPort (name q) (kind q) (Some st') (octet_count q), w'))
      end
  | _ => Ret (None, q, w)
  end.
(** octaspire_dern_port_close, port:272-296. *)
Definition port_close (y : system) (q : port) (w : world) : outcome (bool * port * world) :=
  match kind q, file q with
  | NotOpen, _ => Ret (false, q, w)
  | _, None => Undef
  | _, Some st => let (ok, w') := fclose y st w in Ret (ok, mkPort (name q) NotOpen None (-1), w')
  end.
(** octaspire_dern_port_get_length_in_octets, port:298-302. *)
Definition port_length (q : port) : Z := octet_count q.
(** octaspire_dern_port_seek, port:366-404. *)
Definition port_seek (y : system) (amount : Z) (here : bool) (q : port) (w : world) : outcome (bool * port * world) :=
  match kind q, file q with
  | NotOpen, _ => Ret (false, q, w)
  | _, None => Abort
  | _, Some st =>
      let '(ok, st', w') :=
        if (amount <? 0)%Z
        then fseek y (if here then amount else amount + 1)%Z (if here then FromHere else FromEnd) st w
        else fseek y amount (if here then FromHere else FromStart) st w in
      Ret (ok, mkPort (name q) (kind q) (Some st') (octet_count q), w')
  end.
(** octaspire_dern_port_flush, port:406-428. *)
Definition port_flush (y : system) (q : port) (w : world) : outcome (bool * port * world) :=
  match kind q, file q with
  | NotOpen, _ => Ret (false, q, w)
  | _, None => Abort
  | _, Some st => let '(ok, st', w') := fflush y st w in Ret (ok, mkPort (name q) (kind q) (Some st') (octet_count q), w')
  end.
(** octaspire_dern_port_distance, port:430-452. *)
Definition port_distance (q : port) : outcome Z :=
  match kind q, file q with
  | NotOpen, _ => Ret (-1)%Z
  | _, None => Abort
  | _, Some st => Ret (Z.of_N (position st))
  end.
(** octaspire_dern_port_supports_output, port:454-476, and ..._supports_input, port:478-500. *)
Definition supports_output (q : port) : outcome bool :=
  match kind q, file q with
  | IsIo, None | IsOutput, None => Abort
  | IsIo, _ | IsOutput, _ => Ret true
  | _, _ => Ret false
  end.
Definition supports_input (q : port) : outcome bool :=
  match kind q, file q with
  | IsIo, None | IsInput, None => Abort
  | IsIo, _ | IsInput, _ => Ret true
  | _, _ => Ret false
  end.

(** ** The builtins

    The arguments as the builtins see them; [VPort i] is the port with number [i] of the machine.  Values of all other kinds are [VOther]. *)
Inductive value :=
| VInt (z : Z)
| VChar (t : list N)
| VStr (t : list N)
| VVec (l : list value)
| VSym
| VPort (i : nat)
| VOther.
Inductive answer :=
| AnInt (z : Z)
| ABool (b : bool)
| AVec (l : list Z)
| APort (i : nat)
| AnError.
Record host := mkHost { ports : list port; here : world }.

Fixpoint set_nth {X} (i : nat) (x : X) (l : list X) : list X :=
  match l, i with
  | [], _ => []
  | _ :: l', O => x :: l'
  | y :: l', S j => y :: set_nth j x l'
  end.
Definition with_port (h : host) (i : nat) (q : port) (w : world) : host := mkHost (set_nth i q (ports h)) w.
Definition fresh_port (h : host) (q : port) (w : world) : answer * host := (APort (List.length (ports h)), mkHost (ports h ++ [q]) w).

(** octaspire_dern_vm_builtin_input_file_open, stdlib:4871-4911, ..._output_file_open, stdlib:4913-4953, ..._io_file_open, stdlib:4955-5008.
    With an argument that is no string the arguments are left on the stack, which the check of the stack's length notices (abort). *)
Definition b_open (make : path -> world -> outcome (port * world)) (checked : bool) (a : list value) (h : host) : outcome (answer * host) :=
  match a with
  | [VStr t] =>
      obind (str_get_c_string (text_str t)) (fun p =>
        obind (make (cstr (snd p)) (here h)) (fun '(q, w) =>
          if checked then
            obind (supports_output q) (fun o => obind (supports_input q) (fun i =>
              if o && i then Ret (fresh_port h q w) else Ret (AnError, mkHost (ports h ++ [q]) w)))
          else Ret (fresh_port h q w)))
  | [_] => Abort
  | _ => Ret (AnError, h)
  end.
Definition b_input_open (y : system) := b_open (new_input y) false.
Definition b_output_open (y : system) := b_open (new_output y) false.
Definition b_io_open (y : system) := b_open (new_io y) true.

(** octaspire_dern_vm_builtin_port_close, stdlib:5092-5130 (an argument that is no port: as above). *)
Definition b_close (y : system) (a : list value) (h : host) : outcome (answer * host) :=
  match a with
  | [VPort i] => match nth_error (ports h) i with
                 | Some q => obind (port_close y q (here h)) (fun '(b, q', w) => Ret (ABool b, with_port h i q' w))
                 | None => Undef
                 end
  | [_] => Abort
  | _ => Ret (AnError, h)
  end.

(** (int32_t)buffer[0] of a char: char is signed. *)
Definition signed_octet (b : N) : Z := if b <? 128 then Z.of_N b else (Z.of_N b - 256)%Z.
(** (char)n of an int32_t, as an octet. *)
Definition octet_of (z : Z) : N := Z.to_N (z mod 256).

(** The loop of stdlib:5193-5216. *)
Fixpoint read_octets (n : nat) (q : port) (w : world) : outcome (list Z * port * world) :=
  match n with
  | O => Ret ([], q, w)
  | S k => obind (port_read 1 q w) (fun '(o, q', w') =>
             match o with
             | Some [b] => obind (read_octets k q' w') (fun '(l, q'', w'') => Ret (signed_octet b :: l, q'', w''))
             | _ => Ret ([], q', w')
             end)
  end.
(** octaspire_dern_vm_builtin_port_read, stdlib:5132-5248. *)
Definition b_read (a : list value) (h : host) : outcome (answer * host) :=
  match a with
  | [VPort i] =>
      match nth_error (ports h) i with
      | Some q => obind (port_read 1 q (here h)) (fun '(o, q', w) =>
          match o with
          | Some [b] => Ret (AnInt (signed_octet b), with_port h i q' w)
          | _ => Ret (AnError, with_port h i q' w)
          end)
      | None => Undef
      end
  | [VPort i; VInt n] =>
      match nth_error (ports h) i with
      | Some q => obind (read_octets (Z.to_nat n) q (here h)) (fun '(l, q', w) => Ret (AVec l, with_port h i q' w))
      | None => Undef
      end
  | _ => Ret (AnError, h)
  end.

(** The octets of a string: octaspire_string_get_c_string with octaspire_string_get_length_in_octets (A:5608-5621). *)
Definition octets_to_write (t : list N) : outcome (list N) :=
  obind (str_get_c_string (text_str t)) (fun p => Ret (removelast (snd p))).

(** octaspire_dern_vm_builtin_port_write, stdlib:5250-5436, for a port [q] that supports writing and a second argument [v]: the number of octets, [None] for an error. *)
Definition write_text (y : system) (t : list N) (q : port) (w : world) : outcome (option Z * port * world) :=
  obind (octets_to_write t) (fun o => obind (port_write y o q w) (fun '(k, q', w') =>
    if (k =? Z.of_N (len o))%Z then Ret (Some (wrap32 (Z.of_N (len o))), q', w') else Ret (None, q', w'))).
Fixpoint write_value (y : system) (v : value) (q : port) (w : world) {struct v} : outcome (option Z * port * world) :=
  obind (supports_output q) (fun can =>
  if can then
    match v with
    | VInt z => obind (port_write y [octet_of z] q w) (fun '(k, q', w') => if (k <? 0)%Z then Abort else Ret (Some (wrap32 k), q', w'))
    | VChar t | VStr t => write_text y t q w
    | VVec l =>
        (fix go (l : list value) (c : Z) (q : port) (w : world) {struct l} : outcome (option Z * port * world) :=
           match l with
           | [] => Ret (Some c, q, w)
           | v' :: l' => obind (write_value y v' q w) (fun '(k, q', w') =>
               match k with
               | Some k => obind (int32_op (c + k)) (fun c' => go l' c' q' w')
               | None => Ret (None, q', w')
               end)
           end) l 0%Z q w
    | _ => Ret (None, q, w)
    end
  else Ret (None, q, w)).
Definition b_write (y : system) (a : list value) (h : host) : outcome (answer * host) :=
  match a with
  | [VPort i; v] =>
      match nth_error (ports h) i with
      | Some q => obind (write_value y v q (here h)) (fun '(k, q', w) => Ret (match k with Some z => AnInt z | None => AnError end, with_port h i q' w))
      | None => Undef
      end
  | _ => Ret (AnError, h)
  end.
(** octaspire_dern_vm_builtin_port_seek, stdlib:5438-5517: any symbol as third argument means from-current. *)
Definition b_seek (y : system) (a : list value) (h : host) : outcome (answer * host) :=
  let go i n here_ :=
    match nth_error (ports h) i with
    | Some q => obind (port_seek y n here_ q (here h)) (fun '(b, q', w) => Ret (ABool b, with_port h i q' w))
    | None => Undef
    end in
  match a with
  | [VPort i; VInt n] => go i n false
  | [VPort i; VInt n; VSym] => go i n true
  | _ => Ret (AnError, h)
  end.
(** octaspire_dern_vm_builtin_port_dist, stdlib:5519-5560; ..._port_length, stdlib:5562-5603; ..._port_flush, stdlib:5605-5645. *)
Definition b_dist (a : list value) (h : host) : outcome (answer * host) :=
  match a with
  | [VPort i] => match nth_error (ports h) i with
                 | Some q => obind (port_distance q) (fun d => Ret (AnInt (wrap32 d), h))
                 | None => Undef
                 end
  | _ => Ret (AnError, h)
  end.
Definition b_length (a : list value) (h : host) : outcome (answer * host) :=
  match a with
  | [VPort i] => match nth_error (ports h) i with
                 | Some q => Ret (AnInt (wrap32 (port_length q)), h)
                 | None => Undef
                 end
  | _ => Ret (AnError, h)
  end.
Definition b_flush (y : system) (a : list value) (h : host) : outcome (answer * host) :=
  match a with
  | [VPort i] => match nth_error (ports h) i with
                 | Some q => obind (port_flush y q (here h)) (fun '(b, q', w) => Ret (ABool b, with_port h i q' w))
                 | None => Undef
                 end
  | _ => Ret (AnError, h)
  end.
(** octaspire_dern_vm_builtin_port_supports_output_question_mark, stdlib:5010-5049, ..._supports_input_..., stdlib:5051-5090. *)
Definition b_supports (test : port -> outcome bool) (a : list value) (h : host) : outcome (answer * host) :=
  match a with
  | [VPort i] => match nth_error (ports h) i with
                 | Some q => obind (test q) (fun b => Ret (ABool b, h))
                 | None => Undef
                 end
  | _ => Ret (AnError, h)
  end.
(** The copy of a port as a value (vm:2090-2094). *)
Definition copy_port (y : system) (i : nat) (h : host) : outcome (answer * host) :=
  match nth_error (ports h) i with
  | Some q => obind (new_copy y q (here h)) (fun '(q', w) => Ret (fresh_port h q' w))
  | None => Undef
  end.
(** The release of the value of a port by the collector (vm:2936-2940).  The number keeps standing for the port, which is closed now. *)
Definition release_port (y : system) (i : nat) (h : host) : outcome host :=
  match nth_error (ports h) i with
  | Some q => obind (release y q (here h)) (fun w => Ret (with_port h i (mkPort (name q) NotOpen None (-1)) w))
  | None => Undef
  end.

(** The calls, for histories. *)
Inductive call :=
| COpenInput (a : list value)
| COpenOutput (a : list value)
| COpenIo (a : list value)
| CClose (a : list value)
| CRead (a : list value)
| CWrite (a : list value)
| CSeek (a : list value)
| CDist (a : list value)
| CLength (a : list value)
| CFlush (a : list value)
| CSupportsOutput (a : list value)
| CSupportsInput (a : list value)
| CCopy (i : nat)
| CRelease (i : nat).
Definition run_call (y : system) (c : call) (h : host) : outcome (answer * host) :=
  match c with
  | COpenInput a => b_input_open y a h
  | COpenOutput a => b_output_open y a h
  | COpenIo a => b_io_open y a h
  | CClose a => b_close y a h
  | CRead a => b_read a h
  | CWrite a => b_write y a h
  | CSeek a => b_seek y a h
  | CDist a => b_dist a h
  | CLength a => b_length a h
  | CFlush a => b_flush y a h
  | CSupportsOutput a => b_supports supports_output a h
  | CSupportsInput a => b_supports supports_input a h
  | CCopy i => copy_port y i h
  | CRelease i => obind (release_port y i h) (fun h' => Ret (ABool true, h'))
  end.
