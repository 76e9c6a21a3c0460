#!/usr/bin/env python3
"""Cross-validation of the model against the project's own expectations.

Not part of the proofs. Writes an extraction script and a driver into a scratch
directory (argument 1, default /tmp/xval), builds them, replays every text that
/repo/dev/test/test_dern_vm.c evaluates and compares the asserted results (type,
number, truth value, printed text) with those of the model.
Needs the compiled model in /verif/rocq/theories (make in /verif/rocq) and ocamlfind.
Output: one line per disagreement (BAD) or unmodelled call (UNMOD), then
the numbers: agree, disagree, unmodelled.
"""
import os, subprocess, sys
ROOT = sys.argv[1] if len(sys.argv) > 1 else "/tmp/xval"
os.makedirs(ROOT, exist_ok=True)
os.chdir(ROOT)
EXT = r'''From Coq Require Import NArith ZArith Bool String List Extraction ExtrOcamlBasic.
From Verif Require Import Base Input HMap Heap ValueOps Env Copy ToText Builtins Specials Eval Read Boot.
Definition unbooted (limit : N) : vm := empty_vm limit (fun n => n) (fun _ => nil).
Definition start := match boot library (unbooted 1024) with Ret (_, s) => Some s | _ => None end.
Definition run (fuel : nat) (t : list N) (s : vm) := read_eval fuel (input_new t) s.
Definition text_of fuel (s : vm) (r : ref) := to_text (readably s) false fuel (all s) r.
Definition plain_of fuel (s : vm) (r : ref) := to_text (readably s) true fuel (all s) r.
Definition tag (s : vm) (r : ref) : N := match lookup (all s) r with None => 99 | Some c => match cdata c with DNil => 0 | DBool _ => 1 | DInt _ => 2 | DReal _ => 3 | DStr _ => 4 | DChar _ => 5 | DSym _ => 6 | DErr _ _ => 7 | DVec _ => 8 | DMap _ => 9 | DQueue _ _ => 10 | DList _ => 11 | DEnv _ _ => 12 | DFun _ => 13 | DMac _ => 14 | DSpecial _ => 15 | DBuiltin _ => 16 | DSemver _ => 17 end end%N.
Extraction "m.ml" start run text_of plain_of tag output.
'''
DRV = r'''open M
let rec nat_of n = if n = 0 then O else S (nat_of (n-1))
let rec pos_of n = if n = 1 then XH else if n land 1 = 1 then XI (pos_of (n/2)) else XO (pos_of (n/2))
let n_of n = if n = 0 then N0 else Npos (pos_of n)
let rec of_pos = function XH -> 1 | XI p -> 2 * of_pos p + 1 | XO p -> 2 * of_pos p
let of_n = function N0 -> 0 | Npos p -> of_pos p
let rec list_of = function [] -> [] | x :: t -> of_n x :: list_of t
let utf8 b c = let a x = Buffer.add_char b (Char.chr x) in
  if c < 0x80 then a c else if c < 0x800 then (a (0xC0 lor (c lsr 6)); a (0x80 lor (c land 63)))
  else if c < 0x10000 then (a (0xE0 lor (c lsr 12)); a (0x80 lor ((c lsr 6) land 63)); a (0x80 lor (c land 63)))
  else (a (0xF0 lor (c lsr 18)); a (0x80 lor ((c lsr 12) land 63)); a (0x80 lor ((c lsr 6) land 63)); a (0x80 lor (c land 63)))
let txt l = let b = Buffer.create 16 in List.iter (utf8 b) (list_of l); Buffer.contents b
let out o f = match o with Ret x -> f x | Abort -> "ABORT" | Undef -> "UNDEF" | Dangling -> "DANGLING" | Unbalanced -> "UNBALANCED" | NoFuel -> "NOFUEL"
let hex s = String.concat "" (List.map (fun c -> Printf.sprintf "%02x" (Char.code c)) (List.of_seq (String.to_seq s)))
let fuel = nat_of 2000
let booted = match start with Some s -> s | None -> failwith "boot"
let st = ref booted
let () =
  try while true do
    let l = input_line stdin in
    if l.[0] = 'T' then st := booted
    else begin
      let ws = List.filter (fun x -> x <> "") (String.split_on_char ' ' (String.sub l 1 (String.length l - 1))) in
      let src = List.map (fun x -> n_of (int_of_string x)) ws in
      let r = out (run fuel src !st) (fun (r, s) -> st := s;
        match r with None -> "NONE" | Some v ->
          Printf.sprintf "%d\t%s\t%s" (of_n (tag0 s v)) (hex (out (text_of fuel s v) txt)) (hex (out (plain_of fuel s v) txt))) in
      print_endline r
    end
  done with End_of_file -> ()
'''
open("Ext.v", "w").write(EXT)
open("drv.ml", "w").write(DRV)
subprocess.run(["coqc", "-Q", "/verif/rocq/theories", "Verif", "Ext.v"], check=True)
subprocess.run(["ocamlfind", "ocamlopt", "-package", "zarith", "m.mli", "m.ml", "drv.ml", "-o", "drv"], check=True,
               stderr=subprocess.DEVNULL)
import re,subprocess,sys,json
src=open('/repo/dev/test/test_dern_vm.c',encoding='utf8').read()
src=re.sub(r'(?m)^\s*//.*$','',src)
tests=re.split(r'(?m)^TEST ',src)[1:]
LIT=r'((?:"(?:[^"\\]|\\.)*"\s*)+)'
def unq(s):
    parts=re.findall(r'"((?:[^"\\]|\\.)*)"',s)
    o=b''
    for p in parts:
        i=0
        b=p.encode('utf8');j=0
        while j<len(b):
            if b[j:j+1]==b'\\':
                c=chr(b[j+1])
                if c=='x':
                    m=re.match(rb'[0-9A-Fa-f]+',b[j+2:]); o+=bytes([int(m.group(),16)&255]); j+=2+len(m.group()); continue
                o+={'n':b'\n','t':b'\t','"':b'"','\\':b'\\','r':b'\r','0':b'\0',"'":b"'"}[c]; j+=2
            else: o+=b[j:j+1]; j+=1
    return o
pat=re.compile(r'eval_in_global_environment\(\s*vm,\s*'+LIT+r'\)'
 r'|ASSERT_EQ\(\s*OCTASPIRE_DERN_VALUE_TAG_(?P<tag>\w+),\s*evaluatedValue->typeTag\)'
 r'|ASSERT_EQ\(\s*(?P<int>-?\d+),\s*evaluatedValue->value\.integer\)'
 r'|ASSERT_EQ\(\s*(?P<bool>true|false),\s*evaluatedValue->value\.boolean\)'
 r'|ASSERT_IN_RANGE\(\s*(?P<real>-?[0-9.]+)f?,\s*evaluatedValue->value\.real,'
 r'|ASSERT_STR_EQ\(\s*(?P<str>'+LIT+r'),\s*octaspire_string_get_c_string\((?P<what>[^)]*)\)',re.S)
T=[]
n=0
for t in tests:
    name=re.match(r'\w+',t).group()
    ev=[]
    for m in pat.finditer(t):
        if m.group(1): ev.append(['E',unq(m.group(1)),[]])
        elif not ev: continue
        elif m.group('tag'): ev[-1][2].append(('tag',m.group('tag')))
        elif m.group('int'): ev[-1][2].append(('int',int(m.group('int'))))
        elif m.group('bool'): ev[-1][2].append(('bool',m.group('bool')))
        elif m.group('real'): ev[-1][2].append(('real',float(m.group('real'))))
        elif m.group('str'): ev[-1][2].append(('str',unq(m.group('str')),m.group('what')))
    T.append((name,ev))
inp=''
for name,ev in T:
    inp+='T\n'
    for e in ev:
        inp+='E '+' '.join(str(ord(c)) for c in e[1].decode('utf8'))+'\n'
out=subprocess.run(['./drv'],input=inp,capture_output=True,text=True)
print(out.stderr[:500])
lines=out.stdout.split('\n')
TAGS="NIL BOOLEAN INTEGER REAL STRING CHARACTER SYMBOL ERROR VECTOR HASH_MAP QUEUE LIST ENVIRONMENT FUNCTION MACRO SPECIAL BUILTIN SEMVER".split()
i=0;ok=bad=un=0
for name,ev in T:
    for _,s,asr in ev:
        r=lines[i];i+=1
        f=r.split('\t')
        if f[0]=='NOFUEL': un+=1; print('UNMOD',name,s.decode()); break_=True; 
        prob=[]
        if len(f)<3:
            if f[0]!='NOFUEL': prob.append(r)
        else:
            tag=TAGS[int(f[0])]
            txt=bytes.fromhex(f[1]).decode('utf8','replace')
            pl=bytes.fromhex(f[2]).decode('utf8','replace')
            for a in asr:
                if a[0]=='tag' and a[1]!=tag: prob.append(('tag',a[1],tag,txt))
                if a[0]=='int' and txt!='{D%+d}'%a[1]: prob.append(('int',a[1],txt))
                if a[0]=='bool' and txt!=a[1]: prob.append((a,txt))
                if a[0]=='real' and tag=='REAL':
                    try: v=float(re.sub(r'[{}D]','',pl).replace('+-','-'))
                    except: v=None
                    if v is None or abs(v-a[1])>1e-4: prob.append((a,txt))
                if a[0]=='str' and 'error' not in a[2]:
                    if a[1].decode() not in (txt,pl): prob.append((a[1].decode(),txt,pl,a[2]))
        if prob: bad+=1; print('BAD',name,s.decode(),prob)
        elif len(f)>=3: ok+=1
print(ok,bad,un)
