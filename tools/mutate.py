#!/usr/bin/env python3
"""Apply wrong edits to a scratch copy of the model, rebuild, and log what fails.
usage: mutate.py MUTANTS.json [first [last]]
Each mutant: {file, definition, old, new, claim, note}. The scratch copy is /tmp/mut/tree."""
import json, os, re, subprocess, sys
ROOT = os.environ.get('MUT_ROOT', '/verif/rocq'); T = '/tmp/mut/tree'; LOG = '/verif/seeded/LOG.jsonl'
ms = json.load(open(sys.argv[1]))
a = int(sys.argv[2]) if len(sys.argv) > 2 else 0
b = int(sys.argv[3]) if len(sys.argv) > 3 else len(ms)
os.makedirs(T, exist_ok=True)
def enclosing(path, line):
    name = None
    for i, l in enumerate(open(path), 1):
        m = re.match(r'\s*(?:Local |Global )?(Theorem|Lemma|Corollary|Example|Definition|Fixpoint|Fact|Remark)\s+([\w\']+)', l)
        if m: name = m.group(1) + ' ' + m.group(2)
        if i >= line: break
    return name
for i in range(a, b):
    m = ms[i]
    subprocess.run(f'rm -rf {T} && cp -a {ROOT} {T}', shell=True, check=True)
    p = f"{T}/theories/{m['file']}"
    s = open(p).read()
    n = s.count(m['old'])
    if n != m.get('count', 1):
        print(i, 'BAD', n, m['file'], m['old'][:60]); continue
    open(p, 'w').write(s.replace(m['old'], m['new']))
    r = subprocess.run(['timeout', '1500', 'make', '-k', '-j2'], cwd=T, capture_output=True, text=True)
    out = r.stdout + r.stderr
    fails = []
    lines = out.split('\n')
    for j, l in enumerate(lines):
        k = re.match(r'File "\./theories/([\w]+\.v)", line (\d+)', l)
        if k and 'Error' in '\n'.join(lines[j:j + 3]):
            f, ln = k.group(1), int(k.group(2))
            nm = enclosing(f'{T}/theories/{f}', ln)
            x = f'{f}: {nm}'
            if x not in fails: fails.append(x)
    rec = {'definition': f"{m['file']}: {m['definition']}", 'edit': m['note'], 'claim': m['claim'], 'failed': fails, 'tightened': m.get('tightened', [])}
    if not fails: rec['result'] = 'SURVIVED' if r.returncode == 0 else 'BUILD ERROR'
    print(i, m['claim'], m['definition'], '->', fails or rec['result'], flush=True)
    open('/tmp/mut/results.jsonl', 'a').write(json.dumps(dict(rec, i=i, src=sys.argv[1])) + '\n')
