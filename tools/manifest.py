#!/usr/bin/env python3
"""Write MANIFEST.json from the theorem names in rocq/theories/Props*.v and
the status notes in tools/notes.json; also list the files in _CoqProject."""
import glob, json, os, re
root = os.path.dirname(os.path.dirname(os.path.abspath(__file__)))
th = {}
for f in sorted(glob.glob(root + "/rocq/theories/Props*.v")):
    for m in re.finditer(r"^Theorem (C\d+\w*)", open(f).read(), re.M):
        th.setdefault(m.group(1).split("_")[0], []).append(m.group(1))
notes = json.load(open(root + "/tools/notes.json"))
ids = [json.loads(l)["id"] for l in open(root + "/properties.jsonl")]
claims = []
for i in ids:
    n = notes.get(i, {})
    if i not in th and n.get("status") != "not_applicable":
        continue
    claims.append({"property": i, "status": n.get("status", "proved"),
                   "theorems": th.get(i, []), "note": n.get("note", "")})
json.dump({"claims": claims}, open(root + "/MANIFEST.json", "w"), indent=1)
print(len(claims), "claims", sum(map(len, th.values())), "theorems; missing:",
      " ".join(i for i in ids if i not in th))
