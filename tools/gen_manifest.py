#!/usr/bin/env python3
"""Regenerate MANIFEST.json from the Props*.v files: theorem names start with the property id."""
import json, re, glob, os
root = os.path.dirname(os.path.dirname(os.path.abspath(__file__)))
ids = [json.loads(l)["id"] for l in open(root + "/properties.jsonl")]
thms = {}
for f in sorted(glob.glob(root + "/rocq/theories/Props*.v")):
    for name in re.findall(r"^Theorem (\w+)", open(f).read(), re.M):
        thms.setdefault(name.split("_")[0], []).append(name)
notes = json.load(open(root + "/tools/notes.json"))
claims = []
for i in ids:
    if i not in thms:
        continue
    names = thms[i]
    n = notes.get(i, {})
    status = n.get("status", "partial" if any(x.endswith("_partial") for x in names) else "proved")
    claims.append({"property": i, "status": status, "theorems": names, "note": n.get("note", "")})
json.dump({"claims": claims}, open(root + "/MANIFEST.json", "w"), indent=1)
print(len(claims), "claims;", "missing:", [i for i in ids if i not in thms])
