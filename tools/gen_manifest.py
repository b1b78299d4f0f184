"""Regenerate MANIFEST.json from the theorem names in rocq/theories/*Props.v.

A property is "partial" when one of its theorems is named *_refuted or *_partial.
"""
import glob, json, os, re
root = os.path.dirname(os.path.dirname(os.path.abspath(__file__)))
notes = json.load(open(os.path.join(root, "tools", "notes.json")))
ids = [json.loads(l)["id"] for l in open(os.path.join(root, "properties.jsonl"))]
thms = {i: [] for i in ids}
for f in sorted(glob.glob(os.path.join(root, "rocq", "theories", "*Props.v"))):
    for name in re.findall(r"^Theorem (C\d+_\w+)", open(f).read(), re.M):
        thms[name.split("_")[0]].append(name)
claims = []
for i in ids:
    if not thms[i]:
        if i in notes and notes[i].startswith("N/A"):
            claims.append({"property": i, "status": "not_applicable", "theorems": [], "note": notes[i]})
        continue
    partial = any(n.endswith(("_refuted", "_partial")) for n in thms[i])
    claims.append({"property": i, "status": "partial" if partial else "proved",
                   "theorems": thms[i], "note": notes.get(i, "")})
json.dump({"claims": claims}, open(os.path.join(root, "MANIFEST.json"), "w"), indent=1)
print(len(claims), "claims;", "missing:", [i for i in ids if not thms[i]])
