"""Rewrite the generated part of DESIGN.md (everything after the marker)."""
import json, os
root = os.path.dirname(os.path.dirname(os.path.abspath(__file__)))
path = os.path.join(root, "DESIGN.md")
marker = "<!-- generated -->"
head = open(path).read().split(marker)[0].rstrip() + "\n\n" + marker + "\n"
props = {}
for l in open(os.path.join(root, "properties.jsonl")):
    p = json.loads(l)
    props[p["id"]] = p
claims = json.load(open(os.path.join(root, "MANIFEST.json")))["claims"]
ass = json.load(open(os.path.join(root, "tools", "assumptions.json")))
def state(c):
    if any(n.endswith("_refuted") for n in c["theorems"]):
        return "refuted"
    return c["status"]
def cell(s):
    return s.replace("|", "\\|").replace("\n", " ")
out = [head, "\n## Properties\n", "| id | property | status | note |", "|----|----------|--------|------|"]
for c in claims:
    out.append(f"| {c['property']} | {cell(props[c['property']]['title'])} | {state(c)} | {cell(c['note'])} |")
out += ["\n## Theorems and assumptions\n", "| theorem | file | Print Assumptions |", "|---------|------|-------------------|"]
for c in claims:
    for n in c["theorems"]:
        a = ass.get(n, {"module": "?", "assumptions": "?"})
        out.append(f"| {n} | {a['module']}.v | {cell(a['assumptions'])} |")
open(path, "w").write("\n".join(out) + "\n")
