"""Run Print Assumptions on every property theorem of the compiled development
(rocq/theories/*Props.v) and write the outcome to tools/assumptions.json."""
import glob, json, os, re, subprocess, tempfile
root = os.path.dirname(os.path.dirname(os.path.abspath(__file__)))
theories = os.path.join(root, "rocq", "theories")
names = []
for f in sorted(glob.glob(os.path.join(theories, "*Props.v"))):
    module = os.path.basename(f)[:-2]
    names += [(module, n) for n in re.findall(r"^Theorem (C\d+_\w+)", open(f).read(), re.M)]
out = {}
with tempfile.TemporaryDirectory() as d:
    for module in sorted({m for m, _ in names}):
        own = [n for m, n in names if m == module]
        path = os.path.join(d, "Check.v")
        with open(path, "w") as g:
            g.write(f"From Verif Require {module}.\n")
            for n in own:
                g.write(f"Print Assumptions Verif.{module}.{n}.\n")
        text = subprocess.run(["coqc", "-Q", theories, "Verif", path], capture_output=True, text=True, check=True).stdout
        parts = [p.strip() for p in re.split(r"(?=^Closed under|^Axioms:)", text, flags=re.M) if p.strip()]
        assert len(parts) == len(own), module
        for n, p in zip(own, parts):
            out[n] = {"module": module, "assumptions": p}
json.dump(out, open(os.path.join(root, "tools", "assumptions.json"), "w"), indent=0)
print(len(out), "theorems;", sum(v["assumptions"].startswith("Closed") for v in out.values()), "closed under the global context")
