"""Print the assumptions of every theorem listed in MANIFEST.json.

Run after the build, from anywhere: python3 tools/assumptions.py
"""
import collections, json, os, re, subprocess, sys, tempfile
root = os.path.join(os.path.dirname(os.path.abspath(__file__)), "..")
names = [t for c in json.load(open(f"{root}/MANIFEST.json"))["claims"] for t in c["theorems"]]
mods = [re.sub(r".*/(.*)\.v\n?", r"\1", l) for l in open(f"{root}/rocq/_CoqProject") if "Properties_" in l]
with tempfile.TemporaryDirectory() as d:
    path = f"{d}/Assum.v"
    with open(path, "w") as f:
        f.write("From Verif Require %s.\n" % " ".join(mods))
        loc = {}
        for m in mods:
            for t in re.findall(r"^(?:Theorem|Lemma|Corollary) (C\d\d_\w+)", open(f"{root}/rocq/theories/{m}.v").read(), re.M):
                loc[t] = m
        for t in names:
            f.write(f'Goal True. idtac "@@ {t}". Abort.\nPrint Assumptions {loc[t]}.{t}.\n')
    out = subprocess.run(["coqc", "-w", "none", "-Q", f"{root}/rocq/theories", "Verif", path], capture_output=True, text=True)
    if out.returncode: sys.exit(out.stderr)
res = {}
for part in re.split(r"^@@ ", out.stdout, flags=re.M)[1:]:
    t, body = part.split("\n", 1)
    res[t] = tuple(sorted(set(re.findall(r"^([A-Za-z_][\w.]*) *:", body, re.M))))
count = collections.Counter(res.values())
for k, v in count.items():
    print(v, "theorems:", ", ".join(k) if k else "closed under the global context")
    if k: print("   ", " ".join(t for t in res if res[t] == k))
