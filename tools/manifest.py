# Source of MANIFEST.json: run `python3 tools/manifest.py`.
# Theorem names are collected from the Properties_*.v files by their Cxx_ prefix;
# statuses and notes are given here.
import json, re, glob, os
ST = {}
exec(open(os.path.join(os.path.dirname(__file__), "status.py")).read())
names = {}
root = os.path.join(os.path.dirname(__file__), "..")
for f in sorted(glob.glob(os.path.join(root, "rocq/theories/Properties_*.v"))):
    for m in re.finditer(r"^(?:Theorem|Lemma|Corollary)\s+((C\d+)_\w+)", open(f).read(), re.M):
        names.setdefault(m.group(2), []).append(m.group(1))
ids = [json.loads(l)["id"] for l in open(os.path.join(root, "properties.jsonl"))]
claims = []
for i in ids:
    st, note = ST.get(i, (None, ""))
    th = names.get(i, [])
    if st is None:
        st = "partial"
        note = "not proved yet; planned" if not th else "in progress"
    if not th and st != "not_applicable": st = "partial"
    claims.append({"property": i, "status": st, "theorems": th, "note": note})
json.dump({"claims": claims}, open(os.path.join(root, "MANIFEST.json"), "w"), indent=1)
print({s: sum(c["status"] == s for c in claims) for s in ("proved", "partial", "not_applicable")})
