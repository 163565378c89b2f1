import json, re, os, sys
sys.path.insert(0, os.path.dirname(__file__))
from props import P
from status import NOTE, STATUS
import glob
V = os.path.dirname(os.path.dirname(os.path.abspath(__file__)))
with open(V + "/properties.jsonl", "w") as f:
    for q in P:
        f.write(json.dumps({k: q[k] for k in ("id", "title", "statement", "quantifier", "why_tests_cant", "anchors")}) + "\n")
thms = {}
for fn in sorted(glob.glob(V + "/rocq/theories/Props*.v")):
    for m in re.finditer(r"^Theorem (C\d\d+)(_\w+)", open(fn).read(), re.M):
        thms.setdefault(m.group(1), []).append(m.group(1) + m.group(2))
claims = []
for q in P:
    i = q["id"]
    th = thms.get(i, [])
    part = not th or any(t.endswith("_partial") for t in th)
    st = STATUS.get(i, "partial" if part else "proved")
    note = NOTE.get(i, "" if th else "not proved yet")
    claims.append(dict(property=q["id"], status=st, theorems=th, note=note))
json.dump({"claims": claims}, open(V + "/MANIFEST.json", "w"), indent=1)
d = open(V + "/DESIGN.md").read()
tab = "\n".join("- **%s** %s. *Plan:* %s" % (q["id"], q["title"], q["design"]) for q in P)
b, e = "<!-- BEGIN TABLE -->", "<!-- END TABLE -->"
i, j = d.index(b) + len(b), d.index(e)
open(V + "/DESIGN.md", "w").write(d[:i] + "\n" + tab + "\n" + d[j:])
