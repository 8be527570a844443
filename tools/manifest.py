"""Regenerate MANIFEST.json from the theorem names in rocq/theories/Properties*.v."""
import json, re, glob, os
root = os.path.dirname(os.path.dirname(os.path.abspath(__file__)))
notes = json.load(open(os.path.join(root, "tools", "notes.json")))
thms = {}
for f in sorted(glob.glob(os.path.join(root, "rocq/theories/Properties*.v"))):
    for m in re.finditer(r"^Theorem\s+((C\d+)_\w+)", open(f).read(), re.M):
        thms.setdefault(m.group(2), []).append(m.group(1))
claims = []
for pid in sorted(set(thms) | set(notes), key=lambda p: int(p[1:])):
    n = notes.get(pid, {})
    names = thms.get(pid, [])
    default = "partial" if any(x.endswith(("_partial", "_refuted")) for x in names) else "proved"
    claims.append({"property": pid, "status": n.get("status", default),
                   "theorems": names, "note": n.get("note", "")})
json.dump({"claims": claims}, open(os.path.join(root, "MANIFEST.json"), "w"), indent=1)
print(len(claims), "claims")
