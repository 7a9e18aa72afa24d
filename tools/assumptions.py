#!/usr/bin/env python3
"""Groups the property theorems by what Print Assumptions lists for them and rewrites the table between the
markers <!-- assumptions --> and <!-- /assumptions --> of DESIGN.md.  Needs a finished build in rocq/.
With --new only theorems that are not in the table yet are looked up."""
import glob, os, re, subprocess, sys, tempfile
root = os.path.abspath(os.path.join(os.path.dirname(os.path.abspath(__file__)), ".."))
p = root + "/DESIGN.md"
groups = {}
if "--new" in sys.argv:
    table = re.search(r"<!-- assumptions -->\n(.*?)<!-- /assumptions -->", open(p).read(), re.S).group(1)
    for m in re.finditer(r"^\* \*\*(.*?)\*\* \(\d+ theorems\): (.*)$", table, re.M):
        groups[tuple(re.findall(r"`([^`]+)`", m.group(1)))] = m.group(2).split(", ")
known = {n for v in groups.values() for n in v}
src = ""
names = []
for f in sorted(glob.glob(root + "/rocq/theories/Props_*.v")):
    mod = os.path.basename(f)[:-2]
    found = [(m.group(1), mod) for m in re.finditer(r"^(?:Theorem|Corollary)\s+(C\d+_\w+)", open(f).read(), re.M)]
    found = [x for x in found if x[0] not in known]
    if found:
        src += "From Verif Require %s.\n" % mod
        names += found
for n, mod in names:
    src += 'Goal True. idtac "@@@ %s". Abort.\nPrint Assumptions %s.%s.\n' % (n, mod, n)
with tempfile.TemporaryDirectory() as d:
    open(d + "/q.v", "w").write(src)
    out = subprocess.run(["coqc", "-Q", root + "/rocq/theories", "Verif", d + "/q.v"], capture_output=True, text=True)
    assert out.returncode == 0, out.stderr
for part in out.stdout.split("@@@ ")[1:]:
    name, rest = part.split("\n", 1)
    ax = tuple(sorted(re.findall(r"^([A-Za-z_][\w.']*)\s*(?::|$)", rest, re.M))) if "Closed under" not in rest else ()
    ax = tuple(a for a in ax if a != "Axioms")
    groups.setdefault(ax, []).append(name)
txt = ""
for ax in sorted(groups, key=lambda a: (len(a), a)):
    txt += "* **%s** (%d theorems): %s\n\n" % (", ".join("`%s`" % a for a in ax) or "closed under the global context", len(groups[ax]), ", ".join(sorted(groups[ax])))
s = open(p).read()
s = re.sub(r"(<!-- assumptions -->\n).*?(<!-- /assumptions -->)", lambda m: m.group(1) + txt + m.group(2), s, flags=re.S)
open(p, "w").write(s)
print(sum(map(len, groups.values())), "theorems,", [(len(v), k) for k, v in groups.items()])
