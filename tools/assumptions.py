"""Print, for every theorem of the manifest, what Print Assumptions lists.

Run in /verif after a build.  Writes the groups used in DESIGN.md section 5."""
import json, os, re, subprocess, tempfile
root = os.path.dirname(os.path.dirname(os.path.abspath(__file__)))
th = os.path.join(root, "rocq", "theories")
names = []
for f in sorted(os.listdir(th)):
    if re.match(r"Props_.*\.v$", f):
        for m in re.finditer(r"^Theorem (C\d\d_\w+)", open(os.path.join(th, f)).read(), re.M):
            names.append((f[:-2], m.group(1)))
src = "".join(f"From Verif Require {f}.\n" for f in sorted({f for f, _ in names}))
for f, n in names:
    src += f'Goal True. idtac "@@ {n}". exact I. Qed.\nPrint Assumptions {f}.{n}.\n'
with tempfile.TemporaryDirectory() as d:
    p = os.path.join(d, "pa.v")
    open(p, "w").write(src)
    out = subprocess.run(["coqc", "-Q", th, "Verif", "-w", "none", p], capture_output=True, text=True).stdout
groups = {}
for part in out.split("@@ ")[1:]:
    name, _, rest = part.partition("\n")
    if "Closed under the global context" in rest:
        ax = ()
    else:
        ax = tuple(sorted({re.split(r"[\s:]", l)[0].split(".")[-1] for l in rest.splitlines() if l and l[0] not in " \t" and l != "Axioms:"}))
    groups.setdefault(ax, []).append(name.strip())
for ax in sorted(groups, key=len):
    print("*", ", ".join(f"`{a}`" for a in ax) or "Closed under the global context", f"({len(groups[ax])} theorems):")
    print("  " + ", ".join(sorted(groups[ax])))
print(sum(map(len, groups.values())), "theorems")
