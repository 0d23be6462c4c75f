"""Refresh the list of assumptions in DESIGN.md (run after a build)."""
import os, subprocess, textwrap
root = os.path.dirname(os.path.dirname(os.path.abspath(__file__)))
out = subprocess.run(["python3", os.path.join(root, "tools", "assumptions.py")], capture_output=True, text=True).stdout
res = ""
for line in out.splitlines()[:-1]:
    if line.startswith("  "):
        line = textwrap.fill(line.strip(), 120, initial_indent="  ", subsequent_indent="  ", break_long_words=False)
    res += line + "\n"
p = os.path.join(root, "DESIGN.md")
d = open(p).read()
i = d.index("<!-- assumptions -->"); j = d.index("<!-- end -->")
open(p, "w").write(d[:i] + "<!-- assumptions -->\n" + res + d[j:])
print(out.splitlines()[-1])
