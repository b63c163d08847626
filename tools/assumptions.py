#!/usr/bin/env python3
"""Make every Prop*.v end with one Print Assumptions per theorem."""
import glob, os, re
root = os.path.dirname(os.path.dirname(os.path.abspath(__file__)))
for f in sorted(glob.glob(os.path.join(root, "rocq/theories/Prop*.v"))):
    s = open(f).read()
    body = re.sub(r"^Print Assumptions .*\n", "", s, flags=re.M).rstrip("\n") + "\n\n"
    new = body + "".join("Print Assumptions %s.\n" % t for t in re.findall(r"^Theorem\s+(C\d\d\w*)", body, re.M))
    if new != s:
        open(f, "w").write(new)
        print("updated", os.path.basename(f))
