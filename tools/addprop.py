"""Helper: insert property definitions (read from stdin) before the output line of mkprops.py."""
import sys, os
p = os.path.join(os.path.dirname(os.path.abspath(__file__)), "mkprops.py")
s = open(p).read()
i = s.index("\nout = os.path")
open(p, "w").write(s[:i] + sys.stdin.read() + s[i:])
