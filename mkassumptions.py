#!/usr/bin/env python3
"""Writes rocq/theories/Assumptions.v: the axioms of all the theorems in the property files, file by file.
With the argument "table", prints a Coq file that lists them theorem by theorem."""
import re, glob, os, sys
here = os.path.dirname(os.path.abspath(__file__))
files = []
for f in sorted(glob.glob(here + '/rocq/theories/Prop*.v')):
    files.append((os.path.basename(f)[:-2], re.findall(r'^Theorem (C\d\d+\w*)', open(f).read(), re.M)))
head = "From Verif Require %s.\n" % ' '.join(m for m, _ in files)
if sys.argv[1:] == ['table']:
    print(head + '\n'.join('Check (1%%nat). (* %s *)\nPrint Assumptions %s.%s.' % (t, m, t) for m, ts in files for t in ts))
else:
    out = "(** Generated by mkassumptions.py: all the theorems, and the axioms they depend on. *)\n" + head
    for m, ts in files:
        out += "Definition all_%s := (%s).\nPrint Assumptions all_%s.\n" % (m, ',\n  '.join('@%s.%s' % (m, t) for t in ts), m)
    open(here + '/rocq/theories/Assumptions.v', 'w').write(out)
