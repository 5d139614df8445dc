#!/usr/bin/env python3
"""Append a Print Assumptions command for every theorem of a *Props.v file that
lacks one."""
import glob, re, os
root = os.path.join(os.path.dirname(__file__), '..', 'rocq', 'theories')
for p in sorted(glob.glob(os.path.join(root, '*Props*.v'))):
    s = open(p).read()
    names = re.findall(r'^Theorem (C\d+\w*)', s, re.M)
    missing = [n for n in names if not re.search(r'^Print Assumptions %s\.' % n, s, re.M)]
    if missing:
        if 'Print Assumptions' not in s:
            s = s.rstrip('\n') + '\n\n'
        open(p, 'w').write(s + ''.join('Print Assumptions %s.\n' % n for n in missing))
        print(p, len(missing))
