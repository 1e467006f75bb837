#!/usr/bin/env python3
"""Check that the strings of rocq/theories/SrcText.v are the text of the
files and lines of /repo that their comments cite."""
import re, sys, os
here = os.path.dirname(os.path.abspath(__file__))
s = open(os.path.join(here, '../rocq/theories/SrcText.v')).read()
bad = 0
for f, a, b, t in re.findall(r'\(\*\* (src/\S+) lines (\d+)-(\d+) \*\)\nDefinition \w+ : string := "\n((?:[^"]|"")*)"\.', s):
    want = open('/repo/' + f).read().split('\n')[int(a) - 1:int(b)]
    ok = t.replace('""', '"').rstrip('\n') == '\n'.join(want)
    bad += not ok
    print(f, a, b, 'same' if ok else 'DIFFERENT')
sys.exit(bad)
