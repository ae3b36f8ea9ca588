#!/usr/bin/env python3
"""Append properties (a JSON list on stdin) to properties.jsonl, replacing those with the same id."""
import json,sys
new=json.load(sys.stdin); p='/verif/properties.jsonl'
L=[json.loads(l) for l in open(p)]
for n in new:
    assert set(n)=={'id','title','statement','quantifier','why_tests_cant','anchors'},n
    L=[x for x in L if x['id']!=n['id']]+[n]
L.sort(key=lambda x:int(x['id'][1:]))
open(p,'w').write(''.join(json.dumps(x)+'\n' for x in L))
