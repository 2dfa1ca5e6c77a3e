#!/usr/bin/env python3
"""upsert claims into MANIFEST.json: stdin is a JSON list of claims"""
import json,sys
p='/verif/MANIFEST.json'
m=json.load(open(p))
d={c['property']:c for c in m['claims']}
for c in json.load(sys.stdin): d[c['property']]=c
m['claims']=[d[k] for k in sorted(d)]
json.dump(m,open(p,'w'),indent=1); open(p,'a').write('\n')
