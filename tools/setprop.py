#!/usr/bin/env python3
"""setprop.py ID FIELD TEXT: change one field of a property in properties.jsonl."""
import json, os, sys
root = os.path.dirname(os.path.dirname(os.path.abspath(__file__)))
p = os.path.join(root, 'properties.jsonl')
rows = [json.loads(l) for l in open(p)]
for r in rows:
    if r['id'] == sys.argv[1]:
        r[sys.argv[2]] = sys.argv[3]
open(p, 'w').write(''.join(json.dumps(r) + '\n' for r in rows))
