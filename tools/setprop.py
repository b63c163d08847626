#!/usr/bin/env python3
"""Replace fields of one entry of properties.jsonl: setprop.py ID field=value ..."""
import json, sys
path = __file__.rsplit('/', 2)[0] + '/properties.jsonl'
rows = [json.loads(l) for l in open(path)]
for r in rows:
    if r['id'] == sys.argv[1]:
        for kv in sys.argv[2:]:
            k, v = kv.split('=', 1)
            r[k] = v
        break
else:
    sys.exit('no such id')
open(path, 'w').write(''.join(json.dumps(r, ensure_ascii=False) + '\n' for r in rows))
