"""Edit properties.jsonl: python3 tools/props_patch.py  (patches below are applied by id)."""
import json,sys
P='/verif/properties.jsonl'
rows=[json.loads(l) for l in open(P)]
patch=json.load(open(sys.argv[1]))
byid={r['id']:r for r in rows}
for k,v in patch.items():
    if k in byid: byid[k].update(v)
    else:
        v['id']=k; rows.append(v)
with open(P,'w') as f:
    for r in rows: f.write(json.dumps(r)+'\n')
