"""Writes MANIFEST.json from the table below and checks that every theorem exists."""
import json,re,glob
T={}
def p(pid,status,thms,note=""): T[pid]=(status,thms.split(),note)
exec(open('/verif/tools/claims.py').read())
src=''.join(open(f).read() for f in glob.glob('/verif/rocq/theories/*.v'))
names=set(re.findall(r'^(?:Theorem|Lemma|Corollary)\s+(\w+)',src,re.M))
claims=[]
ids=[json.loads(l)['id'] for l in open('/verif/properties.jsonl')]
for i in ids:
    if i not in T: continue
    s,t,n=T[i]
    for x in t: assert x in names,(i,x)
    claims.append({"property":i,"status":s,"theorems":t,"note":n})
for i in T: assert i in ids,i
json.dump({"claims":claims},open('/verif/MANIFEST.json','w'),indent=1)
print(len(claims),'claims; without claim:',[i for i in ids if i not in T])
