import json,re,glob,collections
props=[json.loads(l) for l in open('/verif/properties.jsonl')]
notes=json.load(open('/verif/tools/notes.json'))
th=collections.defaultdict(list)
for f in sorted(glob.glob('/verif/rocq/theories/Props_*.v')):
    for m in re.finditer(r'^Theorem (C\d\d\w*)',open(f).read(),re.M):
        th[m.group(1).split('_')[0]].append(m.group(1))
claims=[]
for p in props:
    i=p['id']; n=notes.get(i,{})
    if not th[i]:
        claims.append({"property":i,"status":n.get("status","partial") if n.get("status")=="not_applicable" else "partial","theorems":[],"note":n.get("note","Not proved yet.")})
    else:
        st=n.get("status","proved")
        claims.append({"property":i,"status":st,"theorems":th[i],"note":n.get("note","")})
json.dump({"claims":claims},open('/verif/MANIFEST.json','w'),indent=1)
print(collections.Counter(c['status'] for c in claims), [c['property'] for c in claims if not c['theorems']])
