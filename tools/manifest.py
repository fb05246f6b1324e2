import json,re,glob,sys
exec(open('/verif/tools/status.py').read())   # STATUS: id -> (status, note)
th={}
for f in sorted(glob.glob('/verif/rocq/theories/*.v')):
    t=open(f).read()
    for m in re.finditer(r'^\s*(?:Theorem|Lemma|Corollary|Example)\s+(C(\d\d)_\w+)',t,re.M):
        if re.match(r'^\s*Example',m.group(0)): continue
        th.setdefault('C'+m.group(2),[]).append(m.group(1))
props=[json.loads(l)['id'] for l in open('/verif/properties.jsonl')]
claims=[]
for p in props:
    if p in th:
        st,note=STATUS.get(p,('proved',''))
        claims.append(dict(property=p,status=st,theorems=th[p],note=note))
    elif p in STATUS and STATUS[p][0]=='not_applicable':
        claims.append(dict(property=p,status='not_applicable',theorems=[],note=STATUS[p][1]))
    else: print('no theorem yet:',p)
json.dump({"claims":claims},open('/verif/MANIFEST.json','w'),indent=1)
print(len(claims),'claims')
