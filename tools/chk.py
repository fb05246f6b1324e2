import json,os,re
for l in open('/verif/properties.jsonl'):
    o=json.loads(l)
    for a in o['anchors']:
        f,_,s=a.partition(':')
        t=open('/repo/'+f,errors='replace').read() if os.path.exists('/repo/'+f) else None
        if t is None: print(o['id'],'missing',f); continue
        for y in s.split(','):
            if y and y.replace('X(','').rstrip(')') not in t: print(o['id'],'nosym',f,y)
