# Runs Print Assumptions for every theorem of MANIFEST.json and writes ASSUMPTIONS.md.
import json,re,glob,subprocess,os
man=json.load(open('/verif/MANIFEST.json'))
where={}
for f in sorted(glob.glob('/verif/rocq/theories/*.v')):
    for m in re.finditer(r'^\s*(?:Theorem|Lemma|Corollary)\s+(C\d\d_\w+)',open(f).read(),re.M):
        where[m.group(1)]=os.path.basename(f)[:-2]
byf={}
for c in man['claims']:
    for t in c['theorems']: byf.setdefault(where[t],[]).append((c['property'],t))
res={}
for f,ts in sorted(byf.items()):
    src='Require Verif.%s.\n'%f
    for _,t in ts: src+='Goal True. idtac "@@%s". Abort.\nPrint Assumptions Verif.%s.%s.\n'%(t,f,t)
    d='/tmp/assum'; os.makedirs(d,exist_ok=True)
    open(d+'/a.v','w').write(src)
    o=subprocess.run(['coqc','-Q','/verif/rocq/theories','Verif',d+'/a.v'],capture_output=True,text=True)
    if o.returncode: print(f,o.stderr[-500:])
    for ch in o.stdout.split('@@')[1:]:
        n,rest=ch.split('\n',1)
        if 'Closed under the global context' in rest: res[n]=[]
        else: res[n]=sorted(set(re.findall(r'^([A-Za-z_][\w.]*)\s*(?=:|\n\s+:)',rest,re.M))-{'Axioms'})
with open('/verif/ASSUMPTIONS.md','w') as w:
    w.write('# What `Print Assumptions` lists for each theorem\n\nGenerated by tools/assumptions.py. "closed" means: closed under the global context (no axiom at all).\n\n| property | theorem | file | axioms |\n|---|---|---|---|\n')
    for c in man['claims']:
        for t in c['theorems']:
            w.write('| %s | %s | %s.v | %s |\n'%(c['property'],t,where[t],', '.join('`%s`'%a for a in res[t]) if res[t] else 'closed'))
alla=sorted({a for v in res.values() for a in v}); print(alla, len(res))
