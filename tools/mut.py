#!/usr/bin/env python3
"""Mutation tests.  usage: mut.py mutations.json
   each entry: {"file","def","old","new","claim","targets":[...Prop*.v]}
   Works in a scratch copy /tmp/mut/rocq; appends one JSON line per mutation to
   /verif/seeded/LOG.jsonl (theorem that stopped proving, or SURVIVED)."""
import json,re,subprocess,sys,os,shutil
muts=json.load(open(sys.argv[1])); log='/verif/seeded/LOG.jsonl'
W='/tmp/mut/rocq'
B='/tmp/mut/base'
subprocess.run(['rm','-rf',W,B]); os.makedirs('/tmp/mut',exist_ok=True); subprocess.run(['cp','-a','/verif/rocq',B]); subprocess.run(['cp','-a',B,W])
def encl(f,line):
    name='?'
    for i,l in enumerate(open(f'{W}/theories/{f}'),1):
        if i>line: break
        m=re.match(r'\s*(?:Theorem|Lemma|Corollary|Example|Definition|Fixpoint|Inductive)\s+(\w+)',l)
        if m: name=m.group(1)
    return name
for mu in muts:
    p=f"{W}/theories/{mu['file']}"; s=open(p).read()
    if s.count(mu['old'])<1: print('NOT FOUND',mu['def'],mu['old']); continue
    k=mu.get('nth',0); idx=-1
    for _ in range(k+1): idx=s.index(mu['old'],idx+1)
    open(p,'w').write(s[:idx]+mu['new']+s[idx+len(mu['old']):])
    r=subprocess.run(['timeout','400','make','-k','-j2']+[f'theories/{t}o' for t in mu['targets']],cwd=W,capture_output=True,text=True)
    out=r.stdout+r.stderr
    fails=[]
    for m in re.finditer(r'File "\./theories/(\w+\.v)", line (\d+)',out):
        if 'Error' in out[m.end():m.end()+200]: fails.append(m.group(1)+':'+encl(m.group(1),int(m.group(2))))
    # theorems of the targets that are no longer available
    lost=[]
    for t in mu['targets']:
        if f'theories/{t}o' in out and re.search(r'Error',out):
            if not os.path.exists(f'{W}/theories/{t}o') or any(x.startswith(t+':') for x in fails) or fails:
                lost.append(t)
    res='KILLED' if fails else 'SURVIVED'
    rec={"definition":mu['def'],"file":mu['file'],"edit":f"{mu['old']}  ==>  {mu['new']}","claim":mu['claim'],
         "theorems_failed":fails,"result":res,"theorems_tightened":mu.get('tightened',[])}
    if r.returncode==0: rec['result']='SURVIVED'
    elif not fails: rec['result']='BUILD-ERROR'; print(out[-800:])
    print(rec['result'],mu['def'],mu['old'],'=>',mu['new'],fails)
    if rec['result']!='BUILD-ERROR': open(log,'a').write(json.dumps(rec)+'\n')
    open(p,'w').write(s)
    # restore compiled state of everything (cheap): re-sync from original
    subprocess.run(['rm','-rf',W]); subprocess.run(['cp','-a',B,W])
