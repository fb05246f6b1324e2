"""print function line ranges of a C file in /repo: python3 fnr.py dft/direct.c"""
import sys,re
for fn in sys.argv[1:]:
    L=open('/repo/'+fn,errors='replace').read().split('\n')
    start=None; out=[]
    for i,l in enumerate(L,1):
        if l.startswith('{'):
            # find header start
            j=i-1
            while j>1 and L[j-2].strip() and not L[j-2].startswith('}') and not L[j-2].startswith('#') and not L[j-2].strip().endswith('*/') and not L[j-2].strip().endswith(';'): j-=1
            h=' '.join(L[j-1:i-1])
            m=re.search(r'((?:X|XM|XGURU|IFFTW)?\(?\w+\)?)\s*\(',h); start=j; nm=re.sub(r'\(.*','',h.replace('X(','X[').replace('XM(','XM['))
        if l.startswith('}') and start: out.append(f"{nm.strip()} {start}-{i}"); start=None
    print(fn,len(L)-1); 
    for o in out: print('   ',o)
