"""Check that every file:lines citation in the model names lines of code that exist in /repo/core."""
import re,glob,os,sys
root='/repo/core'
files={}
for d,_,fs in os.walk(root):
    for f in fs:
        if f.endswith(('.hpp','.cpp','.h')): files.setdefault(f,[]).append(os.path.join(d,f))
pat=re.compile(r'([\w/\.]*?([\w]+\.(?:hpp|cpp))):\s*((?:\d+(?:-\d+)?(?:,\s*| and )?)+)')
bad=0;tot=0
for v in sorted(glob.glob('/verif/rocq/theories/*.v')):
    for ln,line in enumerate(open(v),1):
        for m in pat.finditer(line):
            c=files.get(m.group(2))
            if not c: print(v,ln,'NOFILE',m.group(1)); bad+=1; continue
            c2=[p for p in c if p.endswith(m.group(1))] or c
            for r in re.findall(r'\d+(?:-\d+)?',m.group(3)):
                a,_,b=r.partition('-'); a=int(a); b=int(b or a); tot+=1
                ok=False; content=False
                for p in c2:
                    L=open(p,errors='replace').read().split('\n')
                    if a<=b<=len(L):
                        ok=True
                        # some line in the range must be code, not blank/comment only
                        incom=False
                        for t in L[a-1:b]:
                            s=t.strip()
                            if s and not s.startswith(('//','*','\\','/*')) : content=True
                if not ok: print(os.path.basename(v),ln,'RANGE',m.group(1),r); bad+=1
                elif not content: print(os.path.basename(v),ln,'NOCODE',m.group(1),r); bad+=1
print(tot,'ranges',bad,'bad')
