import re,glob,os
cov={}
files={os.path.basename(f):f for f in glob.glob('/repo/source/*.cc')+glob.glob('/repo/include/*.h')}
for f in glob.glob('/verif/rocq/theories/*.v'):
    s=open(f).read()
    # find file names then subsequent numbers within comments
    for c in re.findall(r'\(\*.*?\*\)',s,re.S):
        pos=[(m.start(),m.group(0).split('/')[-1]) for m in re.finditer(r'[\w/]+\.(?:cc|h)\b',c)]
        cur=None
        for m in re.finditer(r'([\w/]+\.(?:cc|h))\b|(\d+)(?:\s*[-–]\s*(\d+))?',c):
            if m.group(1): cur=m.group(1).split('/')[-1]
            elif cur in files:
                a=int(m.group(2)); b=int(m.group(3) or a)
                if b-a<700 and a>0:
                    cov.setdefault(cur,set()).update(range(a,b+1))
    # default file for comments w/o names
for b,f in sorted(files.items()):
    n=len(open(f,errors='replace').read().split('\n'))
    c=cov.get(b,set())
    gaps=[];i=1
    while i<=n:
        if i not in c:
            j=i
            while j+1<=n and (j+1) not in c: j+=1
            if j-i>12: gaps.append((i,j))
            i=j+1
        else: i+=1
    if b=='ass_leg_function.cc': gaps=gaps[:3]
    print(b,n,len(c),gaps)
