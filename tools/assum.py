# move Print Assumptions to AssumptionsN.v
import glob,re,os
T='/verif/rocq/theories/'
for f in glob.glob(T+'Assumptions*.v'): os.remove(f)
allth=[]
for f in sorted(glob.glob(T+'Prop*.v')):
    s=open(f).read(); s2=re.sub(r'^Print Assumptions .*\n','',s,flags=re.M).rstrip()+'\n'
    if s2!=s: open(f,'w').write(s2)
    mod=os.path.basename(f)[:-2]
    for m in re.finditer(r'^\s*Theorem (C\d\d_\w+)',s2,re.M): allth.append((mod,m.group(1)))
N=4
for k in range(N):
    part=allth[k::N]
    mods=sorted(set(m for m,_ in part))
    open(T+'Assumptions%d.v'%k,'w').write("(** What each property theorem rests on (generated list; see DESIGN.md). *)\nFrom Verif Require Import %s.\n"%' '.join(mods)+''.join('Print Assumptions %s.\n'%t for _,t in part))
print(len(allth))
