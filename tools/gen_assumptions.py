#!/usr/bin/env python3
# Prints the table of section 5 of DESIGN.md: what Print Assumptions lists for each property theorem
# (needs a compiled tree; run from anywhere).
import re,glob,os,subprocess,tempfile
root=os.path.join(os.path.dirname(os.path.abspath(__file__)),'..')
out={}
for f in sorted(glob.glob(root+'/rocq/theories/Prop*.v')):
    names=re.findall(r'^Theorem (C\d\d+_\w+)',open(f).read(),re.M)
    if not names: continue
    mod=os.path.basename(f)[:-2]
    d=tempfile.mkdtemp()
    src='From Verif Require Import %s.\n'%mod+''.join('Goal True. idtac "@@ %s". Abort.\nPrint Assumptions %s.\n'%(n,n) for n in names)
    open(d+'/t.v','w').write(src)
    r=subprocess.run(['coqc','-Q',root+'/rocq/theories','Verif',d+'/t.v'],capture_output=True,text=True)
    if r.returncode: print(mod,r.stderr)
    for part in r.stdout.split('@@ ')[1:]:
        n,_,rest=part.partition('\n')
        ax=sorted(set(re.findall(r'^([\w.\']+)\s*:',rest,re.M))|set(re.findall(r'^([\w.\']+)$',rest,re.M)))
        ax=[a for a in ax if a not in('Axioms',)]
        out.setdefault(tuple(ax),[]).append(n.strip())
for ax in sorted(out,key=lambda a:(len(a),a)):
    print('* '+(', '.join('`%s`'%a for a in ax) if ax else '**closed under the global context** (no axiom)')+' —\n  '+', '.join(sorted(out[ax])))
