#!/usr/bin/env python3
"""Writes into DESIGN.md what Print Assumptions lists for each property theorem
(needs the compiled .vo files in rocq/)."""
import glob,re,subprocess,os
R='/verif/rocq'; rows=[]
for f in sorted(glob.glob(R+'/theories/Properties*.v')):
    s=open(f).read(); b=os.path.basename(f)[:-2]
    names=re.findall(r'^Print Assumptions (\w+)\.',s,re.M)
    t='From Verif Require Import %s.\n'%b+''.join('Print Assumptions %s.\n'%n for n in names)
    open('/tmp/pa.v','w').write(t)
    o=subprocess.run('coqc -Q theories Verif /tmp/pa.v',shell=True,cwd=R,stdout=subprocess.PIPE,stderr=subprocess.STDOUT,text=True).stdout
    blocks=re.split(r'^(?=Axioms:|Closed under the global context)',o,flags=re.M)[1:]
    assert len(blocks)==len(names),(f,len(blocks),len(names),o[:500])
    for n,k in zip(names,blocks):
        ax=[] if k.startswith('Closed') else re.findall(r'^([\w.]+)(?=\s*:|$)',k[len('Axioms:'):],re.M)
        rows.append((n,b,ax))
SHORT={'ClassicalDedekindReals.sig_not_dec':'N','ClassicalDedekindReals.sig_forall_dec':'D','FunctionalExtensionality.functional_extensionality_dep':'F','Classical_Prop.classic':'C'}
allax=sorted({a for _,_,x in rows for a in x}); assert all(a in SHORT for a in allax),allax
G={}
for n,b,x in rows: G.setdefault(' '.join(sorted(SHORT[a] for a in x)),[]).append(n)
t=''
for k in sorted(G,key=lambda k:(len(k),k)):
    t+='* %s: %s.\n'%(('axioms '+', '.join(k.split())) if k else 'no axioms (closed under the global context)',', '.join('`%s`'%n for n in sorted(G[k])))
p='/verif/DESIGN.md'; s=open(p).read()
B,E='<!-- assumptions -->\n','<!-- end assumptions -->'
i=s.index(B)+len(B); s=s[:i]+t+s[s.index(E):]
open(p,'w').write(s)
print(len(rows),allax)
