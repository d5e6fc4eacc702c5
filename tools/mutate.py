#!/usr/bin/env python3
"""Tests the theorems against wrong programs.

For each edit below: copy rocq/ to a scratch directory, apply the edit to one model
definition, and rebuild.  Every lemma whose proof no longer checks is replaced, in the
scratch copy only, by Admitted, and the build goes on.  The property theorems whose
Print Assumptions then lists such a lemma (or which fail themselves) are the ones that
noticed the edit.  One JSON line per attempt is added to seeded/LOG.jsonl.

usage: mutate.py FILE_WITH_EDITS.json [-jN]"""
import json,os,re,shutil,subprocess,sys
W=os.environ.get('MUT_WORK','/tmp/mut/work'); SRC=os.environ.get('MUT_SRC','/verif/rocq')
J=next((a for a in sys.argv[2:] if a.startswith('-j')),'-j3')
HEAD=re.compile(r'^\s*(?:Local\s+|Global\s+)?(Lemma|Theorem|Corollary|Example|Fact|Remark|Definition|Fixpoint|Instance|Let)\s+([\w\']+)',re.M)
DEF=re.compile(r'^\s*(?:Local\s+|Global\s+)?(?:Definition|Fixpoint|Let|Lemma|Theorem|Inductive|Record|with|Notation)\s+([\w\']+)',re.M)
def sh(c,t=4000):
    return subprocess.run(c,shell=True,cwd=W,stdout=subprocess.PIPE,stderr=subprocess.STDOUT,text=True,timeout=t).stdout
def admit(f,line):
    p=os.path.join(W,f); s=open(p).read(); ls=s.splitlines(keepends=True)
    pos=sum(map(len,ls[:line-1]))
    heads=[m for m in HEAD.finditer(s) if m.start()<=pos+len(ls[line-1])-1]
    # the last head on or before the error line whose Proof..Qed contains it
    for m in reversed(heads):
        e=re.compile(r'\b(Qed|Defined)\.').search(s,m.end())
        pr=re.compile(r'\bProof\b').search(s,m.end())
        if not e or not pr or pr.start()>e.start(): return None,'%s (no proof)'%m.group(2)
        if e.end()<pos: continue
        if pos+len(ls[line-1])<pr.start(): return None,'%s (statement)'%m.group(2)
        if e.group(1)=='Defined': return None,'%s (Defined)'%m.group(2)
        s=s[:pr.start()]+'Admitted.'+s[e.end():]
        open(p,'w').write(s); return m.group(2),None
    return None,'?'
def run(mut):
    if os.path.isdir(W): shutil.rmtree(W)
    shutil.copytree(SRC,W)          # with the .vo files: only what depends on the edit is rebuilt
    p=os.path.join(W,'theories',mut['file']); s=open(p).read()
    assert s.count(mut['old'])>=1,('not found',mut['old'])
    n=mut.get('nth',0); i=-1
    for _ in range(n+1): i=s.index(mut['old'],i+1)
    heads=[m.group(1) for m in DEF.finditer(s) if m.start()<=i]
    assert heads and heads[-1]==mut['def'],('in another definition',heads[-1:],mut['def'])
    s=s[:i]+mut['new']+s[i+len(mut['old']):]
    open(p,'w').write(s)
    bad=[]; stuck=None; logs={}
    for it in range(120):
        out=sh('make -k %s 2>&1'%J)
        errs=re.findall(r'File "\./(theories/\w+\.v)", line (\d+), characters[^\n]*\nError',out)
        if not errs: break
        prog=False
        for f,l in dict(errs).items():
            n,why=admit(f,int(l))
            if n: bad.append('%s.%s'%(os.path.basename(f)[:-2],n)); prog=True
            else: stuck='%s:%s %s'%(f,l,why)
        if not prog: break
    names={b.split('.')[1] for b in bad}
    props=sorted({b.split('.')[1] for b in bad if b.startswith('Properties')})
    if stuck is None:
        for f in sorted(os.listdir(W+'/theories')):
            if f.startswith('Properties') and f.endswith('.v'):
                vo='/theories/'+f+'o'        # not rebuilt: does not depend on the edit
                if os.path.exists(SRC+vo) and os.path.exists(W+vo) and os.path.getmtime(SRC+vo)==os.path.getmtime(W+vo): continue
                o=sh('coqc -Q theories Verif theories/%s 2>&1'%f)
                src=open(W+'/theories/'+f).read()
                pa=re.findall(r'^Print Assumptions (\w+)\.',src,re.M)
                blocks=re.split(r'^(?:Axioms:|Closed under the global context)\n?',o,flags=re.M)[1:]
                for nme,b in zip(pa,blocks):
                    used=set(re.findall(r'^([\w.\']+)(?= *:|$)',b,re.M))
                    if any(u.split('.')[-1] in names for u in used): props.append(nme)
    return bad,sorted(set(props)),stuck
if __name__=='__main__':
    for mut in json.load(open(sys.argv[1])):
        bad,props,stuck=run(mut)
        rec=dict(definition=mut['file'][:-2]+'.'+mut['def'],edit='%s  ->  %s'%(mut['old'].strip(),mut['new'].strip()),
          breaks=mut['breaks'],theorems_failed=props,first_lemmas_failed=bad[:8],n_lemmas_failed=len(bad),tightened=mut.get('tightened',[]))
        if stuck: rec['stopped_at']=stuck
        rec['caught']=any(p.split('_')[0]==re.match(r'C\d+',mut['breaks']).group() for p in props)
        open('/verif/seeded/LOG.jsonl','a').write(json.dumps(rec)+'\n')
        print(json.dumps(rec)[:700],flush=True)
