#!/usr/bin/env python3
"""Mutation testing of the model.  usage: mutate.py BATCH.py   (BATCH defines M = [dict(id, file, old, new, definition, edit, claim, props=[...], chain=[...])])
In a scratch copy (/tmp/mut) the edit is applied to the model and `chain` (files depending on it, in order) is recompiled.  Every proof
that breaks is replaced by Admitted (in the scratch copy only) so that the rest can be checked, and Print Assumptions in the
*Props.v files then tells which property theorems depended on a broken proof.  One JSON line per mutant is printed."""
import sys, os, re, shutil, subprocess, json
SRC='/verif/rocq/theories'; W=os.environ.get('MUTW','/tmp/mut')
HEAD=re.compile(r'^\s*(?:#\[[^\]]*\]\s*)?(?:Local\s+|Global\s+)?(Lemma|Theorem|Corollary|Example|Remark|Fact|Definition|Fixpoint|Instance|Program)\s+([\w\']+)')
def run(f, to=400):
    p=subprocess.run(['timeout',str(to),'coqc','-w','none','-Q','.','Verif',f],cwd=W,capture_output=True,text=True)
    return p.returncode,p.stdout,p.stderr
def compile_admitting(f):
    """returns (list of broken names, stdout or None)"""
    broken=[]
    for _ in range(80):
        rc,out,err=run(f)
        if rc==0: return broken,out
        m=re.search(r'File "\./([\w]+\.v)", line (\d+)',err)
        if not m: return broken+['TIMEOUT/'+err[-80:]],None
        ln=int(m.group(2))
        L=open(f'{W}/{f}').read().split('\n')
        # enclosing head
        h=ln-1
        while h>=0 and not HEAD.match(L[h]): h-=1
        if h<0: return broken+['?'],None
        name=HEAD.match(L[h]).group(2)
        # proof start
        s=None
        for i in range(h,min(len(L),h+60)):
            if re.search(r'\bProof\b',L[i]): s=i;break
        e=None
        for i in range(ln-1,len(L)):
            if re.search(r'\bQed\.|\bDefined\.',L[i]): e=i;break
        if s is None or e is None or s>ln-1: return broken+[name+' (statement no longer typechecks)'],None
        a=L[s][:L[s].index('Proof')]
        tail=re.split(r'\b(?:Qed|Defined)\.',L[e],1)[1]
        L[s:e+1]=[a+'Admitted.'+tail]+['']*(e-s)
        broken.append(name)
        open(f'{W}/{f}','w').write('\n'.join(L))
    return broken+['...'],None
def props_result(f,out):
    T=re.findall(r'\bPrint Assumptions ([\w\']+)\.',re.sub(r'\(\*.*?\*\)','',open(f'{W}/{f}').read(),flags=re.S))
    blocks=re.split(r'(?=^Closed under the global context|^Axioms:)',out,flags=re.M)
    blocks=[b for b in blocks if b.startswith('Closed') or b.startswith('Axioms:')]
    return T,blocks
def deps():
    D={}
    for f in os.listdir(SRC):
        if f.endswith('.v'):
            t=open(f'{SRC}/{f}').read()
            D[f]={w+'.v' for g in re.findall(r'From Verif Require(?: Import| Export)?\s+([^.]*)\.',t) for w in g.split()}
    return D
def closure(D,f):
    seen=set(); st=[f]
    while st:
        x=st.pop()
        for y in D.get(x,()):
            if y not in seen: seen.add(y); st.append(y)
    return seen
def chain_of(file,targets):
    D=deps(); C={f:closure(D,f) for f in D}
    S={f for f in D if file in C[f] and any(f==t or f in C[t] for t in targets)}
    return sorted(S,key=lambda f:(len(C[f]),f))
def main():
    ns={}; exec(open(sys.argv[1]).read(),ns)
    only=set(sys.argv[2:])
    for m in ns['M']:
        if only and m.get('id') not in only: continue
        os.makedirs(W,exist_ok=True)
        subprocess.run(['rsync','-a','--delete',SRC+'/',W+'/'],check=True) if shutil.which('rsync') else (shutil.rmtree(W),shutil.copytree(SRC,W))
        p=f'{W}/{m["file"]}'; s=open(p).read()
        if s.count(m['old'])!=1: print(json.dumps(dict(id=m.get('id'),error=f'old occurs {s.count(m["old"])} times'))); continue
        open(p,'w').write(s.replace(m['old'],m['new']))
        failed=[]; lem={}
        rc,out,err=run(m['file'])
        if rc!=0: print(json.dumps(dict(id=m.get('id'),error='model does not compile: '+err[-300:]))); continue
        dead=False
        for f in (m.get('chain') or chain_of(m['file'],m['targets'])):
            b,out=compile_admitting(f)
            if b: lem[f]=b
            if out is None: dead=True; failed.append(f+': does not compile at all'); break
            if re.search(r'Props\d*\.v$', f):
                T,bl=props_result(f,out)
                for t,x in zip(T,bl):
                    if t in b or any(re.search(r'\b'+re.escape(n)+r'\b',x) for ns_ in lem.values() for n in ns_): failed.append(t)
                failed+= [n for n in b if n not in failed]
        print(json.dumps(dict(definition=m['definition'],edit=m['edit'],claim=m['claim'],failed=failed,broken_lemmas=[n for v in lem.values() for n in v][:12],tightened=m.get('tightened',[]))),flush=True)
if __name__=="__main__": main()
