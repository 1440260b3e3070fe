#!/usr/bin/env python3
"""Mutation testing of the theorems, in a scratch copy outside /verif.
usage: mutate.py MUTANTS.py   where MUTANTS.py defines M = [(file, old, new, claim, tightened), ...]
For each mutant: edit the model, rebuild; each lemma whose proof breaks is admitted in the scratch copy
and the build continues; the theorems whose Print Assumptions then lists an admitted lemma (or which
broke themselves) are the ones that failed. One line per mutant goes to seeded/LOG.jsonl."""
import sys,os,re,json,shutil,subprocess
here=os.path.dirname(os.path.dirname(os.path.abspath(__file__)))
W=os.environ.get('MUTDIR','/tmp/mut')
def sh(cmd,cwd,t=1500):
    p=subprocess.run(cmd,shell=True,cwd=cwd,stdout=subprocess.PIPE,stderr=subprocess.STDOUT,text=True,timeout=t); return p.returncode,p.stdout
KW=r'^\s*(?:Local\s+|Global\s+)?(Theorem|Lemma|Corollary|Example|Remark|Fact)\s+([A-Za-z0-9_\']+)'
def admit(path,line):
    L=open(path).read().split('\n')
    i=line-1
    while i>=0 and not re.match(KW,L[i]): i-=1
    if i<0: return None
    m=re.match(KW,L[i]); name=m.group(2)
    j=i
    while not re.search(r'\b(Qed|Defined|Admitted)\.\s*$',L[j]): j+=1
    if j<line-1: return None      # error outside a proof
    k=i
    while not re.search(r'\bProof\b',L[k]) and k<j: k+=1
    head='\n'.join(L[i:k+1]); mp=re.search(r'\bProof\b',head); head=head[:mp.start()] if mp else head
    L[i:j+1]=[head.rstrip()+' Admitted.']+['']*(j-i-(head.rstrip().count('\n')))
    open(path,'w').write('\n'.join(L))
    return name
def run(mut):
    f,old,new,claim,tight=mut
    if not os.path.isdir(W+'/rocq'):
        os.makedirs(W,exist_ok=True); shutil.copytree(here+'/rocq',W+'/rocq')
        sh('coq_makefile -f _CoqProject -o Makefile',W+'/rocq')
    shutil.copy(here+'/rocq/_CoqProject',W+'/rocq/_CoqProject')
    listed=[os.path.basename(x) for x in open(here+'/rocq/_CoqProject').read().split() if x.endswith('.v')]
    for v in listed:
        a,b=here+'/rocq/theories/'+v,W+'/rocq/theories/'+v
        if not os.path.exists(b) or open(a).read()!=open(b).read(): shutil.copy(a,b)
    sh('coq_makefile -f _CoqProject -o Makefile; make -j4',W+'/rocq',3000)
    p=W+'/rocq/theories/'+f
    s=open(p).read()
    assert s.count(old)>=1,(f,old)
    s2=s.replace(old,new,1); open(p,'w').write(s2)
    pos=s.index(old)
    d=re.findall(r'^\s*(?:Definition|Fixpoint|Inductive|Record)\s+([A-Za-z0-9_\']+)',s[:pos+len(old)] if re.match(r'\s*(Definition|Fixpoint)',old) else s[:pos],re.M)
    broke=[];outs='';fatal=None
    for it in range(60):
        rc,out=sh('ulimit -v 7000000; ulimit -t 900; make -j4 2>&1',W+'/rocq',3000)
        outs+=out
        if rc==0: break
        errs=re.findall(r'File "\./theories/([^"]+)", line (\d+), characters [^\n]*\nError',out)
        done=False; seen=set()
        for ef,el in errs:
            if ef in seen: continue
            seen.add(ef)
            n=admit(W+'/rocq/theories/'+ef,int(el))
            if n: broke.append(n); done=True
        if not done:
            # a computation that runs out of memory or time: find the sentence
            for ef in re.findall(r'\*\*\* \[[^\]]*theories/(\w+)\.vo',out):
                _,o2=sh('ulimit -v 7000000; ulimit -t 600; coqc -time -Q theories Verif theories/%s.v 2>&1'%ef,W+'/rocq',3000)
                at=re.findall(r'^Chars (\d+) - (\d+)',o2,re.M)
                if at:
                    n=admit(W+'/rocq/theories/'+ef+'.v',open(W+'/rocq/theories/'+ef+'.v').read()[:int(at[-1][1])].count('\n')+1)
                    if n: broke.append(n); done=True
        if not done: fatal=out[-600:]; break
    failed=set(b for b in broke if re.match(r'C\d\d',b))
    if not fatal:
        # fresh Print Assumptions for every claimed theorem
        thms=[t for c in json.load(open(here+'/MANIFEST.json'))['claims'] for t in c['theorems']]
        src={}
        for v in os.listdir(W+'/rocq/theories'):
            if v.endswith('.v'):
                for m in re.finditer(KW,open(W+'/rocq/theories/'+v).read(),re.M): src.setdefault(m.group(2),v[:-2])
        deps={}
        for v in listed: deps[v[:-2]]=set(sum((m.split() for m in re.findall(r'^From Verif Require (?:Import |Export )?([^.]*)\.',open(W+'/rocq/theories/'+v).read(),re.M)),[]))
        def reach(m,seen):
            if m in seen: return seen
            seen.add(m)
            for d in deps.get(m,()): reach(d,seen)
            return seen
        thms=[t for t in thms if t in src and f[:-2] in reach(src[t],set())]
        mods=sorted(set(src[t] for t in thms))
        if broke:
            t=''.join('From Verif Require %s.\n'%m for m in mods)+''.join('Check True. (* %s *)\nPrint Assumptions %s.%s.\n'%(x,src[x],x) for x in thms if x in src)
            open(W+'/rocq/q.v','w').write(t)
            rc,out=sh('coqc -Q theories Verif q.v 2>&1',W+'/rocq')
            parts=out.split('True\n     : Prop\n')[1:]
            for x,pt in zip([x for x in thms if x in src],parts):
                if any(re.search(r'\b'+re.escape(b)+r'\b',pt) for b in broke): failed.add(x)
    for ef in set(os.listdir(W+'/rocq/theories')):
        if ef.endswith('.v') and os.path.exists(here+'/rocq/theories/'+ef):
            if open(W+'/rocq/theories/'+ef).read()!=open(here+'/rocq/theories/'+ef).read(): shutil.copy(here+'/rocq/theories/'+ef,W+'/rocq/theories/'+ef)
    r=dict(definition=f+': '+(d[-1] if d else '?'),edit=old.strip()+'  ==>  '+new.strip(),claim=claim,failed=sorted(failed),broken_lemmas=sorted(set(broke)-failed),tightened=tight)
    if fatal: r['fatal']=fatal
    return r
if __name__=='__main__':
    g={}; exec(open(sys.argv[1]).read(),g)
    for m in g['M']:
        r=run(m)
        print(json.dumps(r)[:700],flush=True)
        if 'fatal' not in r:
            if not r['failed']: print('   *** SURVIVED ***',flush=True)
            open(here+'/seeded/LOG.jsonl','a').write(json.dumps(r)+'\n')
