#!/usr/bin/env python3
"""Seeded-bug runner.  usage: mutate.py spec.json  (list of {file, old, new, definition, edit, claim})
Works in /tmp/scratch (a copy of /verif/rocq); appends one line per attempt to /verif/seeded/LOG.jsonl."""
import json, os, re, subprocess, sys, shutil, time
S=os.environ.get('MS','/tmp/scratch')
def sh(c, t=900):
    try:
        p=subprocess.run(c,shell=True,capture_output=True,text=True,timeout=t); return p.returncode,p.stdout+p.stderr
    except subprocess.TimeoutExpired as e:
        return 124,(e.stdout or b'').decode()+(e.stderr or b'').decode()
def enclosing(path,line):
    src=open(path).read(); lines=src.split('\n')
    pos=sum(len(l)+1 for l in lines[:line-1])
    best=None
    for m in re.finditer(r'^(?:Local )?(Lemma|Theorem|Example|Corollary|Fact|Remark)\s+([\w\']+)',src,re.M):
        if m.start()<=pos+len(lines[line-1]): best=m
    return best,src
def admit(path,line):
    m,src=enclosing(path,line)
    if not m: return None
    mp=re.compile(r'^\s*Proof\b|\bProof\.',re.M).search(src,m.end())
    q=re.compile(r'\b(Qed|Defined)\.').search(src,m.end())
    if not mp or not q or mp.start()>q.start(): return None
    pos=sum(len(l)+1 for l in src.split('\n')[:line-1])
    if pos>q.end(): return None
    new=src[:mp.start()]+' Admitted.'+'\n'*src[mp.start():q.end()].count('\n')+src[q.end():]
    open(path,'w').write(new); return m.group(2)
B=os.environ.get('MB','/tmp/mutbase')
done=False
def base():
    global done
    if done: return
    done=True
    head=sh('cd /verif && git rev-parse HEAD')[1].strip()
    if os.path.exists(B+'/ok') and open(B+'/ok').read()==head: return
    sh(f'rm -rf {B}; mkdir -p {B}; cd /verif && git archive HEAD | tar x -C {B}')
    # reuse compiled files of the previous HEAD where the sources agree is not attempted: a clean build
    rc,out=sh(f'cd {B}/rocq && coq_makefile -f _CoqProject -o Makefile && make -j4',3000)
    assert rc==0,out[-500:]
    open(B+'/ok','w').write(head)
def run(spec):
    base()
    sh(f'rm -rf {S}; cp -a {B}/rocq {S}')
    t0=time.time()
    p=f'{S}/theories/{spec["file"]}'; src=open(p).read()
    assert src.count(spec['old'])>=1, ('old not found',spec)
    n=spec.get('nth',0); parts=src.split(spec['old'])
    src=spec['old'].join(parts[:n+1])+spec['new']+spec['old'].join(parts[n+1:])
    open(p,'w').write(src)
    sh(f'cd {S} && coq_makefile -f _CoqProject -o Makefile')
    failed=[]; stop=''
    for it in range(60):
        rc,out=sh(f'cd {S} && rm -f .*cache theories/.*cache; ulimit -t 1200; timeout {spec.get("t",600)} make -k -j{os.environ.get("J","2")}',spec.get("t",600)+30)
        if rc==0: break
        errs=re.findall(r'File "\./(theories/\w+\.v)", line (\d+)[^\n]*\n(?:[^\n]*\n)?Error',out) or \
             [(f,l) for f,l,_ in re.findall(r'File "\./(theories/\w+\.v)", line (\d+), (characters)',out)]
        if not errs: stop='timeout' if rc==124 else 'no error located: '+out[-300:]; break
        progressed=False
        for f,l in dict.fromkeys(errs):
            nm=admit(f'{S}/{f}',int(l))
            if nm and failed.count(nm)<2: failed.append(nm); progressed=True
            else: stop=f'{f}:{l}: not inside a proof'
        if not progressed: break
    # dependents through Print Assumptions
    dep=[]
    for f in sorted(os.listdir(f'{S}/theories')):
        if f.startswith('Prop_') and f.endswith('.vo') and failed and os.path.getmtime(f'{S}/theories/{f}')>t0-1:
            m=f[:-3]; names=re.findall(r'^Theorem (C\d\d_\w+)',open(f'{S}/theories/{m}.v').read(),re.M)
            if not names: continue
            open(S+'/PA_.v','w').write(f'From Verif Require {m}.\n'+''.join(f'Print Assumptions {m}.{n}.\n' for n in names))
            rc,out=sh(f'cd {S} && coqc -Q theories Verif {S}/PA_.v')
            blocks=re.split(r'^(?=Axioms:|Closed under)',out,flags=re.M)[1:]
            if len(blocks)!=len(names):
                stop+=f' [{m} not rebuilt]'; print(out[-300:],flush=True); continue
            for nm,b in zip(names,blocks):
                if any(re.search(r'(^|\.)'+re.escape(x)+r'(\s|$|:)',b,re.M) for x in failed): dep.append(nm)
    thms=sorted(set([x for x in failed if re.match(r'C\d\d',x)]+dep))
    print(spec['definition'],'|',spec['edit'],'->',thms or 'NOTHING',stop,' lemmas:',[x for x in failed if x not in thms][:6],flush=True)
    log={k:spec[k] for k in('definition','edit','claim')}
    log['theorems_failed']=thms; log['lemmas_failed']=[x for x in failed if x not in thms]
    if stop: log['note']=stop
    log['theorems_tightened']=spec.get('tightened',[])
    open('/verif/seeded/LOG.jsonl','a').write(json.dumps(log,ensure_ascii=False)+'\n')
    return thms
if __name__=='__main__':
    for s in json.load(open(sys.argv[1])): run(s)
