#!/usr/bin/env python3
"""Seeded-bug runner.  usage: mutate.py mutants.json [jobs]
For each mutant: copy /verif/rocq (with compiled files) to a scratch directory, apply the edit, rebuild; every proof that
fails is replaced by Admitted in the scratch copy until everything compiles again, so that Print Assumptions then shows
exactly which property theorems rest on a proof that no longer goes through.  Results are appended to seeded/LOG.jsonl.
Mutants already in the log (same def + edit) are skipped."""
import sys, json, os, re, shutil, subprocess, concurrent.futures as cf
SRC='/tmp/mutsrc'   # snapshot of /verif/rocq, compiled
if not os.path.exists(SRC): shutil.copytree('/verif/rocq',SRC,copy_function=shutil.copy2)
SRC_REAL='/verif/rocq'; LOG='/verif/seeded/LOG.jsonl'
def run(cmd, cwd):
    p=subprocess.run(cmd,cwd=cwd,shell=True,stdout=subprocess.PIPE,stderr=subprocess.STDOUT,text=True,errors='replace')
    return p.returncode,p.stdout
def admit(path, line):
    """admit the proof (or drop the command) that contains [line] (1-based)"""
    L=open(path).read().split('\n')
    i=line-1
    # find the start of the enclosing statement
    s=i
    kw=re.compile(r'^\s*(Local |Global |#\[\w+\] )?(Theorem|Lemma|Example|Corollary|Remark|Fact|Instance|Definition|Goal|Proposition)\b')
    while s>=0 and not kw.match(L[s]): s-=1
    if s<0: return None
    name=re.sub(r'^.*?(Theorem|Lemma|Example|Corollary|Remark|Fact|Instance|Definition|Goal|Proposition)\s+([\w\']*).*$',r'\2',L[s])
    e=s
    while e<len(L) and not re.search(r'\b(Qed|Defined|Admitted)\.',L[e]): e+=1
    p=s
    while p<len(L) and not re.search(r'\bProof\b',L[p]): p+=1
    if p>e or e>=len(L) or p>=len(L): return None
    if re.search(r'\bAdmitted\.',L[e]): return None
    head=re.split(r'\bProof\b',L[p])[0]
    L[p:e+1]=[head+' Admitted.']
    open(path,'w').write('\n'.join(L))
    return name
def one(mu, tag):
    d='/tmp/mut/%s'%tag
    shutil.rmtree(d,ignore_errors=True); os.makedirs('/tmp/mut',exist_ok=True)
    run('cp -a %s %s'%(SRC,d),'/')
    f=d+'/theories/'+mu['file']; t=open(f).read()
    n=t.count(mu['old'])
    if n!=1: return {**mu,'error':'pattern occurs %d times'%n}
    open(f,'w').write(t.replace(mu['old'],mu['new']))
    # Assumptions.v is not needed for the rebuild loop
    run("sed -i '/Assumptions.v/d' _CoqProject && coq_makefile -f _CoqProject -o Makefile",d)
    failed=[]; err=''
    for it in range(120):
        rc,out=run("make -j2 -k COQC='timeout 240 coqc'",d)
        if rc==0: break
        hit=False
        # a proof script that no longer terminates: find the sentence it hangs in
        for vf in re.findall(r'theories/(\w+)\.vo\] Error 124',out):
            f='theories/%s.v'%vf
            _,tm=run('timeout 240 coqc -Q theories Verif -time %s'%f,d)
            ch=re.findall(r'^Chars (\d+) - (\d+)',tm,re.M)
            if ch:
                line=open(d+'/'+f,'rb').read()[:int(ch[-1][1])].decode().count('\n')+2
                nm=admit(d+'/'+f,line)
                if nm: failed.append(vf+'.'+nm); hit=True
        for m in re.finditer(r'File "\./?(theories/\w+\.v)", line (\d+), characters [\d-]+:\n(?!Warning)',out):
            nm=admit(d+'/'+m.group(1),int(m.group(2)))
            if nm: failed.append(os.path.basename(m.group(1))[:-2]+'.'+nm); hit=True
        if not hit: err=out[-1500:]; break
    if err:
        shutil.rmtree(d,ignore_errors=True)
        return {**mu,'error':err,'failed':failed}
    names=re.findall(r'^Print Assumptions (\w+)',open(SRC+'/theories/Assumptions.v').read(),re.M)
    hdr=[l for l in open(SRC+'/theories/Assumptions.v') if l.startswith('From Verif')][0]
    bad=[]
    with open(d+'/pa.v','w') as g:
        g.write(hdr)
        for x in names: g.write('Goal True. idtac "@@ %s". Abort.\nPrint Assumptions %s.\n'%(x,x))
    rc,out=run('coqc -Q theories Verif pa.v',d)
    std=('ClassicalDedekindReals','FunctionalExtensionality','functional_extensionality','sig_forall_dec','sig_not_dec','classic')
    for sec in out.split('@@ ')[1:]:
        nm=sec.split('\n')[0].strip()
        ax=[l.split(':')[0].strip() for l in sec.split('\n')[1:] if re.match(r'^[A-Za-z_][\w\.\']*\s*(:|$)',l) and not l.startswith(('Closed','Axioms'))]
        if any(not any(s in a for s in std) for a in ax): bad.append(nm)
    ok=set(names)-set(x for x in re.findall(r'@@ (\w+)',out))
    shutil.rmtree(d,ignore_errors=True)
    r={**mu,'proofs_broken':failed,'theorems_failed':bad}
    if ok: r['error']='no assumptions for '+str(sorted(ok)[:3])+out[-500:]
    return r
def main():
    mus=json.load(open(sys.argv[1])); jobs=int(sys.argv[2]) if len(sys.argv)>2 else 2
    done=set()
    if os.path.exists(LOG):
        for l in open(LOG):
            if l.strip():
                x=json.loads(l); done.add((x.get('file'),x.get('old'),x.get('new')))
    todo=[m for m in mus if (m['file'],m['old'],m['new']) not in done]
    with cf.ThreadPoolExecutor(jobs) as ex:
        futs={ex.submit(one,m,'m%d'%i):m for i,m in enumerate(todo)}
        for fu in cf.as_completed(futs):
            try: r=fu.result()
            except Exception as e: r={**futs[fu],'error':repr(e)}
            if 'error' in r:
                print('ERROR',r['definition'],r['edit'],r['error'][-600:],flush=True); continue
            ids=sorted(set(x[:3] for x in r['theorems_failed']))
            missing=[x for x in r.get('expect',[]) if x not in ids]
            print(('SURVIVED ' if missing or not ids else 'killed   ')+r['definition'],'|',r['edit'],'|',' '.join(ids),'| missing:',missing,flush=True)
            r['survived_expectations']=missing
            r.setdefault('theorems_tightened',[])
            open(LOG,'a').write(json.dumps(r)+'\n')
main()
