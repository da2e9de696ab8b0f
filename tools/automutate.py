#!/usr/bin/env python3
"""Automatic seeded bugs.  usage: automutate.py workers per_definition [seed]
For every definition of the *_Model.v files: apply mechanical edits (comparison, constant, boundary, swapped argument, dropped update, operator), rebuild in a
scratch copy until the first proof fails.  The theorems listed as failed are the property theorems whose proofs refer (transitively, by name) to that proof.
Mutants that do not type-check are dropped.  Survivors are logged with an empty list of failed theorems and have to be examined by hand."""
import sys, json, os, re, random, shutil, subprocess, glob, threading, queue
SRC='/tmp/am/src'; LOG='/verif/seeded/LOG.jsonl'
def sh(cmd,cwd='/'):
    p=subprocess.run(cmd,cwd=cwd,shell=True,stdout=subprocess.PIPE,stderr=subprocess.STDOUT,text=True,errors='replace'); return p.returncode,p.stdout
if not os.path.exists(SRC):
    shutil.copytree('/verif/rocq',SRC,copy_function=shutil.copy2)
    sh("sed -i '/Assumptions.v/d' _CoqProject && coq_makefile -f _CoqProject -o Makefile",SRC)
RULES=[(r'<\?','<=?'),(r'<=\?','<?'),(r'\bcolumnMajor\b(?! =>)','rowMajor'),(r'\browMajor\b(?! =>)','columnMajor'),(r'\btrue\b(?! =>)','false'),(r'\bfalse\b(?! =>)','true'),
 (r'&&','||'),(r'\|\|','&&'),(r'\bfor_ 0\b','for_ 1'),(r'\+ 1\b','+ 2'),(r'\+ 1\b','+ 0'),(r'- 1\b','- 0'),(r' \+ ',' - '),(r' - ',' + '),(r' \* ',' + '),(r' / ',' mod '),(r' mod ',' / '),
 (r'\bofma\b','ofnma'),(r'\bofnma\b','ofma'),(r'\boadd\b','osub'),(r'\bosub\b','oadd'),(r'\bomul\b','odiv'),(r'\bodiv\b','omul'),(r'\bfst\b','snd'),(r'\bsnd\b','fst'),(r'\bmin\b','max'),(r'\bmax\b','min'),
 (r'\bm n\b','n m'),(r'\bi j\b','j i'),(r'\bj i\b','i j'),(r'\bM N\b','N M'),(r'\bi \(j','j (i'),(r'\bo0\b','o1'),(r'\bo1\b','o0'),(r'\bUpper\b(?! =>)','Lower'),(r'\bLower\b(?! =>)','Upper'),
 (r'\bDense\b(?! =>)','Panel'),(r'\bPanel\b(?! =>)','Dense'),(r'\bvfmadd\b','vfnmadd'),(r'\bvfnmadd\b','vfmadd'),(r'\bvmul\b','vdiv'),(r'\bidx_lt\b','idx_ge'),(r'\bidx_ge\b','idx_lt'),
 (r'\bk \+ 1\b','k'),(r'\bi \+ 1\b','i'),(r'\bj \+ 1\b','j'),(r'\bpunalign SS (\w+)\b',r'\1'),(r'\bThrow \w+',"UB"),(r'\bnoexcept\b',''),(r'=\? 0','=? 1'),(r'\bnegb\b',''),(r'\boltb O (\w+) (\w+)',r'oltb O \2 \1'),
 (r'\bSome 1\b','Some 0'),(r'\bM K\b','K M'),(r'\bK N\b','N K'),(r'\bif (\w+) then\b',r'if negb \1 then'),(r'\bmupd (\w+) (\w+) \w+',r'mupd \1 \2 (o0 O)'),
 (r'm <- [^;]*;;\s',''),(r'\b0\b','1'),(r'\b1\b','2'),(r'\b2\b','3')]
def definitions():
    out=[]
    for f in sorted(glob.glob(SRC+'/theories/*_Model.v')):
        t=open(f).read()
        t2=re.sub(r'\(\*.*?\*\)',lambda m:' '*len(m.group(0)),t,flags=re.S)
        for m in re.finditer(r'^(Definition|Fixpoint) (\w+)(.*?)\.(?=\s*(?:\n|$))(?=\s*(?:$|\n\s*(?:Definition|Fixpoint|Record|Inductive|End|Section|Variable|Arguments|Notation|Local|Import|Open|Example|Lemma|Proof|Let|Set|Unset|#|$)))',t2,re.M|re.S):
            body=m.group(3); k=body.find(':=')
            if k<0: continue
            out.append((os.path.basename(f),m.group(2),m.start(3)+k+2,m.end(3)))
    return out
def mutants(per,seed):
    rnd=random.Random(seed); done=set()
    for l in open(LOG):
        d=json.loads(l); done.add((d['definition'],d.get('edit')))
    res=[]
    for f,name,a,b in definitions():
        t=open(SRC+'/theories/'+f).read(); body=t[a:b]; c=[]
        clean=re.sub(r'\(\*.*?\*\)',lambda m:' '*len(m.group(0)),body,flags=re.S)
        for pat,new in RULES:
            for m in re.finditer(pat,clean):
                r=m.expand(new) if '\\' in new else new
                if r==m.group(0): continue
                c.append((pat,m.start(),m.end(),r))
        rnd.shuffle(c); used=set(); k=0
        # prefer different rules
        for pat,s,e,r in sorted(c,key=lambda x:x[0] in (r'\b0\b',r'\b1\b',r'\b2\b')):
            if pat in used: continue
            ctx=body[max(0,s-25):e+25].replace('\n',' ')
            edit='auto: "%s" -> "%s" in "...%s..."'%(body[s:e],r,ctx)
            if (name,edit) in done: continue
            used.add(pat); res.append(dict(definition=name,file=f,edit=edit,_a=a+s,_b=a+e,_new=r)); k+=1
            if k>=per: break
    rnd.shuffle(res); return res
# text-based dependency graph of statements
def graph():
    st={}
    kw=re.compile(r'^(?:Local |Global )?(?:Theorem|Lemma|Example|Corollary|Remark|Fact|Definition|Fixpoint|Record|Inductive|Let)\s+([\w\']+)',re.M)
    for f in glob.glob(SRC+'/theories/*.v'):
        t=open(f).read(); ms=list(kw.finditer(t)); b=os.path.basename(f)[:-2]
        for i,m in enumerate(ms):
            e=ms[i+1].start() if i+1<len(ms) else len(t)
            st[(b,m.group(1))]=set(re.findall(r"[A-Za-z_][\w']*",t[m.end():e]))
    return st
ST=graph()
def dependents(b,name):
    names={name}; hit={(b,name)}; ch=True
    while ch:
        ch=False
        for k,v in ST.items():
            if k not in hit and (v&names): hit.add(k); names.add(k[1]); ch=True
    return sorted(n for (f,n) in hit if re.match(r'C\d\d_',n) and f.startswith('Properties_') and not re.match(r'C\d\d_(ex|example)',n))
lock=threading.Lock()
def work(w,q):
    d='/tmp/am/w%d'%w
    sh('rm -rf %s && cp -a %s %s'%(d,SRC,d))
    while True:
        try: mu=q.get_nowait()
        except queue.Empty: return
        sh('rsync -a --delete %s/ %s/'%(SRC,d)) if shutil.which('rsync') else sh('rm -rf %s && cp -a %s %s'%(d,SRC,d))
        f=d+'/theories/'+mu['file']; t=open(f).read()
        open(f,'w').write(t[:mu['_a']]+mu['_new']+t[mu['_b']:])
        rc,out=sh("make -j1 COQC='timeout 300 coqc'",d)
        r={k:v for k,v in mu.items() if not k.startswith('_')}; r['claim']='the claims about '+mu['definition']; r['mode']='auto, first failing proof'
        if rc==0: r.update(proofs_broken=[],theorems_failed=[],survived_expectations=['?'],theorems_tightened=[])
        else:
            m=re.search(r'File "\./?theories/(\w+)\.v", line (\d+), characters [\d-]+:\n(?!Warning)',out)
            tm=re.search(r'theories/(\w+)\.vo\] Error (124|137)',out)
            if m:
                b,line=m.group(1),int(m.group(2))
                if b.endswith('_Model') or b=='Base': 
                    with lock: print('invalid ',mu['definition'],mu['edit'],flush=True)
                    continue
                L=open(d+'/theories/'+b+'.v').read().split('\n')[:line]; nm=None
                for x in reversed(L):
                    k=re.match(r"^\s*(?:Local |Global )?(Theorem|Lemma|Example|Corollary|Remark|Fact|Definition|Instance|Fixpoint)\s+([\w']+)",x)
                    if k: nm=k.group(2); kind=k.group(1); break
                if nm is None or kind in('Definition','Fixpoint'):
                    with lock: print('invalid?',mu['definition'],mu['edit'],b,line,flush=True)
                    continue
                r.update(proofs_broken=[b+'.'+nm],theorems_failed=dependents(b,nm),survived_expectations=[],theorems_tightened=[])
            elif tm: r.update(proofs_broken=[tm.group(1)+' (no longer terminates)'],theorems_failed=sorted(n for (ff,n) in ST if ff==tm.group(1) and re.match(r'C\d\d_',n)),survived_expectations=[],theorems_tightened=[])
            else:
                with lock: print('ERROR',mu['definition'],out[-500:],flush=True)
                continue
        with lock:
            print('SURVIVED' if not r['proofs_broken'] else 'killed  ',mu['definition'],mu['edit'],r['proofs_broken'],len(r['theorems_failed']),flush=True)
            open(LOG,'a').write(json.dumps(r)+'\n')
if __name__=='__main__':
    ms=mutants(int(sys.argv[2]),int(sys.argv[3]) if len(sys.argv)>3 else 1); print(len(definitions()),'definitions',len(ms),'mutants',flush=True)
    if sys.argv[1]!='0':
        q=queue.Queue(); [q.put(m) for m in ms]
        ts=[threading.Thread(target=work,args=(i,q)) for i in range(int(sys.argv[1]))]; [t.start() for t in ts]; [t.join() for t in ts]
