#!/usr/bin/env python3
"""Mutation runner.  usage: mutate.py specs.json [out.jsonl]
Each spec: {"file","definition","old","new","claim","expect":["C03",...][,"only":["FileProps",...]]}.  For each one the rocq tree (with
its compiled files) is copied to a scratch directory, the edit applied, the tree rebuilt with make -k, and a JSON line printed with the
theorems that no longer build and the lemma at which coqc first stopped."""
import sys, json, os, re, shutil, subprocess, glob, time
SRC='/verif/rocq'
def theorem_names(path):
    return re.findall(r'^(?:Theorem|Example|Lemma)\s+(C\d\d_\w+)', open(path).read(), re.M)
def run(spec, idx):
    d='/tmp/mut/%d_%d'%(os.getpid(),idx)
    shutil.rmtree(d, ignore_errors=True); os.makedirs('/tmp/mut', exist_ok=True)
    subprocess.check_call(['cp','-rp',SRC,d])
    f=os.path.join(d,'theories',spec['file']); s=open(f).read()
    n=s.count(spec['old'])
    if n<1 or (n!=1 and 'nth' not in spec and 'all' not in spec):
        shutil.rmtree(d); return dict(error='occurrences %d'%n, definition=spec['definition'])
    if n==1 or 'all' in spec: s2=s.replace(spec['old'],spec['new'])
    else:
        parts=s.split(spec['old']); k=spec['nth']
        s2=spec['old'].join(parts[:k+1])+spec['new']+spec['old'].join(parts[k+1:])
    open(f,'w').write(s2); os.utime(f)
    subprocess.run('rm -f theories/%s.vo*; coq_makefile -f _CoqProject -o Makefile >/dev/null 2>&1'%spec['file'][:-2],shell=True,cwd=d)
    t0=time.time()
    r=subprocess.run('timeout 1500 make -k -j3 %s 2>&1' % ' '.join('theories/%s.vo' % o for o in spec.get('only', [])),shell=True,cwd=d,stdout=subprocess.PIPE,universal_newlines=True)
    out=r.stdout
    errs=[]
    for m in re.finditer(r'File "\./theories/(\w+\.v)", line (\d+), characters[^\n]*\n(?:Error[^\n]*\n?[^\n]*)',out):
        fn,ln=m.group(1),int(m.group(2))
        lines=open(os.path.join(d,'theories',fn)).read().split('\n')[:ln]
        lem='?'
        for l in reversed(lines):
            mm=re.match(r'\s*(?:Theorem|Lemma|Example|Corollary|Definition|Fixpoint|Remark)\s+(\w+)',l)
            if mm: lem=mm.group(1); break
        errs.append('%s:%s'%(fn,lem))
    if r.returncode==124: errs.append('timeout')
    failed=[]
    vfiles=[l.strip() for l in open(os.path.join(d,'_CoqProject')) if l.strip().endswith('.v')]
    for v in vfiles:
        b=os.path.basename(v)
        vo=os.path.join(d,v[:-2]+'.vo')
        stale = (not os.path.exists(vo)) or os.path.getmtime(vo)<t0-1 and os.path.exists(vo) and any(e.startswith(b) for e in errs)
        if stale: failed+= theorem_names(os.path.join(d,v))
    # files whose vo is older than the mutated file's dependents: make -k leaves the old vo in place
    q=subprocess.run('make -k -n 2>/dev/null | grep -o "theories/[A-Za-z0-9]*\\.v" | sort -u',shell=True,cwd=d,stdout=subprocess.PIPE,universal_newlines=True).stdout.split()
    for v in q:
        failed+=theorem_names(os.path.join(d,v))
    if 'only' in spec:  # theorems of the named files only; the rest was not rebuilt
        names=[n for o in spec['only'] for n in theorem_names(os.path.join(d,'theories',o+'.v'))]
        failed=[t for t in failed if t in names]
    failed=sorted(set(failed))
    shutil.rmtree(d, ignore_errors=True)
    exp=spec.get('expect',[])
    rel=[t for t in failed if any(t.startswith(e+'_') for e in exp)]
    return dict(definition='%s (%s)'%(spec['definition'],spec['file']),edit="%s  ==>  %s"%(' '.join(spec['old'].split()),' '.join(spec['new'].split())),claim=spec['claim'],
        theorems_failed=rel if exp else failed, all_failed=len(failed), first_errors=sorted(set(errs)), survived=[e for e in exp if not any(t.startswith(e+'_') for t in failed)], theorems_tightened=spec.get('tightened',[]))
if __name__=='__main__':
    specs=json.load(open(sys.argv[1]))
    for i,s in enumerate(specs):
        r=run(s,i); line=json.dumps(r)
        print(line,flush=True)
        if len(sys.argv)>2 and 'error' not in r: open(sys.argv[2],'a').write(line+'\n')
