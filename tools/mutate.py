#!/usr/bin/env python3
"""Mutation testing.  usage: mutate.py SPEC.py   (SPEC defines MUTANTS = [dict(file,defn,old,new,edit,claim,count=1)])
Works in /tmp/mut; appends one JSON line per mutant to /verif/seeded/LOG.jsonl."""
import sys,os,re,json,subprocess,shutil
T='/verif/rocq/theories'; W='/tmp/mut'
spec={}; exec(open(sys.argv[1]).read(),spec)
log='--log' in sys.argv
only=[a for a in sys.argv[2:] if a.isdigit()]
def sh(c): return subprocess.run(c,shell=True,capture_output=True,text=True)
sh(f'rm -rf {W} && cp -a /verif/rocq {W} && cd {W} && coq_makefile -f _CoqProject -o Makefile && make -j4')
def encl(path,line):
    ls=open(path).read().split('\n')
    for i in range(min(line,len(ls))-1,-1,-1):
        m=re.match(r'\s*(?:Local |Global )?(Theorem|Lemma|Example|Definition|Fixpoint|Corollary|Fact|Remark|Instance|Program\s+\w+)\s+([\w\']+)',ls[i])
        if m: return m.group(2)
    return '?'
out=[]
for n,m in enumerate(spec['MUTANTS']):
    if only and str(n) not in only: continue
    p=f"{T}/{m['file']}"; s=open(p).read()
    c=s.count(m['old'])
    if c!=m.get('count',1): print(n,'BAD COUNT',c,m['old']); continue
    q=f"{W}/theories/{m['file']}"
    open(q,'w').write(s.replace(m['old'],m['new']))
    r=sh(f'cd {W} && timeout 900 make -k -j4 2>&1')
    failed=[]
    for f,l in re.findall(r'File "\./?(theories/\w+\.v)", line (\d+)[^\n]*\n(?!Warning)',r.stdout):
        blk=r.stdout[r.stdout.index(f'"./{f}", line {l}'):][:200]
        if 'Warning' in blk.split('\n')[1]: continue
        failed.append(f"{os.path.basename(f)[:-2]}.{encl(W+'/'+f,int(l))}")
    failed=sorted(set(failed))
    # property theorems that can no longer be built
    blocked=[]
    for f in os.listdir(T):
        if f.endswith('Props.v') and (failed and sh(f'cd {W} && make -q theories/{f}o').returncode!=0):
            blocked+=re.findall(r'Theorem (C\d\d_\w+)',open(f'{T}/{f}').read())
    want=[b for b in blocked if b.startswith(m['claim'].split()[0].rstrip(':,')) and not b.endswith('_refuted')]
    print(n,m['defn'],'|',m['edit'],'->',failed or 'SURVIVED','| unbuilt:',len(blocked), 'of claim:',len(want))
    rec=dict(definition=f"{m['file'][:-2]}.{m['defn']}",edit=m['edit'],claim=m['claim'],failed=failed,
             property_theorems_not_built=want,tightened=m.get('tightened',[]),note=m.get('note',''))
    out.append(rec)
    shutil.copyfile(p,q); sh(f'touch {q}')
    sh(f'cd {W} && make -j4')
if log:
    with open('/verif/seeded/LOG.jsonl','a') as f:
        for r in out: f.write(json.dumps(r)+'\n')
