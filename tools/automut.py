#!/usr/bin/env python3
"""Random operator mutation of model definitions. usage: automut.py PER_DEF SEED OUT.jsonl [Module ...]
For every Definition/Fixpoint of the given model modules (default: all *Model) makes up to PER_DEF random
operator mutants, builds everything that depends on it (Demo modules removed where possible) and prints
survivors.  Scratch copies: /tmp/am/w0..w3."""
import sys,os,re,json,subprocess,random,threading,queue
PER=int(sys.argv[1]); SEED=int(sys.argv[2]); OUT=sys.argv[3]; MODS=sys.argv[4:]
R='/tmp/am/base'; NW=3
def sh(c,t=None): return subprocess.run(c,shell=True,capture_output=True,text=True,timeout=t)
if not os.path.exists(R+'/ready'):
    sh(f'rm -rf {R}; cp -a /verif/rocq {R}')
    T=R+'/theories'
    def soften(s):
        # examples and concrete counterexamples do not count as killers: admit them in the scratch copy
        def go(s,pat):
            return re.sub(pat+r"(?P<st>(?:(?!Qed\.|Defined\.|Proof\.).)*?\.)\s*Proof\.(?:(?!Proof\.).)*?Qed\.",lambda m:m.group(0)[:m.group(0).rindex('Proof.',0,m.end('st')-m.start()+60) if False else m.end('st')-m.start()]+' Admitted.',s,flags=re.S)
        s=go(s,r"(?P<h>\bExample\s+\w+|\bTheorem\s+C\d\d\w*_refuted\w*)")
        def dm(m): return go(m.group(0),r"(?P<h>\b(?:Example|Lemma|Theorem|Fact|Remark|Corollary)\s+\w+)")
        return re.sub(r'Module Demo\..*?End Demo\.',dm,s,flags=re.S)
    for f in os.listdir(T):
        if f.endswith('.vo'): os.remove(f'{T}/{f}')
        if not f.endswith('.v'): continue
        s=open(f'{T}/{f}').read(); n=soften(s)
        if n!=s:
            open(f'{T}/{f}.orig','w').write(s); open(f'{T}/{f}','w').write(n)
    sh(f'cd {R} && coq_makefile -f _CoqProject -o Makefile')
    for k in range(6):
        r=sh(f'cd {R} && make -k -j4 2>&1')
        bad=set(re.findall(r'File "\./?theories/(\w+\.v)", line \d+[^\n]*\nError',r.stdout))
        print(k,r.returncode,bad,flush=True)
        if r.returncode==0: break
        for f in bad:
            if os.path.exists(f'{T}/{f}.orig'): os.rename(f'{T}/{f}.orig',f'{T}/{f}'); os.utime(f'{T}/{f}')
    open(R+'/ready','w').write('x')
def mask(s):
    """blank out comments and strings"""
    o=list(s);i=0;d=0
    while i<len(s):
        if s.startswith('(*',i): d+=1;o[i]=o[i+1]=' ';i+=2;continue
        if d and s.startswith('*)',i): d-=1;o[i]=o[i+1]=' ';i+=2;continue
        if d: 
            if s[i]!='\n': o[i]=' '
            i+=1;continue
        if s[i]=='"':
            j=s.index('"',i+1)
            for k in range(i,j+1): o[k]='~'
            i=j+1;continue
        i+=1
    return ''.join(o)
OPS=[(r' <=\? ',[' <? ']),(r' <\? ',[' <=? ']),(r' =\? ',[' <=? ']),(r' && ',[' || ']),(r' \|\| ',[' && ']),
 (r'\bnegb ',['id ']),(r'\btrue\b',['false']),(r'\bfalse\b',['true']),(r' \+ ',[' - ']),(r' - ',[' + ']),
 (r'\bfirstn\b',['skipn']),(r'\bskipn\b',['firstn']),(r'\bfst\b',['snd']),(r'\bsnd\b',['fst']),
 (r'\b0\b',['1']),(r'\b1\b',['2','0']),(r'\b2\b',['1','3']),(r'\bexistsb\b',['forallb']),(r'\bforallb\b',['existsb']),
 (r'\brev ',['id ']),(r'\bif (?!negb)',['if negb @@']),(r'\bSome (\w+)\b',['None']),(r' :: (\w+)\b',['DROPCONS']),
 (r'\bS (\w+)\b',[r'\1']),(r' \+\+ ',['SWAP']),(r'\bMax\b|\bmax\b',['min']),(r'\bmin\b',['max']),
 (r' <= ',[' < ']),(r' < ',[' <= ']),(r' >= ',[' > ']),(r' /\\ ',[' \\/ ']),(r' <> ',[' = ']),
]
def gen(mod):
    s=open(f'{R}/theories/{mod}.v').read(); ms=mask(s); rng=random.Random(f'{SEED}{mod}')
    res=[]
    for m in re.finditer(r'^[ ]*(?:Definition|Fixpoint|CoFixpoint|Inductive)\s+(\w+)',ms,re.M):
        e=re.compile(r'\.(?=\s)').search(ms,m.end())
        if not e: continue
        a,b=m.end(),e.start(); body=ms[a:b]
        if ':=' not in body: continue
        a+=body.index(':='); body=ms[a:b]
        c=[]
        for pat,reps in OPS:
            for x in re.finditer(pat,body):
                for rep in reps:
                    if rep=='if negb @@':
                        th=re.compile(r'\bthen\b').search(body,x.end())
                        if not th: continue
                        old=s[a+x.start():a+th.start()]; new='if negb ('+s[a+x.end():a+th.start()]+') '
                        c.append((a+x.start(),old,new))
                    elif rep=='DROPCONS':
                        # (e :: x) -> x
                        old=x.group(0); # find start of element: simple word or parenthesised just before
                        pre=body[:x.start()]
                        w=re.search(r"(\w+|\([^()]*\)|\([^()]*\([^()]*\)[^()]*\))$",pre)
                        if not w: continue
                        o=s[a+w.start():a+x.end()]; c.append((a+w.start(),o,x.group(1)))
                    elif rep=='SWAP':
                        l=re.search(r"(\w+|\([^()]*\)|\[[^\[\]]*\])$",body[:x.start()]); r=re.match(r"(\w+|\([^()]*\)|\[[^\[\]]*\])",body[x.end():])
                        if not l or not r: continue
                        o=s[a+l.start():a+x.end()+r.end()]
                        c.append((a+l.start(),o,s[a+x.end():a+x.end()+r.end()]+' ++ '+s[a+l.start():a+l.end()]))
                    else:
                        old=s[a+x.start():a+x.end()]; new=re.sub(pat,rep,x.group(0)) if '\\1' in rep else rep
                        c.append((a+x.start(),old,new))
        # swap of match-branch results is left to hand-written specs
        rng.shuffle(c)
        res+= [(mod,m.group(1),p,o,n) for p,o,n in c[:PER]]
    return res
if not MODS:
    MODS=sorted(l.strip().replace('theories/','').replace('.v','') for l in open('/verif/tools/files.txt').read().split() if re.search(r'Model',l))
jobs=queue.Queue(); tot=0
for mod in MODS:
    for g in gen(mod): jobs.put(g); tot+=1
print('mutants',tot,flush=True)
lock=threading.Lock(); outf=open(OUT,'a'); done=[0]
def work(k):
    W=f'/tmp/am/w{k}'; sh(f'rm -rf {W}; cp -a {R} {W}')
    while True:
        try: mod,d,p,o,n=jobs.get_nowait()
        except queue.Empty: return
        f=f'{W}/theories/{mod}.v'; s=open(f'{R}/theories/{mod}.v').read(); assert s[p:p+len(o)]==o
        open(f,'w').write(s[:p]+n+s[p+len(o):])
        r=sh(f'cd {W}/theories && ulimit -v 5000000; timeout 120 coqc -Q . Verif {mod}.v 2>&1 | tail -5')
        status='killed'; where=''
        if not os.path.exists(f'{W}/theories/{mod}.vo') or os.path.getmtime(f'{W}/theories/{mod}.vo')<os.path.getmtime(f): status='invalid'
        else:
            r=sh(f'cd {W} && ulimit -v 6000000; timeout 1200 make 2>&1')
            if r.returncode==0: status='SURVIVED'
            else:
                x=[l for l in re.findall(r'File "\./?theories/(\w+)\.v", line (\d+)[^\n]*\nError',r.stdout)]
                where=str(x[-1:])
        ln=s[:p].count('\n')+1
        ctx=s[max(0,s.rfind('\n',0,p)+1):(s.find('\n',p+len(o)) if s.find('\n',p+len(o))>0 else None)]
        with lock:
            done[0]+=1
            outf.write(json.dumps(dict(mod=mod,defn=d,line=ln,old=o,new=n,ctx=ctx.strip(),status=status,where=where))+'\n'); outf.flush()
            if status=='SURVIVED': print(done[0],f'{mod}.{d}:{ln} [{o}] -> [{n}]  in: {ctx.strip()[:150]}',flush=True)
        sh(f'rsync -a --delete {R}/theories/ {W}/theories/ || (rm -rf {W}/theories; cp -a {R}/theories {W}/theories)')
ts=[threading.Thread(target=work,args=(k,)) for k in range(NW)]
[t.start() for t in ts]; [t.join() for t in ts]
print('finished',done[0])
