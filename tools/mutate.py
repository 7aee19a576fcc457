# usage: mutate.py specs.json   -- mutation testing in a scratch copy ($MUT, default /tmp/mut)
# spec: {"definition","file","old","new","edit","claim"}; appends results to /verif/seeded/LOG.jsonl
# Failing proofs are admitted in the scratch copy; Print Assumptions then tells which theorems depend on them.
import json,sys,os,re,subprocess,shutil
from concurrent.futures import ThreadPoolExecutor
BASE=os.environ.get('BASE','/verif/rocq')
MUT=os.environ.get('MUT','/tmp/mut')
def sh(c,t=1800):
    return subprocess.run(c,shell=True,capture_output=True,text=True,timeout=t)
HDR=re.compile(r'^\s*(?:Local\s+|Global\s+|#\[\w+\]\s*)*(Lemma|Theorem|Example|Corollary|Fact|Instance|Remark)\s+(\w+)',re.M)
def run(spec):
    shutil.rmtree(MUT,ignore_errors=True)
    sh('cp -a '+BASE+' '+MUT)
    f=MUT+'/theories/'+spec['file']; s=open(f).read()
    assert s.count(spec['old'])==1,(spec['file'],spec['old'],s.count(spec['old']))
    open(f,'w').write(s.replace(spec['old'],spec['new']))
    admitted={}; other=[]
    for rnd in range(150):
        r=sh('cd '+MUT+' && timeout 1500 make -k -j4 2>&1')
        errs=re.findall(r'File "\./theories/(\w+)\.v", line (\d+), characters [\d-]+:\nError',r.stdout)
        if not errs:
            if r.returncode!=0: other.append('make failed: '+r.stdout[-300:])
            break
        stop=False
        for mod,ln in dict(errs).items():
            p=f'{MUT}/theories/{mod}.v'; t=open(p).read()
            pos=len('\n'.join(t.split('\n')[:int(ln)]))
            ms=[m for m in HDR.finditer(t) if m.start()<=pos]
            if not ms: other.append(f'{mod}:{ln}'); stop=True; continue
            m=ms[-1]; name=m.group(2)
            e=re.compile(r'\b(Qed|Defined)\.').search(t,m.start()); pr=t.find('Proof',m.start())
            if name in admitted or e is None or pr<0 or pr>e.start():
                other.append(f'{mod}:{ln} ({name}) '+r.stdout[r.stdout.find('Error'):][:300]); stop=True; continue
            open(p,'w').write(t[:pr]+'Proof. Admitted.'+t[e.end():]); admitted[name]=mod
        if stop: break
    # which P theorems depend on admitted lemmas
    bad=[]
    # only files that were rebuilt can depend on the edit
    ps=[p for p in sorted(os.listdir(MUT+'/theories')) if re.match(r'P_\w+\.v$',p)
        and (not os.path.exists(f'{MUT}/theories/{p}o') or os.path.getmtime(f'{MUT}/theories/{p}o')!=os.path.getmtime(f'{BASE}/theories/{p}o'))]
    os.makedirs(MUT+'/out',exist_ok=True)
    with ThreadPoolExecutor(4) as ex:
        outs=list(ex.map(lambda p: sh(f'cd {MUT} && timeout 1500 coqc -Q theories Verif -o out/{p}o theories/{p} 2>&1'),ps))
    for p,r in zip(ps,outs):
        names=re.findall(r'^Print Assumptions (\w+)\.',open(MUT+'/theories/'+p).read(),re.M)
        blocks=re.split(r'(?m)^(?=Closed under the global context|Axioms:)',r.stdout)[1:]
        if r.returncode!=0: bad.append(p+' does not compile')
        for n,b in zip(names,blocks):
            if n in admitted or any(re.search(r'\b'+re.escape(a)+r'\b',b) for a in admitted): bad.append(n)
    exs=[n for n,m in admitted.items() if m.startswith('P_') and n not in bad]
    return {"definition":spec['definition'],"edit":spec['edit'],"claim":spec['claim'],"theorems_failed":bad,
            "lemmas_failed":[n for n in admitted if n not in exs][:12],"examples_failed":exs,"theorems_tightened":[]},other
os.makedirs('/verif/seeded',exist_ok=True)
for spec in json.load(open(sys.argv[1])):
    try: res,other=run(spec)
    except Exception as ex: print('ERR',spec['definition'],repr(ex)); continue
    print(json.dumps(res)); 
    if other: print('  OTHER',other); res["note"]="build also stopped at: "+"; ".join(o[:120] for o in other)
    sys.stdout.flush()
    open('/verif/seeded/LOG.jsonl','a').write(json.dumps(res)+'\n')
