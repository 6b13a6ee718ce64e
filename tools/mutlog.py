# Converts results of the mutation harness (scratch copy outside /verif) to lines of seeded/LOG.jsonl.
import json,sys,re,os,glob
T='/verif/rocq/theories/'
req={}
thm={}
for f in glob.glob(T+'*.v'):
    n=os.path.basename(f)[:-2]; s=open(f).read()
    req[n]=set(x for r in re.findall(r'From Verif Require (?:Import|Export)?([^.]*)\.',s) for x in r.split())
    thm[n]=re.findall(r'^\s*Theorem\s+(\w+)',s,re.M) if n.startswith('Prop') else []
def deps(n,seen):
    for x in req.get(n,()):
        if x not in seen: seen.add(x); deps(x,seen)
    return seen
D={n:deps(n,set()) for n in req}
tight=json.load(open(sys.argv[2])) if len(sys.argv)>2 else {}
out=open('/verif/seeded/LOG.jsonl','a')
for l in open(sys.argv[1]):
    d=json.loads(l)
    if 'exc' in d: print('EXC',d); continue
    broken=set(x.split('.')[0] for x in d['fails'])
    blocked=[t for n in sorted(thm) for t in thm[n] if n.startswith('Prop') and (D[n]&broken)]
    ids=re.findall(r'C\d\d',d['claim'])
    claimthms=[t for t in blocked if any(t.startswith(i) for i in ids)]
    if 'definition' not in d:
        t=open('/verif/rocq/theories/'+d['file']).read(); i=t.find(d['old'])
        q=[m.group(1) for m in re.finditer(r'(?:Definition|Fixpoint|Inductive|Record)\s+(\w+)',t[:i+len(d['old'])])]
        d['definition']=q[-1] if q else '?'
    out.write(json.dumps({"definition":d['file']+': '+d['definition'],"edit":{"old":d['old'],"new":d['new']},"claim_broken":d['claim'],
      "theorems_failed":d['fails'],"property_theorems_no_longer_provable":claimthms,"theorems_tightened":d.get('tightened',[])})+'\n')
