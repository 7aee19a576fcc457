# Builds MANIFEST.json: status/notes from /verif/tools/notes.json, theorems from P_*.v
import re,glob,json
notes=json.load(open('/verif/tools/notes.json'))
thms={}
for f in sorted(glob.glob('/verif/rocq/theories/P_*.v')):
    for m in re.finditer(r'^(?:Theorem|Lemma)\s+(C(\d+)_\w+)',open(f).read(),re.M):
        thms.setdefault('C'+m.group(2),[]).append(m.group(1))
claims=[]
for l in open('/verif/properties.jsonl'):
    i=json.loads(l)['id']
    if i in thms:
        ts=thms[i]
        st,note=notes.get(i,[None,''])
        if st is None:
            st='partial' if any(t.endswith(('_partial','_refuted')) for t in ts) else 'proved'
        claims.append({"property":i,"status":st,"theorems":ts,"note":note})
json.dump({"claims":claims},open('/verif/MANIFEST.json','w'),indent=1)
print(len(claims), [c['property']+':'+c['status'] for c in claims])
