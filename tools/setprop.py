import json,sys
# usage: setprop.py ID field value
i,f,v=sys.argv[1:4]
L=[json.loads(l) for l in open('/verif/properties.jsonl')]
for d in L:
    if d['id']==i: d[f]=v
open('/verif/properties.jsonl','w').write(''.join(json.dumps(d)+'\n' for d in L))
