"""Sets the note and the tightened theorems of an entry of seeded/LOG.jsonl: annotate.py DEFINITION EDIT NOTE [THEOREM...]"""
import json, sys
p = '/verif/seeded/LOG.jsonl'
d, e, note, *th = sys.argv[1:]
l = [json.loads(x) for x in open(p)]
n = 0
for x in l:
    if x['definition'] == d and x['edit'] == e:
        x['note'] = note
        if th: x['theorems_tightened'] = th
        n += 1
assert n, (d, e)
open(p, 'w').write(''.join(json.dumps(x) + '\n' for x in l))
