import json,sys
# usage: addprop.py ID title statement quantifier why anchor...
d=dict(id=sys.argv[1],title=sys.argv[2],statement=sys.argv[3],quantifier=sys.argv[4],why_tests_cant=sys.argv[5],anchors=sys.argv[6:])
open('/verif/properties.jsonl','a').write(json.dumps(d)+'\n')
