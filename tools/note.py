import json,sys
# usage: note.py ID status note
n=json.load(open('/verif/tools/notes.json')); n[sys.argv[1]]=[sys.argv[2],sys.argv[3]]
json.dump(n,open('/verif/tools/notes.json','w'),indent=0)
