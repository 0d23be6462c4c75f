import json,re,glob,os,sys
sys.path.insert(0,'/tmp/gen')
# collects theorem names C\d\d_* from Props_*.v
names={}
for f in sorted(glob.glob('/verif/rocq/theories/Props_*.v')):
    for m in re.finditer(r'^\s*Theorem\s+(C\d\d\w*)',open(f).read(),re.M):
        names.setdefault(m.group(1)[:3],[]).append(m.group(1))
notes=json.load(open('/verif/tools/notes.json')) if os.path.exists('/verif/tools/notes.json') else {}
claims=[]
for line in open('/verif/properties.jsonl'):
    p=json.loads(line)['id']
    ths=names.get(p,[])
    n=notes.get(p,{})
    st=n.get('status') or ('proved' if ths else None)
    if st is None: continue
    claims.append(dict(property=p,status=st,theorems=ths,note=n.get('note','')))
json.dump({"claims":claims},open('/verif/MANIFEST.json','w'),indent=1)
print(len(claims))
