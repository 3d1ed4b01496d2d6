#!/usr/bin/env python3
# Writes MANIFEST.json and checks that each theorem named exists in rocq/theories/Properties.
import json,os,re,glob,sys
here=os.path.dirname(os.path.abspath(__file__))
src="".join(open(f).read() for f in glob.glob(here+"/../rocq/theories/Properties/*.v"))
thms=re.findall(r"^Theorem\s+(C\d+\w*)",src,re.M)
props=[json.loads(l) for l in open(here+"/../properties.jsonl")]
notes=json.load(open(here+"/notes.json"))
claims=[]
for p in props:
    i=p["id"]; ts=[t for t in thms if t.startswith(i+"_")]
    n=notes.get(i,{})
    st=n.get("status")
    if not ts: st="not_applicable" if st=="not_applicable" else None
    if st is None: 
        if not ts: print("no theorems for",i); continue
        st="partial" if any(t.endswith(("_partial","_refuted")) for t in ts) else "proved"
    claims.append(dict(property=i,status=st,theorems=ts,note=n.get("note","")))
json.dump(dict(claims=claims),open(here+"/../MANIFEST.json","w"),indent=1)
print(len(claims),"claims",len(thms),"theorems", len(set(thms)))
