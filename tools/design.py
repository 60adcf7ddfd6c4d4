#!/usr/bin/env python3
"""Regenerate DESIGN.md from tools/design_head.md, tools/methods.json and MANIFEST.json."""
import json, os
root = os.path.dirname(os.path.dirname(os.path.abspath(__file__)))
props=[json.loads(l) for l in open(root+'/properties.jsonl')]
man={c['property']:c for c in json.load(open(root+'/MANIFEST.json'))['claims']}
meth=json.load(open(root+'/tools/methods.json'))
out=open(root+'/tools/design_head.md').read()
for p in props:
    i=p['id']; c=man[i]
    st='refuted in part' if any(t.endswith('_refuted') for t in c['theorems']) else ('partial' if c['status']=='partial' else 'proved')
    out+=f"* **{i}** {p['title']} ({st}). {meth[i]}"
    if c['note']: out+=' '+c['note']
    out+='\n'
open(root+'/DESIGN.md','w').write(out)
