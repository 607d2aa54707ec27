"""Assembles DESIGN.md: hand-written parts (tools/design_*.md) and a table of all theorems."""
import json,re,glob,os
os.chdir('/verif')
m={c['property']:c for c in json.load(open('MANIFEST.json'))['claims']}
props=[json.loads(l) for l in open('properties.jsonl')]
where={}
for f in sorted(glob.glob('rocq/theories/*.v')):
    s=open(f).read()
    for t in re.findall(r'^\s*(?:Theorem|Lemma|Corollary)\s+(C\d\d_\w+)',s,re.M): where[t]=os.path.basename(f)
out=open('tools/design_head.md').read()
out+='\n## Theorems by property\n\nGenerated by tools/design.py from MANIFEST.json. `Print Assumptions` of every theorem in this\ntable answers "Closed under the global context" (the command stands at the end of each file).\n\n| id | property | status | file | theorems |\n|----|----|----|----|----|\n'
for p in props:
    c=m.get(p['id'])
    if not c: out+=f"| {p['id']} | {p['title']} | planned | | |\n"; continue
    fs=sorted({where[t] for t in c['theorems']})
    out+=f"| {p['id']} | {p['title']} | {c['status']} | {', '.join(fs)} | {', '.join(c['theorems'])} |\n"
out+='\n### What is missing or false (status "partial"), and remarks\n\n'
for p in props:
    c=m.get(p['id'])
    if c and c.get('note'): out+=f"* **{p['id']}** ({c['status']}): {c['note']}\n"
out+='\n'+open('tools/design_tail.md').read()
open('DESIGN.md','w').write(out)
