"""Regenerates MANIFEST.json and the file list of rocq/_CoqProject.
Theorem names are collected from rocq/theories/*Props.v (Theorem Cnn_...);
status and note come from STATUS."""
import json, re, glob, os
R = os.path.dirname(os.path.dirname(os.path.abspath(__file__)))
exec(open(os.path.join(R, 'tools', 'status.py')).read())
ths = {}
for f in sorted(glob.glob(R + '/rocq/theories/*Props.v')):
    for m in re.finditer(r'^ *Theorem\s+((C\d\d)_\w+)', open(f).read(), re.M):
        ths.setdefault(m.group(2), []).append(m.group(1))
ids = [json.loads(l)['id'] for l in open(R + '/properties.jsonl')]
claims = []
for i in ids:
    if i in STATUS:
        st, note = STATUS[i]
        claims.append(dict(property=i, status=st, theorems=ths.get(i, []), note=note))
        assert st == 'not_applicable' or ths.get(i), i
    elif i in ths:
        print('no status for', i)
json.dump({'claims': claims}, open(R + '/MANIFEST.json', 'w'), indent=1)
p = R + '/rocq/_CoqProject'
lines = [l for l in open(p).read().split('\n') if l and not l.endswith('.v')]
files = open(R + '/tools/files.txt').read().split()
open(p, 'w').write('\n'.join(lines + ['theories/%s.v' % x for x in files]) + '\n')
print(len(claims), 'claims;', sum(c['status'] == 'proved' for c in claims), 'proved')
