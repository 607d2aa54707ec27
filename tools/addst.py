"""usage: addst.py 'MODULES..' <<< python dict body lines  (appends to files.txt and status.py)"""
import sys
mods=sys.argv[1].split()
with open('/verif/tools/files.txt','a') as f:
    for m in mods: f.write(m+'\n')
p='/verif/tools/status.py';s=open(p).read().rstrip()
assert s.endswith('}')
open(p,'w').write(s[:-1]+sys.stdin.read().strip()+'\n}\n')
