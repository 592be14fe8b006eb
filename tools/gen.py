#!/usr/bin/env python3
"""Regenerate rocq/_CoqProject (file list) and MANIFEST.json from the sources and tools/status.json."""
import json, os, re
root = os.path.dirname(os.path.dirname(os.path.abspath(__file__)))
th = os.path.join(root, 'rocq', 'theories')
files = []
for d, _, fs in os.walk(th):
    for f in fs:
        if f.endswith('.v'):
            files.append(os.path.relpath(os.path.join(d, f), os.path.join(root, 'rocq')))
files.sort()
with open(os.path.join(root, 'rocq', '_CoqProject'), 'w') as o:
    o.write('-Q theories Verif\n\n' + '\n'.join(files) + '\n')
thms = {}
for f in files:
    if '/Properties/' in f:
        s = open(os.path.join(root, 'rocq', f)).read()
        s = re.sub(r'\(\*.*?\*\)', '', s, flags=re.S)
        for m in re.finditer(r'^\s*Theorem\s+(C\d+)_(\w+)', s, flags=re.M):
            thms.setdefault(m.group(1), []).append(m.group(1) + '_' + m.group(2))
status = json.load(open(os.path.join(root, 'tools', 'status.json')))
claims = []
for line in open(os.path.join(root, 'properties.jsonl')):
    p = json.loads(line)['id']
    st = status.get(p, {})
    t = thms.get(p, [])
    claims.append({'property': p, 'status': st.get('status', 'proved' if t else 'partial'),
                   'theorems': t,
                   'note': st.get('note', '' if t else 'not proved yet')})
json.dump({'claims': claims}, open(os.path.join(root, 'MANIFEST.json'), 'w'), indent=1)
print(len(files), 'files', sum(map(len, thms.values())), 'theorems;',
      'uncovered:', [c['property'] for c in claims if not c['theorems']])
