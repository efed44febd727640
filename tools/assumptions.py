"""Run Print Assumptions on every theorem of MANIFEST.json (after a build in rocq/) and print what is not closed."""
import json, re, subprocess, tempfile, os
root = os.path.dirname(os.path.dirname(os.path.abspath(__file__)))
thms = [t for c in json.load(open(root + '/MANIFEST.json'))['claims'] for t in c['theorems']]
where = {}
for f in sorted(os.listdir(root + '/rocq/theories')):
    if f.endswith('.v'):
        for m in re.finditer(r'^\s*(?:Theorem|Lemma|Corollary)\s+(\w+)', open(root + '/rocq/theories/' + f).read(), re.M):
            where.setdefault(m.group(1), f[:-2])
with tempfile.TemporaryDirectory() as d:
    p = d + '/A.v'
    with open(p, 'w') as o:
        for m in sorted({where[t] for t in thms}):
            o.write('From Verif Require %s.\n' % m)
        for t in thms:
            o.write('Print Assumptions Verif.%s.%s.\n' % (where[t], t))
    r = subprocess.run(['coqc', '-Q', root + '/rocq/theories', 'Verif', p], capture_output=True, text=True)
lines = r.stdout.splitlines()
closed = sum(l == 'Closed under the global context' for l in lines)
print(len(thms), 'theorems,', closed, 'closed under the global context')
for l in lines:
    if l != 'Closed under the global context':
        print(l)
print(r.stderr)
