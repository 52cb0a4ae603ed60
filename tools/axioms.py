#!/usr/bin/env python3
"""Write AXIOMS.md: what Print Assumptions lists for every theorem of MANIFEST.json.
Needs a finished build in rocq/."""
import glob, json, os, re, subprocess
root = os.path.dirname(os.path.dirname(os.path.abspath(__file__)))
groups = {}
for f in sorted(glob.glob(os.path.join(root, 'rocq/theories/Prop*.v'))):
    mod = os.path.basename(f)[:-2]
    ths = re.findall(r'^Theorem\s+(C\d+_\w*)', open(f).read(), re.M)
    src = 'From Verif Require %s.\n' % mod
    for t in ths:
        src += 'Check tt.\nPrint Assumptions %s.%s.\n' % (mod, t)
    out = subprocess.run(['coqtop', '-q', '-Q', 'theories', 'Verif'], input=src, text=True,
                         cwd=os.path.join(root, 'rocq'), stdout=subprocess.PIPE, stderr=subprocess.DEVNULL).stdout
    parts = re.split(r'tt\s*:\s*unit', out)[1:]
    assert len(parts) == len(ths), (mod, len(parts), len(ths))
    for t, p in zip(ths, parts):
        ax = tuple(sorted(set(re.findall(r'^(?:Coq < )*\s?([A-Za-z_][\w\.]*)\s*(?::|$)', p, re.M)) - {'Axioms', 'Coq'}))
        if 'Closed under' in p:
            ax = ()
        groups.setdefault(ax, []).append(t)
with open(os.path.join(root, 'AXIOMS.md'), 'w') as o:
    o.write('# Axioms per theorem (generated by tools/axioms.py from Print Assumptions)\n\n')
    o.write('All are axioms of Coq\'s standard library; none is declared in this development.\n')
    for ax, ts in sorted(groups.items()):
        o.write('\n## %s\n\n%d theorems: %s\n' % (', '.join('`%s`' % a for a in ax) or 'none (closed under the global context)',
                len(ts), ', '.join(sorted(ts))))
        print(len(ts), ax)
