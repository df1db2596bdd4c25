#!/usr/bin/env python3
"""Rewrites the end of DESIGN.md (after the marker): for each claim of MANIFEST.json its theorems, their files and
what Print Assumptions lists. Needs the compiled theories in rocq/theories."""
import json, os, re, subprocess, tempfile
ROOT = os.path.dirname(os.path.dirname(os.path.abspath(__file__)))
TH = os.path.join(ROOT, 'rocq', 'theories')
MARK = '<!-- generated by tools/theorems.py -->'
claims = json.load(open(os.path.join(ROOT, 'MANIFEST.json')))['claims']
where = {}
for f in sorted(os.listdir(TH)):
    if f.endswith('.v'):
        for n in re.findall(r'^\s*(?:Theorem|Lemma|Corollary)\s+(\w+)', open(os.path.join(TH, f)).read(), re.M):
            if re.match(r'C\d\d_', n):
                where[n] = f[:-2]
names = sorted({t for c in claims for t in c['theorems']})
with tempfile.TemporaryDirectory() as d:
    v = os.path.join(d, 'assumptions.v')
    open(v, 'w').write('From Verif Require %s.\n' % ' '.join(sorted({where[t] for t in names}))
                       + ''.join('Print Assumptions Verif.%s.%s.\n' % (where[t], t) for t in names))
    out = subprocess.run(['coqc', '-Q', TH, 'Verif', v], check=True, capture_output=True, text=True).stdout
chunks = [c for c in re.split(r'(?=^Closed under the global context|^Axioms:)', out, flags=re.M) if c.strip()]
assert len(chunks) == len(names)
ax = {n: [] if c.startswith('Closed') else sorted(set(re.findall(r'^([\w.]+)\s*(?::|$)', c, re.M)) - {'Axioms'})
      for n, c in zip(names, chunks)}
short = {'ClassicalDedekindReals.sig_forall_dec': 'A1', 'ClassicalDedekindReals.sig_not_dec': 'A2',
         'FunctionalExtensionality.functional_extensionality_dep': 'A3', 'Classical_Prop.classic': 'A4'}
lines = [MARK, '', '## Theorems and their assumptions', '',
         'A theorem without mark is "Closed under the global context". The others use axioms of the standard library:',
         'A1 `ClassicalDedekindReals.sig_forall_dec`, A2 `ClassicalDedekindReals.sig_not_dec`,',
         'A3 `FunctionalExtensionality.functional_extensionality_dep`, A4 `Classical_Prop.classic`.', '',
         '%d theorems, %d without any axiom.' % (len(names), sum(not a for a in ax.values())), '']
for c in claims:
    files = sorted({where[t] + '.v' for t in c['theorems']})
    lines.append('* **%s** (%s; %s): %s.' % (c['property'], c['status'], ', '.join(files), ', '.join(
        '`%s`%s' % (t, ' [%s]' % ' '.join(short[a] for a in ax[t]) if ax[t] else '') for t in c['theorems'])))
p = os.path.join(ROOT, 'DESIGN.md')
s = open(p).read().split(MARK)[0].rstrip() + '\n\n' + '\n'.join(lines) + '\n'
open(p, 'w').write(s)
