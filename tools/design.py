#!/usr/bin/env python3
"""Refresh the generated parts of DESIGN.md (between the GENERATED markers): the source files
cited by each model file, and what Print Assumptions lists for each property theorem.
Run after a build: it loads the compiled files."""
import json, re, os, subprocess, tempfile
root = os.path.dirname(os.path.dirname(os.path.abspath(__file__)))
order = [l.strip() for l in open(root + '/tools/order.txt') if l.strip()]
cited = []
for f in order:
    if not f.endswith('Model'): continue
    src = open('%s/rocq/theories/%s.v' % (root, f)).read()
    files = sorted(set(re.findall(r'\b((?:src|include)/[\w/.-]+\.(?:cpp|hpp|c|h|td|inc|cpp\.inc|tpp))', src)) |
                   set(re.findall(r'(?<![\w/])([A-Z]\w+\.(?:cpp|hpp|td|inc|c|h))\b', src)))
    full = {os.path.basename(x) for x in files if '/' in x}
    files = [x for x in files if '/' in x or x not in full]
    n = len(re.findall(r'^\s*(?:Definition|Fixpoint|Inductive|Record)\s', src, re.M))
    cited.append('* `%s.v` (%d definitions): %s' % (f, n, ', '.join('`%s`' % x for x in files)))
thms = []
for f in order:
    src = open('%s/rocq/theories/%s.v' % (root, f)).read()
    for m in re.finditer(r'^(?:Theorem|Corollary)\s+(C\d\d\d?_\w+)', src, re.M):
        thms.append((f, m.group(1)))
with tempfile.NamedTemporaryFile('w', suffix='.v', delete=False) as t:
    t.write('From Verif Require ' + ' '.join(sorted({f for f, _ in thms})) + '.\n')
    for f, n in thms:
        t.write('Print Assumptions %s.%s.\n' % (f, n))
out = subprocess.run(['coqtop', '-q', '-Q', root + '/rocq/theories', 'Verif', '-l', t.name],
                     input='', capture_output=True, text=True).stdout
blocks = re.split(r'(?=^Closed under the global context|^Axioms:)', out, flags=re.M)
blocks = [b for b in blocks if b.startswith(('Closed', 'Axioms'))]
assert len(blocks) == len(thms), (len(blocks), len(thms), out[-500:])
groups = {}
for (f, n), b in zip(thms, blocks):
    ax = tuple(sorted(re.findall(r'^([\w.]+)\s*:', b, re.M))) if b.startswith('Axioms') else ()
    ax = tuple(a for a in ax if a != 'Axioms')
    groups.setdefault(ax, []).append(n)
lines = []
for ax in sorted(groups, key=len):
    ns = sorted(groups[ax])
    lines.append('* %s (%d theorems): %s' % (
        'Closed under the global context, no axioms' if not ax else 'Axioms ' + ', '.join('`%s`' % a for a in ax),
        len(ns), ', '.join('`%s`' % n for n in ns)))
p = root + '/DESIGN.md'
s = open(p).read()
def put(s, tag, body):
    a, b = '<!-- GENERATED %s -->' % tag, '<!-- END %s -->' % tag
    i, j = s.index(a) + len(a), s.index(b)
    return s[:i] + '\n' + '\n'.join(body) + '\n' + s[j:]
s = put(s, 'sources', cited)
s = put(s, 'assumptions', lines)
open(p, 'w').write(s)
print(len(thms), 'theorems', len(groups), 'assumption groups')
