#!/usr/bin/env python3
"""Collect what Print Assumptions lists for every property theorem (from the compiled theories) into ASSUMPTIONS.md."""
import glob, os, re, subprocess, collections
root = os.path.join(os.path.dirname(os.path.abspath(__file__)), '..', 'rocq')
table = collections.OrderedDict()
tmp = '/tmp/assumptions_tmp'; os.makedirs(tmp, exist_ok=True)
def one(f):
    """every theorem named after a property in one Props file; uses the compiled theories"""
    src = open(f).read(); mod = os.path.basename(f)[:-2]
    names = re.findall(r'^(?:Theorem|Corollary)\s+(C\d+\w*)', src, re.M)
    q = os.path.join(tmp, 'A' + mod + '.v')
    open(q, 'w').write('From Verif Require %s.\n' % mod + ''.join('Print Assumptions %s.%s.\n' % (mod, n) for n in names))
    out = subprocess.run(['coqc', '-R', 'theories', 'Verif', q], cwd=root, capture_output=True, text=True).stdout
    blocks, cur = [], None
    for line in out.splitlines():
        if line.startswith('Closed under the global context'): blocks.append([]); cur = None
        elif line.startswith('Axioms:'): cur = []; blocks.append(cur)
        elif cur is not None:
            m = re.match(r'^([A-Za-z_][\w.\']*)(\s*:|\s*$)', line)
            if m: cur.append(m.group(1))
    assert len(blocks) == len(names), (f, len(blocks), len(names))
    return list(zip(names, [sorted(set(b)) for b in blocks]))
import multiprocessing
if __name__ == '__main__':
    with multiprocessing.Pool(3) as pool:
        for r in pool.map(one, sorted(glob.glob(os.path.join(root, 'theories', 'Props*.v'))), 1):
            for n, b in r: table[n] = b
groups = collections.OrderedDict()
for n, b in sorted(table.items(), key=lambda kv: (int(re.match(r'C(\d+)', kv[0]).group(1)) if re.match(r'C\d+', kv[0]) else 999, kv[0])):
    groups.setdefault(tuple(b), []).append(n)
with open(os.path.join(root, '..', 'ASSUMPTIONS.md'), 'w') as o:
    o.write('# Print Assumptions of every property theorem\n\n(generated by tools/assumptions.py)\n')
    for b, ns in groups.items():
        o.write('\n## ' + (', '.join('`%s`' % x for x in b) if b else 'Closed under the global context') + '\n\n' + ', '.join(ns) + '\n')
