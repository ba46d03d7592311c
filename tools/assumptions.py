#!/usr/bin/env python3
"""Write ASSUMPTIONS.md: what Print Assumptions lists for each theorem.
usage: assumptions.py BUILD_LOG, where BUILD_LOG has, for each file, a line '@@ theories/F.v' followed by the output
of coqc on it (the Print Assumptions block at the end of each Prop*.v prints in the order of the block)."""
import re, sys, os, collections
root = os.path.dirname(os.path.dirname(os.path.abspath(__file__)))
chunks = re.split(r'^@@ theories/(\w+)\.v$', open(sys.argv[1]).read(), flags=re.M)[1:]
axs = collections.OrderedDict()
for f, out in zip(chunks[::2], chunks[1::2]):
    if not f.startswith('Prop'): continue
    names = re.findall(r'^Print Assumptions (\w+)\.', open(root + '/rocq/theories/%s.v' % f).read(), re.M)
    blocks = re.split(r'^(Closed under the global context|Axioms:)$', out, flags=re.M)[1:]
    res = []
    for k, b in zip(blocks[::2], blocks[1::2]):
        if k.startswith('Closed'): res.append(())
        else: res.append(tuple(sorted(re.findall(r'^(\w[\w.]*)(?=\s*$|\s+:)', b, re.M))))
    assert len(res) == len(names), (f, len(res), len(names))
    for n, r in zip(names, res): axs[n] = r
groups = collections.OrderedDict()
for n, r in axs.items(): groups.setdefault(r, []).append(n)
with open(root + '/ASSUMPTIONS.md', 'w') as h:
    h.write('# Print Assumptions, per theorem\n\nGenerated by tools/assumptions.py from a build log. %d theorems.\n' % len(axs))
    for r in sorted(groups, key=len):
        h.write('\n## %s (%d theorems)\n\n' % ('Closed under the global context' if not r else ', '.join('`%s`' % x for x in r), len(groups[r])))
        by = collections.OrderedDict()
        for n in groups[r]: by.setdefault(n.split('_')[0], []).append(n)
        for c in sorted(by): h.write('* %s: %s\n' % (c, ', '.join(by[c])))
print({k: len(v) for k, v in groups.items()})
