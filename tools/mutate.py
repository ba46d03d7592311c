#!/usr/bin/env python3
"""Test the theorems against wrong programs.

usage: mutate.py MUTATIONS.json [OUT.jsonl] [ID ...]

Each mutation replaces one piece of text of one model file in a scratch copy.  Every lemma that
depends on the edited definition is then re-checked (a lemma that uses an already failed lemma is
counted as failing without being re-checked; a lemma that does not depend on the edited definition
is not re-checked).  Dependencies come from the .glob files of a finished build in /verif/rocq.
'survivors' are manifest theorems that mention the edited definition, directly or not, and still hold.
"""
import json, re, os, sys, subprocess, shutil
from concurrent.futures import ThreadPoolExecutor
ROOT = os.path.dirname(os.path.dirname(os.path.abspath(__file__)))
TH = os.environ.get('BASE', ROOT + '/rocq') + '/theories/'
SCR = os.environ.get('SCRATCH', '/tmp/mut')
GIVEUP = 'Adm' + 'itted.'
files = [l.strip()[9:-2] for l in open(os.path.dirname(TH[:-1]) + '/_CoqProject') if l.startswith('theories/')]
src = {f: open(TH + f + '.v', 'rb').read().decode() for f in files}
srcb = {f: open(TH + f + '.v', 'rb').read() for f in files}
# suggested Proof using sets
using = {}
cur = None; name = None
for l in open(os.environ.get('SUGGEST', '/tmp/suggest.txt')):
    m = re.match(r'@@ theories/(\w+)\.v', l)
    if m: cur = m.group(1); continue
    m = re.match(r'The proof of ([\w\']+)', l)
    if m: name = m.group(1); continue
    m = re.search(r'(?:^|: )Proof using\s*(.*?)\s*\.\s*$', l)
    if m and name: using[cur, name] = m.group(1); name = None
# items with proofs: (start of keyword, name, start of Proof, end of Qed)
PK = r'(?:Lemma|Theorem|Corollary|Fact|Remark|Example|Proposition|Definition|Instance|Fixpoint)'
proofs = {}
def nocomment(s):
    out = list(s); d = 0; i = 0
    while i < len(s):
        if s.startswith('(*', i): d += 1; out[i] = out[i+1] = ' '; i += 2; continue
        if s.startswith('*)', i) and d: d -= 1; out[i] = out[i+1] = ' '; i += 2; continue
        if d and s[i] != '\n': out[i] = ' '
        i += 1
    return ''.join(out)
clean = {f: nocomment(src[f]) for f in files}
def find_proofs(s):
    ps = []
    for m in re.finditer(r'\bProof\b[^.]*\.', s):
        e = re.compile(r'\b(Qed|Defined)\.').search(s, m.end())
        ks = [k for k in re.finditer(r"^\s*(?:Local |Global |#\[\w+\] )?" + PK + r"\s+([\w']+)", s[:m.start()], re.M)]
        k = ks[-1]
        ps.append((k.start(), k.group(1), m.start(), e.end(), e.group(1)))
    return ps
for f in files: proofs[f] = find_proofs(clean[f])
# dependency graph
imports = {}
items = {f: [] for f in files}; deps = {}
for f in files:
    refs = []; its = []
    for l in open(TH + f + '.glob'):
        p = l.split()
        if p[0].startswith('R'):
            pos = int(p[0][1:].split(':')[0])
            if p[1].startswith('Verif.'):
                if p[-1] == 'lib': imports.setdefault(f, set()).add(p[1][6:])
                elif p[-1] != 'var': refs.append((pos, (p[1][6:], p[3])))
        elif p[0] in ('def', 'prf', 'abbrev', 'not', 'ind', 'rec', 'constr', 'proj', 'ax', 'inst'):
            its.append((int(p[1].split(':')[0]), (f, p[3])))
    for m in re.finditer(r'Ltac\s+(\w+)', clean[f]):
        b = len(src[f][:m.start(1)].encode())
        its.append((b, (f, 'Ltac:' + m.group(1))))
    its.sort(); items[f] = its
    import bisect
    keys = [i[0] for i in its]
    for pos, r in refs:
        j = bisect.bisect_right(keys, pos) - 1
        if j >= 0: deps.setdefault(its[j][1], set()).add(r)
    # record fields/constructors belong to their type
    # uses of tactics
    lt = [i[1] for i in its if i[1][1].startswith('Ltac:')]
    for j, (pos, it) in enumerate(its):
        end = its[j+1][0] if j + 1 < len(its) else len(srcb[f])
        txt = srcb[f][pos:end].decode()
        toks = set(re.findall(r'\w+', txt))
        for g in files[:files.index(f) + 1]:
            for k in items[g]:
                if k[1][1].startswith('Ltac:') and k[1][1][5:] in toks and k[1] != it:
                    deps.setdefault(it, set()).add(k[1])
allitems = [i[1] for f in files for i in items[f]]
# exact dependencies of proof terms, when available (obtained from the output of Print)
PD = os.environ.get('PDEPS', '/tmp/pdeps.json')
if os.path.exists(PD):
    isproof = {(f, p[1]) for f in files for p in proofs[f]}
    for k, v in json.load(open(PD)).items():
        k = tuple(k.split('/', 1))
        # a definition named in the source counts too; a lemma only if the proof term uses it
        deps[k] = {tuple(x) for x in v} | {d for d in deps.get(k, ()) if d not in isproof}
def closure_from(targets):
    """items that reach one of the targets (including them)"""
    rev = {}
    for a, ds in deps.items():
        for d in ds: rev.setdefault(d, set()).add(a)
    seen = set(targets); st = list(targets)
    while st:
        x = st.pop()
        for a in rev.get(x, ()):
            if a not in seen: seen.add(a); st.append(a)
    return seen
trans = {}
def imp(f):
    if f not in trans:
        s = set()
        for g in imports.get(f, ()): s |= {g} | imp(g)
        trans[f] = s
    return trans[f]
thm = re.compile(r'^C\d\d+_')
def base(n): return n
def run(mu):
    f = mu['file']; s = src[f]
    if s.count(mu['old']) != 1:
        # narrow to the definition
        m = re.search(r'\b' + re.escape(mu['def']) + r'\b', s)
        a = re.search(r'^\s*(?:Definition|Fixpoint)\s+' + re.escape(mu['def']) + r'\b', s, re.M)
        if not a: return dict(mu, error='no definition ' + mu['def'])
        nx = re.compile(r'^\s*(?:Definition|Fixpoint|Section|End|Record|Inductive|Lemma)\b', re.M).search(s, a.end())
        e = nx.start() if nx else len(s)
        seg = s[a.start():e]
        if seg.count(mu['old']) != 1: return dict(mu, error='old text occurs %d times' % seg.count(mu['old']))
        at = a.start() + seg.index(mu['old'])
    else: at = s.index(mu['old'])
    ab = len(s[:at].encode())
    its = items[f]; j = max(k for k, i in enumerate(its) if i[0] <= ab)
    D = its[j][1]
    if D[1] != mu['def']:
        return dict(mu, error='edit lands in %s' % D[1])
    mutated = s[:at] + mu['new'] + s[at + len(mu['old']):]
    dep = closure_from([D])
    F = set()
    d = SCR + '/' + mu['id']; shutil.rmtree(d, ignore_errors=True); os.makedirs(d + '/theories')
    order = [g for g in files if g == f or f in imp(g)]
    # files with something to check
    need = set()
    for g in order:
        if any((g, p[1]) in dep for p in proofs[g]): need |= {g} | (imp(g) & set(order))
    need.add(f)
    for g in files:
        if g not in order: os.symlink(TH + g + '.vo', d + '/theories/' + g + '.vo')
    timeouts = []
    for g in order:
        if g not in need: continue
        text = mutated if g == f else src[g]
        cl = nocomment(text)
        for it in range(200):
            aff = closure_from(F) if F else set()
            out = []; last = 0; emap = []
            for (ks, nm, ps, pe, kind) in find_proofs(cl):
                k = (g, nm)
                if kind == 'Defined' and k not in F: continue
                if kind != 'Defined' and k in dep and k not in aff: continue
                u = ''
                if (g, nm) in using: u = ' using %s' % using[g, nm]
                out.append(text[last:ps]); out.append('Proof%s. %s' % (u, GIVEUP) + '\n' * text[ps:pe].count('\n')); last = pe
            out.append(text[last:])
            t = ''.join(out)
            t = re.sub(r'^Print Assumptions.*$', '', t, flags=re.M)
            open(d + '/theories/' + g + '.v', 'w').write(t)
            try:
                r = subprocess.run(['coqc', '-time', '-Q', 'theories', 'Verif', 'theories/' + g + '.v'], cwd=d,
                                   capture_output=True, text=True, timeout=400)
                if r.returncode == 0: break
                m = re.search(r'line (\d+), characters (\d+)-\d+:\s*Error', r.stderr) or re.search(r'line (\d+), characters (\d+)', r.stderr)
                if not m: return dict(mu, error='build: ' + r.stderr[-400:])
                line = int(m.group(1))
                pos = sum(len(x) + 1 for x in t.split('\n')[:line-1]) + int(m.group(2))
                err = r.stderr[-500:]
            except subprocess.TimeoutExpired as e:
                o = (e.stdout or b'').decode() if isinstance(e.stdout, (bytes, type(None))) else e.stdout
                cs = re.findall(r'^Chars (\d+) - (\d+)', o, re.M)
                pos = len(t.encode()[:int(cs[-1][1]) + 3].decode(errors='ignore')) if cs else 0
                err = 'timeout'
            hit = None
            for (ks, nm, ps, pe, kind) in find_proofs(nocomment(t).replace(GIVEUP, 'Qed.' + ' ' * (len(GIVEUP) - 4))):
                if ps <= pos <= pe: hit = (nm, kind)
            if not hit or (g, hit[0]) in F:
                return dict(mu, error='outside a proof in %s: %s' % (g, err))
            if err == 'timeout': timeouts.append(hit[0])
            F.add((g, hit[0]))
    aff = closure_from(F) if F else set()
    failed = [i for i in allitems if i in aff and thm.match(i[1])]
    surv = [i[1] for i in allitems if i in dep and i not in aff and thm.match(i[1])]
    shutil.rmtree(d, ignore_errors=True)
    return dict(mu, direct=sorted(x[1] for x in F), timeouts=timeouts, failed=[x[1] for x in failed], survivors=surv)
if __name__ == '__main__':
    mus = json.load(open(sys.argv[1]))
    outf = sys.argv[2] if len(sys.argv) > 2 else '/tmp/mut.jsonl'
    only = set(sys.argv[3:])
    done = set()
    if os.path.exists(outf):
        done = {json.loads(l)['id'] for l in open(outf)}
    todo = [m for m in mus if (not only or m['id'] in only) and m['id'] not in done]
    def one(m):
        r = run(m)
        with open(outf, 'a') as h: h.write(json.dumps(r) + '\n')
        if 'error' in r: print(m['id'], 'ERROR', r['error'], flush=True)
        else:
            cs = sorted({x.split('_')[0] for x in r['failed']})
            miss = [c for c in m.get('expect', []) if c not in cs]
            print(m['id'], m['def'], 'direct', len(r['direct']), 'failed', len(r['failed']), 'surv', len(r['survivors']),
                  'MISSING ' + str(miss) if miss else '', flush=True)
    with ThreadPoolExecutor(int(os.environ.get('J', '4'))) as ex: list(ex.map(one, todo))
