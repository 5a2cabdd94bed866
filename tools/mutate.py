#!/usr/bin/env python3
"""Seeded-bug runner: applies one textual edit to a scratch copy of the model,
rebuilds, admits (in the scratch copy only) every lemma that breaks and goes on,
so that all broken lemmas are found; reports the Prop_ theorems that rest on them.
usage: mutate.py MUTATIONS.json OUT.jsonl"""
import json, os, re, shutil, subprocess, sys
BASE = '/tmp/mut/base'  # a built copy of /verif/rocq
WORK = '/tmp/mut/work'
DECL = re.compile(r'^(Theorem|Lemma|Example|Corollary|Fact)\s+([A-Za-z0-9_\']+)', re.M)

def decls(text):
    ms = list(DECL.finditer(text))
    out = []
    for i, m in enumerate(ms):
        end = ms[i + 1].start() if i + 1 < len(ms) else len(text)
        out.append((m.group(2), m.start(), end, m.group(1)))
    return out

def build():
    p = subprocess.run(['make', '-k', '-j2'], cwd=WORK, capture_output=True, text=True)
    return p.returncode, p.stdout + p.stderr

def errors(log):
    res = {}
    for m in re.finditer(r'File "\./(theories/[A-Za-z0-9_]+\.v)", line (\d+), characters[^\n]*\n(Error|[^\n]*\n?Error)', log):
        res.setdefault(m.group(1), int(m.group(2)))
    return res

def run(mut):
    shutil.rmtree(WORK, ignore_errors=True)
    shutil.copytree(BASE, WORK)
    path = f'{WORK}/theories/{mut["file"]}'
    s = open(path).read()
    assert s.count(mut['old']) >= 1, ('not found', mut)
    n = mut.get('nth', 0)
    i = -1
    for _ in range(n + 1):
        i = s.index(mut['old'], i + 1)
    s = s[:i] + mut['new'] + s[i + len(mut['old']):]
    open(path, 'w').write(s)
    broken = []
    for _ in range(int(os.environ.get("ROUNDS", "60"))):
        rc, log = build()
        if rc == 0:
            break
        es = errors(log)
        if not es:
            broken.append('BUILD:' + log[-300:]); break
        for f, line in es.items():
            t = open(f'{WORK}/{f}').read()
            pos = len('\n'.join(t.split('\n')[:line - 1])) + 1
            d = [x for x in decls(t) if x[1] <= pos < x[2]]
            if not d or f.startswith('theories/Model'):
                broken.append(f'{f}:{line}'); return broken
            name, a, b, kind = d[-1]
            broken.append(f + '#' + name)
            body = t[a:b]
            k = body.find('Proof')
            if k < 0: return broken + ['noproof']
            e = re.search(r'\b(Qed|Defined|Admitted)\.', body)
            t = t[:a] + body[:k] + 'Admitted.' + body[e.end():] + t[b:]
            open(f'{WORK}/{f}', 'w').write(t)
    return broken

def closure():
    """Edges between declarations, each known by its file and its name."""
    uses = {}; words = {}; req = {}
    for f in sorted(os.listdir(BASE + '/theories')):
        if f.endswith('.v'):
            t = open(f'{BASE}/theories/{f}').read()
            req[f] = {m + '.v' for r in re.findall(r'Require (?:Import|Export)([^.]*)\.', t) for m in r.split()}
            for name, a, b, k in decls(t):
                words[(f, name)] = set(re.findall(r"[A-Za-z_][A-Za-z0-9_']*", t[a:b])) - {name}
    byname = {}
    for f, n in words: byname.setdefault(n, set()).add(f)
    for (f, n), ws in words.items():
        es = set()
        for w in ws:
            fs = byname.get(w)
            if fs:
                if f in fs: es.add((f, w))
                else: es |= {(g, w) for g in fs & req[f]}
        uses[(f, n)] = es
    return uses

def failing(broken, uses):
    bad = {(os.path.basename(x.split('#')[0]), x.split('#')[1]) for x in broken if '#' in x}
    ch = True
    while ch:
        ch = False
        for n, u in uses.items():
            if n not in bad and u & bad:
                bad.add(n); ch = True
    return sorted(n for _, n in bad if re.match(r'c\d\d_', n))

def main():
    muts = json.load(open(sys.argv[1])); uses = closure()
    for m in muts:
        broken = run(m)
        thms = failing(broken, uses)
        rec = {'definition': m['def'], 'edit': f"{m['file']}: {m['old']!r} -> {m['new']!r}" + (f" (occurrence {m['nth']})" if m.get('nth') else ''),
               'claim_broken': m['claim'], 'first_broken_lemmas': [x.split('#')[-1] for x in broken[:6]], 'theorems_failed': thms, 'theorems_tightened': []}
        open(sys.argv[2], 'a').write(json.dumps(rec) + '\n')
        print(m['def'], '->', 'SURVIVED' if not thms else thms[:6], flush=True)
main()
