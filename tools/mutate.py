#!/usr/bin/env python3
"""Mutation testing of the theorems.

For each edit of a model definition (tools/mutants*.json): apply it in a scratch
copy, rebuild; every proof that breaks is replaced by Admitted and the build
repeated, until it is complete.  Then Print Assumptions tells which property
theorems rest on a broken proof.  Results go to stdout, one JSON object a line."""
import json, os, re, subprocess, sys, glob, shutil

SRC = os.environ.get('SRC', '/verif/rocq')
def sh(cmd, cwd, timeout=7200):
    return subprocess.run(cmd, shell=True, cwd=cwd, stdout=subprocess.PIPE, stderr=subprocess.STDOUT, text=True, timeout=timeout).stdout

HEAD = re.compile(r'^\s*(?:Local |Global |#\[.*?\] )?(Lemma|Theorem|Example|Corollary|Fact|Remark|Definition|Fixpoint|Instance|Program \w+)\s+([\w\']+)', re.M)

def admit(path, line):
    s = open(path).read()
    off = sum(len(l) for l in s.splitlines(True)[:line - 1])
    eol = off + len(s.splitlines(True)[line - 1])
    heads = [m for m in HEAD.finditer(s) if m.start() < eol]
    # the last statement starting before the error line whose proof reaches it
    for m in reversed(heads):
        p = s.find('Proof', m.end())
        if p < 0: continue
        nxt = HEAD.search(s, m.end())
        q = re.compile(r'\b(Qed|Defined|Admitted)\.').search(s, p)
        if q is None: continue
        if q.end() < off: return None
        if nxt and nxt.start() < p: continue
        if q.group(1) == 'Admitted': return None
        s2 = s[:p] + 'Proof. Admitted.' + '\n' * s[p:q.end()].count('\n') + s[q.end():]
        open(path, 'w').write(s2)
        return m.group(2), m.group(1)
    return None

def dependents(d, files):
    """the modules that (transitively) require one of the files; no other can be affected"""
    req = {}
    for f in glob.glob(f'{d}/*.v'):
        ws = set()
        for m in re.findall(r'^From Verif Require (?:Import|Export)?([\w\s]+?)\.\s', open(f).read(), re.M): ws |= set(m.split())
        req[os.path.basename(f)[:-2]] = ws
    out = {f[:-2] for f in files}
    while True:
        new = {m for m in req if req[m] & out} - out
        if not new: return out
        out |= new

def run(mut, w):
    shutil.rmtree(w, ignore_errors=True)
    sh(f'cp -a {SRC} {w}', '/')
    sh("sed -i '/RepoTests/d' _CoqProject && coq_makefile -f _CoqProject -o Makefile", w)
    path = f'{w}/theories/{mut["file"]}'
    s = open(path).read()
    if s.count(mut['old']) < 1: return dict(mut, error='old text not found')
    k = mut.get('nth', 0); parts = s.split(mut['old'])
    s = mut['old'].join(parts[:k + 1]) + mut['new'] + mut['old'].join(parts[k + 1:])
    open(path, 'w').write(s)
    for a in mut.get('also', []):
        q = f'{w}/theories/{a["file"]}'; t = open(q).read()
        if a['old'] not in t: return dict(mut, error='old text not found')
        open(q, 'w').write(t.replace(a['old'], a['new'], 1))
    broken = []; stuck = None
    for it in range(60):
        out = sh('make -k -j2 COQC="timeout 1200 coqc" 2>&1', w)
        errs = re.findall(r'File "(?:\./)?(theories/\w+\.v)", line (\d+), characters [\d-]+:\s*\n\s*Error', out)
        if not errs:
            if 'Error' in out: stuck = out[-400:]
            break
        bad = None
        for f, l in dict(errs).items():
            r = admit(f'{w}/{f}', int(l))
            if r is None: bad = f'{f}:{l}'
            else: broken.append(f'{os.path.basename(f)[:-2]}.{r[0]}')
        if bad: stuck = bad; break
    res = dict(mut, broken=broken)
    if stuck: res['stuck'] = stuck
    thms = []; dep = dependents(f'{w}/theories', [mut['file']] + [a['file'] for a in mut.get('also', [])])
    for f in sorted(glob.glob(f'{w}/theories/Props*.v')):
        mod = os.path.basename(f)[:-2]
        if mod not in dep or not os.path.exists(f[:-2] + '.vo'): continue
        for t in re.findall(r'^Theorem (C\d\d_\w+)', open(f).read(), re.M): thms.append((mod, t))
    body = ''.join(f'From Verif Require {m}.\n' for m in sorted({m for m, _ in thms}))
    body += ''.join(f'Goal True. idtac "@@ {t}". Abort.\nPrint Assumptions {m}.{t}.\n' for m, t in thms)
    open(f'{w}/All.v', 'w').write(body)
    out = sh(f'coqc -Q theories Verif All.v', w)
    names = {x.split('.')[1] for x in broken}
    failed = []
    for blk in out.split('@@ ')[1:]:
        t, _, rest = blk.partition('\n')
        if 'Axioms:' in rest:
            ax = set(re.findall(r'^([\w\'.]+)\s*:', rest, re.M)) | set(re.findall(r'^([\w\'.]+)$', rest, re.M))
            if {a.split('.')[-1] for a in ax} & names: failed.append(t.strip())
    res['failed'] = failed
    if stuck:
        done = {t for _, t in thms}
        res['unbuilt'] = [f for f in [os.path.basename(x)[:-2] for x in sorted(glob.glob(f'{w}/theories/Props*.v'))] if not os.path.exists(f'{w}/theories/{f}.vo')]
    return res

if __name__ == '__main__':
    muts = json.load(open(sys.argv[1])); w = sys.argv[2]
    sel = set(sys.argv[3:])
    for m in muts:
        if sel and m['id'] not in sel: continue
        try: r = run(m, w)
        except Exception as e: r = dict(m, error=repr(e))
        print(json.dumps(r), flush=True)
