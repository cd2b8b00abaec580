#!/usr/bin/env python3
"""Test the theorems against wrong programs.

For each mutant of tools/mutants.py: edit one model definition in a scratch copy of /verif/rocq,
rebuild, cut every proof that no longer goes through off with Admitted at the failing sentence, and
print which theorems and examples of the Props files with theorems of the contradicted property
then rest on an admitted proof (of all Props files with ALL=1 in the environment).  Results go to
/tmp/mut/results/<id>.json; nothing under /verif is touched.

  mutate.py ID...      run these mutants (all without a result when no ID is given)
  mutate.py --slot K N run every N-th mutant without a result, from the K-th, in an own directory
"""
import json, os, re, shutil, subprocess, sys, time

SRC, BASE, WORK, RES = '/verif/rocq', '/tmp/mut/base', '/tmp/mut/work', '/tmp/mut/results'
JOBS = '2'
ALL = os.environ.get('ALL')
sys.path.insert(0, os.path.dirname(__file__))
from mutants import MUTANTS

def sh(cmd, cwd=None, timeout=None):
    p = subprocess.run(['bash', '-c', cmd], cwd=cwd, stdout=subprocess.PIPE, stderr=subprocess.STDOUT, timeout=timeout)
    return p.returncode, p.stdout.decode(errors='replace')

def props():
    """(module, theorem) for every statement of the Props files."""
    out = []
    for f in sorted(os.listdir(BASE + '/theories')):
        if f.startswith('Props') and f.endswith('.v'):
            for m in re.finditer(r'^\s*(?:Theorem|Lemma|Example|Corollary)\s+([\w\']+)', open(f'{BASE}/theories/{f}').read(), re.M):
                out.append((f[:-2], m.group(1)))
    return out

def base():
    shutil.rmtree(BASE, ignore_errors=True)
    shutil.copytree(SRC, BASE)           # copy2: keeps the timestamps
    code, out = sh('coq_makefile -f _CoqProject -o Makefile && make -j4', BASE)
    assert code == 0, out[-3000:]

def blank(t):
    """The text with comments and strings blanked out, same length."""
    o, i, d = list(t), 0, 0
    while i < len(t):
        if t.startswith('(*', i): d += 1; o[i] = o[i+1] = ' '; i += 2; continue
        if d and t.startswith('*)', i): d -= 1; o[i] = o[i+1] = ' '; i += 2; continue
        if t[i] == '"':
            j = t.index('"', i + 1)
            for k in range(i, j + 1):
                if t[k] != '\n': o[k] = '_' if not d else ' '
            i = j + 1; continue
        if d and t[i] != '\n': o[i] = ' '
        i += 1
    return ''.join(o)

def cut(path, pos, log):
    """Cut the proof containing byte offset pos with Admitted.  Returns the name, or None outside a proof."""
    t = open(path).read(); b = blank(t)
    heads = [m for m in re.finditer(r'(?:^|(?<=\s))(?:#\[[^\]]*\]\s*)?(?:Local |Global )?(Theorem|Lemma|Example|Corollary|Fact|Remark|Instance|Definition|Fixpoint|Inductive|Record|Section|End|Let)\s+([\w\']+)', b) if m.start() <= pos]
    proofs = [m for m in re.finditer(r'\bProof\b(?: using[^.]*)?\.', b) if m.start() <= pos]
    if not heads or not proofs or proofs[-1].start() < heads[-1].start(): return None
    start = proofs[-1].end()
    q = re.compile(r'\b(Qed|Defined)\.').search(b, start)
    if q is None or q.start() < pos and not (q.start() <= pos <= q.end()): return None
    ends = [m.end() for m in re.finditer(r'\.(?=\s)', b[start:pos + 1])]
    # the failing sentence starts after the last sentence end strictly before pos
    k = start + (max([e for e in ends if start + e <= pos], default=0))
    open(path, 'w').write(t[:k] + ' Admitted.' + t[q.end():])
    log.append(f'{os.path.basename(path)}:{heads[-1].group(2)}')
    return heads[-1].group(2)

def offset(path, line, col):
    """Character offset of a byte position."""
    data = open(path, 'rb').read().split(b'\n')
    raw = b'\n'.join(data[:line - 1]) + (b'\n' if line > 1 else b'') + data[line - 1][:col]
    return len(raw.decode())

def stalled(f):
    """Where coqc_watch.py stopped."""
    mark = f'{WORK}/theories/{f}.stall'
    last = int(open(mark).read()) if os.path.exists(mark) else 0
    t = open(f'{WORK}/theories/{f}').read()
    pos = len(open(f'{WORK}/theories/{f}', 'rb').read()[:last].decode())
    while pos < len(t) and t[pos].isspace(): pos += 1
    return pos + 1

def own(mu):
    """The Props modules with theorems of the mutant's property."""
    return sorted({m for m, n in props() if n.startswith(mu['prop'])})

def run(mu):
    mods = own(mu); targets = '' if ALL else ' '.join(f'theories/{m}.vo' for m in mods)
    t0 = time.time(); log = []; stuck = None
    shutil.rmtree(WORK, ignore_errors=True); shutil.copytree(BASE, WORK)
    path = f'{WORK}/theories/{mu["file"]}'
    t = open(path).read()
    for old, new in mu['edits']:
        assert t.count(old) == 1, (mu['id'], t.count(old), old)
        t = t.replace(old, new)
    open(path, 'w').write(t)
    for it in range(200):
        code, out = sh(f'ulimit -v 9000000; make -k -j{JOBS} {targets} COQC="{os.path.abspath(os.path.dirname(__file__))}/coqc_watch.py"', WORK)
        if code == 0: break
        errs = {}
        for m in re.finditer(r'File "\./theories/(\w+\.v)", line (\d+), characters (\d+)-\d+:\s*\nError', out):
            errs.setdefault(m.group(1), (int(m.group(2)), int(m.group(3))))
        failed = set(re.findall(r'\*\*\* \[[^\]]*: theories/(\w+)\.vo\]', out))
        progress = False
        for f in sorted(failed):
            fv = f + '.v'; p = f'{WORK}/theories/{fv}'
            if fv in errs: pos = offset(p, *errs[fv])
            else: pos = stalled(fv)
            n = cut(p, pos, log)
            if n is None: stuck = f'{fv}:{errs.get(fv)}'
            else: progress = True
        if not progress:
            if stuck is None: stuck = out[-1500:]
            break
    else: stuck = 'too many rounds'
    failed, ok = [], []
    # statements of the files that were not rebuilt are untouched
    rebuilt = lambda m: os.path.getmtime(f'{WORK}/theories/{m}.vo') != os.path.getmtime(f'{BASE}/theories/{m}.vo')
    if stuck is None:
        ps = [(m, n) for m, n in props() if ALL or m in mods]
        ok = [f'{m}.{n}' for m, n in ps if not rebuilt(m)]
        ps = [(m, n) for m, n in ps if rebuilt(m) and re.match(r'C\d\d', n)]
        procs = []
        for k in range(4):
            part = ps[k::4]
            with open(f'{WORK}/theories/MutCheck{k}.v', 'w') as h:
                for m in sorted({m for m, _ in part}): h.write(f'From Verif Require {m}.\n')
                for m, n in part: h.write(f'Goal True. idtac "@@ {m}.{n}". exact I. Qed.\nPrint Assumptions Verif.{m}.{n}.\n')
            procs.append(subprocess.Popen(['coqc', '-Q', 'theories', 'Verif', f'theories/MutCheck{k}.v'], cwd=WORK, stdout=subprocess.PIPE, stderr=subprocess.STDOUT))
        for p in procs:
            out = p.communicate()[0].decode()
            if p.returncode != 0: stuck = out[-1500:]
            for part in out.split('@@ ')[1:]:
                n, rest = part.split('\n', 1)
                (ok if 'Closed under the global context' in rest else failed).append(n.strip())
    r = dict(id=mu['id'], stuck=stuck, failed=failed, survived=ok, admitted=log, seconds=round(time.time() - t0))
    os.makedirs(RES, exist_ok=True)
    json.dump(r, open(f'{RES}/{mu["id"]}.json', 'w'), indent=1)
    print(mu['id'], 'STUCK ' + str(stuck)[:300] if stuck else '', r['seconds'], 's; admitted', len(log), '; failed', [x.split('.')[1] for x in failed], flush=True)

if __name__ == '__main__':
    ids = sys.argv[1:]
    if ids == ['--base']: base(); sys.exit()
    part = MUTANTS
    if ids[:1] == ['--slot']:
        part = MUTANTS[int(ids[1])::int(ids[2])]; WORK += ids[1]; ids = []
    for mu in part:
        if (ids and mu['id'] in ids) or (not ids and not os.path.exists(f'{RES}/{mu["id"]}.json')):
            try: run(mu)
            except Exception as e: print(mu['id'], 'EXC', repr(e), flush=True)
