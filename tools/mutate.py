"""mutate.py FILE.json: try wrong models.  FILE.json is a list of
{"file","definition","old","new","claim"}; each edit is applied to a scratch copy of rocq/ and everything is rebuilt.
Prints one JSON line per edit; with LOG=1 also appends it to seeded/LOG.jsonl."""
import json, os, re, shutil, subprocess, sys
SRC = os.environ.get('SRC', '/verif/rocq'); DST = os.environ.get('DST', '/tmp/mut/rocq')
DECL = re.compile(r'^\s*(?:Lemma|Theorem|Example|Definition|Fixpoint|Corollary|Fact)\s+([A-Za-z0-9_\']+)')

def decls(path):
    out = []; start = None; name = None; buf = []
    for i, l in enumerate(open(path).read().split('\n'), 1):
        m = DECL.match(l)
        if m and not l.startswith('  '):
            if name: out.append((name, start, i - 1, '\n'.join(buf)))
            name, start, buf = m.group(1), i, []
        buf.append(l)
    if name: out.append((name, start, 10**9, '\n'.join(buf)))
    return out

def enclosing(ds, line):
    for n, a, b, _ in ds:
        if a <= line <= b: return n
    return '?'

def run(m):
    os.makedirs('/tmp/mut', exist_ok=True)
    subprocess.run(['rsync', '-a', '--delete', SRC + '/', DST + '/'], check=True) if shutil.which('rsync') else (
        shutil.rmtree(DST, ignore_errors=True), subprocess.run(['cp', '-a', SRC, DST], check=True))
    p = f'{DST}/theories/{m["file"]}'
    s = open(p).read()
    if s.count(m['old']) < 1: return {'error': 'old text not found', **m}
    n = m.get('nth', 0)
    parts = s.split(m['old'])
    s = m['old'].join(parts[:n + 1]) + m['new'] + m['old'].join(parts[n + 1:])
    open(p, 'w').write(s)
    r = subprocess.run('timeout 1500 make -k -j2', shell=True, cwd=DST, capture_output=True, text=True)
    txt = r.stdout + r.stderr
    errs = re.findall(r'File "\./theories/([A-Za-z0-9]+)\.v", line (\d+)', txt)
    alld = {}
    for f in os.listdir(DST + '/theories'):
        if f.endswith('.v'): alld[f[:-2]] = decls(f'{DST}/theories/{f}')
    failed = []
    for f, line in errs:
        # warnings are also reported this way: keep only those followed by Error
        if re.search(r'File "\./theories/%s\.v", line %s,[^\n]*\n\s*Error' % (f, line), txt):
            failed.append((f, enclosing(alld[f], int(line))))
    failed = list(dict.fromkeys(failed))
    bad = {n for _, n in failed}
    # everything whose text mentions a failed one
    changed = True
    seq = [(f, n, t) for f, ds in alld.items() for n, _, _, t in ds]
    words = {(f, n): set(re.findall(r"[A-Za-z_][A-Za-z0-9_']*", t)) - {n} for f, n, t in seq}
    tainted = set(bad)
    while changed:
        changed = False
        for (f, n), w in words.items():
            if n not in tainted and w & tainted and not f.endswith(('Model', 'Spec')):
                tainted.add(n); changed = True
    thms = sorted(n for n in tainted if re.match(r'C\d\d_', n) and not re.search(r'_ex\d*$', n))
    # examples, checked against statements only
    ex = []
    if failed:
        props = [f for f in alld if f.startswith('Prop') and not os.path.exists(f'{DST}/theories/{f}.vo')]
        subprocess.run('timeout 900 make -k -j2 vos', shell=True, cwd=DST, capture_output=True)
        for f in props:
            q = subprocess.run(['timeout', '300', 'coqc', '-Q', 'theories', 'Verif', '-vok', f'theories/{f}.v'], cwd=DST, capture_output=True, text=True)
            mm = re.search(r'File "\./theories/%s\.v", line (\d+)' % f, q.stderr + q.stdout)
            if q.returncode and mm: ex.append(enclosing(alld[f], int(mm.group(1))))
    return {'definition': m['definition'], 'edit': f'{m["old"].strip()}  ==>  {m["new"].strip()}', 'claim': m['claim'],
            'failed_first': [f'{f}.{n}' for f, n in failed], 'theorems_failed': thms, 'checked_statement_failed': sorted(set(ex)),
            'survived': not failed, 'tightened': m.get('tightened', [])}

for m in json.load(open(sys.argv[1])):
    o = run(m)
    print(json.dumps(o), flush=True)
    if os.environ.get('LOG') and 'error' not in o:
        open('/verif/seeded/LOG.jsonl', 'a').write(json.dumps(o) + '\n')
