#!/usr/bin/env python3
"""Mutation testing of the theorems.

usage: mutate.py FILE.json   (list of {"file","old","new","definition","edit","claim"[,"count"]})

For each entry: copy /verif/rocq to a scratch directory, apply the textual edit to the model,
rebuild; each proof that no longer goes through is replaced by Admitted and the build resumed;
the failing theorems are those directly failing plus those that refer, transitively, to an admitted
lemma (read off coqc's .glob files; earlier entries of the log used Print Assumptions).  Appends a JSON line per entry to /verif/seeded/LOG.jsonl."""
import json, os, re, time, shutil, subprocess, sys
SRC = '/tmp/mutbase'; DST = '/tmp/mutscratch'
def sh(c): return subprocess.run(c, shell=True, cwd=DST, stdout=subprocess.PIPE, stderr=subprocess.STDOUT, text=True).stdout
DECL = re.compile(r'^\s*(?:Local |Global )?(Lemma|Theorem|Corollary|Example|Fact|Remark|Instance)\s+(\w+)', re.M)
def fix(fname, line):
    p = os.path.join(DST, fname); s = open(p).read(); lines = s.split('\n')
    pos = sum(len(l) + 1 for l in lines[:line - 1])
    best = None
    for m in DECL.finditer(s):
        if m.start() <= pos + len(lines[line - 1]): best = m
    if best is None: return None
    pr = s.find('Proof', best.start())
    q = re.compile(r'\b(Qed|Defined)\.').search(s, best.start())
    if pr < 0 or q is None or pos > q.end(): return None
    s = s[:pr] + 'Admitted.' + s[q.end():]
    open(p, 'w').write(s)
    return best.group(2)
def dependents(bad):
    """theorems of the Props files that refer, transitively, to an admitted lemma (from coqc's .glob files)"""
    users = {}; thms = []
    for x in sorted(os.listdir(DST + '/theories')):
        if not x.endswith('.glob'): continue
        mod = x[:-5]; text = open(DST + '/theories/' + mod + '.v', 'rb').read().decode('utf-8', 'replace') if os.path.exists(DST + '/theories/' + mod + '.v') else ''
        defs = []; refs = []
        for l in open(DST + '/theories/' + x):
            t = l.split()
            if not t or t[0][0] in 'DF' and ':' not in (t[1] if len(t) > 1 else ''): continue
            if t[0].startswith('R') and ':' in t[0]:
                refs.append((int(t[0][1:].split(':')[0]), t[1].split('.')[-1], t[3].split('.')[-1]))
            elif t[0] in ('prf', 'def', 'thm', 'inst', 'ind', 'rec') and len(t) >= 4:
                defs.append((int(t[1].split(':')[0]), t[3].split('.')[-1]))
        defs.sort(); refs.sort(); i = -1
        for pos, rm, rn in refs:
            while i + 1 < len(defs) and defs[i + 1][0] <= pos: i += 1
            if i >= 0: users.setdefault((rm, rn), set()).add((mod, defs[i][1]))
        if mod.endswith('Props'):
            for m in DECL.finditer(text):
                if m.group(1) in ('Theorem', 'Corollary'): thms.append((mod, m.group(2)))
    seen = set(bad); todo = list(bad)
    while todo:
        for u in users.get(todo.pop(), ()):
            if u not in seen: seen.add(u); todo.append(u)
    return [t for m, t in thms if (m, t) in seen]
def run(e):
    t0 = time.time()
    sh('true') if os.path.isdir(DST) else None
    subprocess.run(['rsync', '-a', '--delete', SRC + '/', DST + '/'], check=False) if shutil.which('rsync') else (shutil.rmtree(DST, ignore_errors=True), shutil.copytree(SRC, DST, copy_function=shutil.copy2))
    f = os.path.join(DST, 'theories', e['file']); s = open(f).read()
    if e['old'] not in s: print('PATTERN NOT FOUND', e['definition'], e['edit'], flush=True); return None
    s = s.replace(e['old'], e['new'], e.get('count', 1)); open(f, 'w').write(s)
    failed = []; failed_at = set(); hard = None
    sh('sed -i /Assumptions.v/d _CoqProject; coq_makefile -f _CoqProject -o Makefile')
    for _ in range(80):
        out = sh("""timeout 1500 make -j4 COQEXTRAFLAGS='-set "Default Timeout=40"' 2>&1""")
        m = re.search(r'File "\./(theories/\w+\.v)", line (\d+)', re.sub(r'File [^\n]*\nWarning.*', '', out))
        if 'Error' not in out: break
        if not m: hard = out[-500:]; break
        nm = fix(m.group(1), int(m.group(2)))
        if nm is None: hard = out[-800:]; break
        failed.append(nm); failed_at.add((os.path.basename(m.group(1))[:-2], nm))
    dep = []
    if hard is None and failed:
        dep = dependents(failed_at)
    return failed, sorted(set(dep)), hard
def main():
    for e in json.load(open(sys.argv[1])):
        r = run(e)
        if r is None: continue
        failed, dep, hard = r
        rec = {"definition": e['definition'], "edit": e['edit'], "claim": e['claim'],
               "theorems_failed": dep, "proofs_failed_directly": failed, "theorems_tightened": e.get('tightened', [])}
        if hard: rec['build_error'] = hard
        print(e['definition'], '|', e['edit'], '->', len(dep), dep[:12], 'DIRECT', failed[:6], ('HARD ' + hard) if hard else '', flush=True)
        if not os.environ.get('DRY'):
            with open('/verif/seeded/LOG.jsonl', 'a') as g: g.write(json.dumps(rec) + '\n')
main()
