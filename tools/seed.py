#!/usr/bin/env python3
"""Test the theorems against a wrong program.

usage: seed.py ORIG WORK FILE OLD NEW
ORIG is a compiled copy of rocq/, WORK a scratch directory.  One definition of the model in FILE is
edited (OLD replaced by NEW, once), and everything that depends on it is rebuilt.  A lemma whose proof
no longer goes through is assumed instead, so that the theorems that need it show up in the output
of Print Assumptions.  Prints the lemmas that failed, the theorems that failed and those that did not.
"""
import os, re, shutil, subprocess, sys, json
orig, work, fname, old, new = sys.argv[1:6]
limit = int(os.environ.get('SEED_LIMIT', '900'))
th = work + '/theories/'
shutil.rmtree(work, ignore_errors=True)
shutil.copytree(orig, work)
files = [l.strip() for l in open(work + '/_CoqProject') if l.strip().endswith('.v')]
files = [os.path.basename(f)[:-2] for f in files]
src = {f: open(th + f + '.v').read() for f in files}
deps = {f: set(re.findall(r'\w+', ' '.join(re.findall(r'From Verif Require(?: Import| Export)?([^.]*)\.', src[f])))) for f in files}
base = fname[:-2]
assert src[base].count(old) == 1, 'pattern occurs %d times' % src[base].count(old)
src[base] = src[base].replace(old, new)
open(th + base + '.v', 'w').write(src[base])
dirty = {base}
for f in files:
    if deps[f] & dirty: dirty.add(f)
for f in dirty:
    try: os.remove(th + f + '.vo')
    except OSError: pass

def run(cmd, cwd, t):
    try:
        p = subprocess.run(cmd, cwd=cwd, capture_output=True, text=True, timeout=t)
        return p.returncode, p.stdout, p.stderr
    except subprocess.TimeoutExpired:
        return 124, '', 'timeout'

decl = re.compile(r'^[ \t]*(?:#\[[^\]]*\] *)?(?:Local |Global |Program )*(Lemma|Theorem|Corollary|Example|Remark|Fact|Instance|Definition|Let|Fixpoint)\s+([\w\']+)', re.M)
endp = re.compile(r'\b(Qed|Defined)\.')
def enclosing(text, pos):
    best = None
    for m in decl.finditer(text):
        if m.start() <= pos: best = m
        else: break
    return best
def sec_vars(f, name):
    """Section variables used by the lemma in the unedited development."""
    text = open(orig + '/theories/' + f + '.v').read()
    m = re.search(r'^[ \t]*(?:Local )?(?:Lemma|Theorem|Example|Corollary|Fact|Remark)\s+' + re.escape(name) + r"(?![\w'])", text, re.M)
    e = endp.search(text, m.start()).end()
    q = '/tmp/seedq_%d.v' % os.getpid()
    open(q, 'w').write(text[:e] + '\nPrint Assumptions ' + name + '.\n')
    rc, out, err = run(['coqtop', '-Q', orig + '/theories', 'Verif', '-batch', '-l', q], orig + '/theories', limit)
    if 'Section Variables:' not in out: return []
    part = out.split('Section Variables:')[-1].split('Axioms:')[0]
    return re.findall(r"^([\w']+)\s*(?::|:=)", part, re.M) + re.findall(r"^([\w']+)$", part, re.M)

failed, passed, broken = [], [], {}
for f in files:
    if f not in dirty: continue
    tries = 0
    while True:
        rc, out, err = run(['coqc', '-Q', 'theories', 'Verif', 'theories/' + f + '.v'], work, limit)
        if rc == 0: break
        m = re.search(r'File "[^"]*", line (\d+), characters (\d+)-(\d+)', err)
        if rc == 124 or not m:
            print('STUCK', f, err[-400:]); sys.exit(1)
        text = open(th + f + '.v').read()
        lines = text.split('\n')
        pos = sum(len(l) + 1 for l in lines[:int(m.group(1)) - 1]) + int(m.group(2))
        d = enclosing(text, pos)
        tries += 1
        if tries > 80 or d is None:
            print('GAVE UP', f, err[-400:]); sys.exit(1)
        s = text.find('Proof', d.start()); e = endp.search(text, d.start())
        name = d.group(2)
        if s < 0 or not (s <= pos < e.end()):
            print('NOT IN A PROOF', f, name, err[-600:]); sys.exit(1)
        vs = sec_vars(f, name)
        text = text[:s] + 'Proof' + (' using ' + ' '.join(vs) if vs else '') + '. Admitted.' + text[e.end():]
        open(th + f + '.v', 'w').write(text)
        failed.append(f + '.' + name)
    if f.startswith('P_'):
        names = re.findall(r'^Print Assumptions (\w+)\.', src[f], re.M)
        chunks = re.split(r'^(?=Axioms:|Closed under the global context)', out, flags=re.M)[1:]
        short = {x.split('.')[1] for x in failed}
        direct = {x.split('.')[1] for x in failed if x.split('.')[0] == f}
        for n, c in zip(names, chunks):
            bad = sorted({x.split('.')[-1] for x in re.findall(r'^([\w.\']+)', c, re.M)} & short)
            if n in direct: bad = ['itself']
            if bad: broken[n] = bad
            else: passed.append(n)
print(json.dumps({'lemmas_failed': failed, 'theorems_failed': sorted(broken), 'theorems_passed': passed}))
