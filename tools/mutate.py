#!/usr/bin/env python3
"""Apply one edit to a scratch copy of the model and report which property theorems fail.

usage: mutate.py JOBS.json   (a list of {id,file,old,new,definition,edit,claim,expect})
Every lemma whose proof no longer checks is admitted in the scratch copy, so that the build
goes on; a property theorem "failed" when Print Assumptions shows such a lemma under it."""
import json, os, re, subprocess, sys, shutil

SRC = os.environ.get('MUTSRC', '/verif/rocq')
WORK = os.environ.get('MUTDIR', '/tmp/mut')
J = os.environ.get('MUTJ', '3')


def sh(cmd, cwd):
    return subprocess.run(cmd, shell=True, cwd=cwd, stdout=subprocess.PIPE, stderr=subprocess.STDOUT, text=True).stdout


def build():
    return sh(f'timeout 3000 make -k -j{J} 2>&1', WORK + '/rocq')


def admit(fn, line):
    p = WORK + '/rocq/' + fn
    src = open(p).read()
    lines = src.split('\n')
    off = sum(len(x) + 1 for x in lines[:line - 1])
    start = None
    for m in re.finditer(r'^[ \t]*(?:Local |Global |#\[[^\]]*\] *)*(Lemma|Theorem|Example|Corollary|Fact|Remark|Instance|Definition|Fixpoint)\s+([\w\']+)', src, re.M):
        if m.start() <= off + len(lines[line - 1]):
            start = m
    if start is None:
        return None
    name = start.group(2)
    pm = re.compile(r'\bProof\b[^.]*\.').search(src, start.start())
    if not pm:
        return None
    em = re.compile(r'\b(Qed|Defined|Admitted)\s*\.').search(src, pm.end())
    if not em or em.group(1) == 'Admitted' or em.end() < off:
        return None
    src = src[:pm.start()] + 'Proof. Admitted.' + '\n' * src[pm.start():em.end()].count('\n') + src[em.end():]
    open(p, 'w').write(src)
    return name


def prop_theorems():
    out = []
    d = WORK + '/rocq/theories'
    for f in sorted(os.listdir(d)):
        if f.startswith('Prop') and f.endswith('.v'):
            for m in re.finditer(r'^Theorem (C\d\d_\w+)', open(d + '/' + f).read(), re.M):
                out.append((f[:-2], m.group(1)))
    return out


def affected(mods):
    """the modules that import one of mods, directly or not"""
    d = WORK + '/rocq/theories'
    deps = {}
    for f in os.listdir(d):
        if f.endswith('.v'):
            deps[f[:-2]] = {x for m in re.finditer(r'From Verif Require (?:Import|Export)?([^.]*)\.', open(d + '/' + f).read()) for x in m.group(1).split()}
    out = set(mods)
    while True:
        new = {m for m in deps if m not in out and deps[m] & out}
        if not new:
            return out
        out |= new


def run(job):
    os.makedirs(WORK, exist_ok=True)
    sh(f'rsync -a --delete {SRC}/ {WORK}/rocq/ 2>/dev/null || (rm -rf {WORK}/rocq && cp -a {SRC} {WORK}/rocq)', '/')
    p = f'{WORK}/rocq/theories/{job["file"]}'
    src = open(p).read()
    if src.count(job['old']) != job.get('count', 1):
        return {**job, 'error': f'old text occurs {src.count(job["old"])} times'}
    open(p, 'w').write(src.replace(job['old'], job['new']))
    admitted, stuck = [], []
    for _ in range(60):
        out = build()
        errs = re.findall(r'File "\./(theories/\w+\.v)", line (\d+), characters \d+-\d+:\nError', out)
        if not errs:
            if 'Error' in out:
                stuck.append(out[-600:])
            break
        prog = False
        for fn, ln in errs:
            nm = admit(fn, int(ln))
            if nm:
                admitted.append(f'{fn[9:-2]}.{nm}')
                prog = True
            else:
                stuck.append(f'{fn}:{ln}')
        if not prog:
            break
    failed = []
    ths = prop_theorems()
    touched = affected({a.split('.')[0] for a in admitted})
    ths = [t for t in ths if t[0] in touched or not os.path.exists(f'{WORK}/rocq/theories/{t[0]}.vo')]
    built = [t for t in ths if os.path.exists(f'{WORK}/rocq/theories/{t[0]}.vo')]
    unbuilt = [t[1] for t in ths if t not in built]
    chk = 'From Verif Require ' + ' '.join(sorted({t[0] for t in built})) + '.\n'
    for mod, t in built:
        chk += f'Goal True. idtac "@@ {t}". exact I. Qed.\nPrint Assumptions Verif.{mod}.{t}.\n'
    open(f'{WORK}/Chk.v', 'w').write(chk)
    out = sh('coqc -Q theories Verif ../Chk.v', WORK + '/rocq')
    names = {a.split('.')[-1] for a in admitted}
    for part in out.split('@@ ')[1:]:
        t = part.split('\n')[0].strip()
        ax = set(re.findall(r'^([\w.\']+)\s*(?::|$)', part, re.M))
        if any(a.split('.')[-1] in names for a in ax):
            failed.append(t)
    res = {k: job[k] for k in ('id', 'definition', 'edit', 'claim') if k in job}
    res['file'] = job['file']
    res['theorems_failed'] = failed + [u + ' (not reached)' for u in unbuilt]
    res['lemmas_failed'] = admitted
    if stuck:
        res['stuck'] = stuck[:3]
    res['expected'] = job.get('expect', [])
    res['caught'] = all(any(f.startswith(e) for f in failed + unbuilt) for e in job.get('expect', []))
    res['theorems_tightened'] = []
    return res


if __name__ == '__main__':
    for job in json.load(open(sys.argv[1])):
        r = run(job)
        print(json.dumps(r), flush=True)
        open(WORK + '.out.jsonl', 'a').write(json.dumps(r) + '\n')
