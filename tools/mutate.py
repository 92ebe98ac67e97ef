#!/usr/bin/env python3
"""Runs wrong-program edits of the model in a scratch copy and appends the outcome to seeded/LOG.jsonl.

usage: mutate.py edits.json   (a list of {definition, file, old, new, edit, claim, expect})
`expect` is the property id whose theorems should stop proving; `tightened` may list theorems changed afterwards.
Edits already present in the log (same definition and edit) are skipped.
"""
import json, os, re, shutil, subprocess, sys
root = os.path.dirname(os.path.dirname(os.path.abspath(__file__)))
scratch = os.environ.get('SCRATCH', '/tmp/mut')
log = os.path.join(root, 'seeded', 'LOG.jsonl')
done = set()
if os.path.exists(log):
    for l in open(log):
        if l.strip():
            d = json.loads(l); done.add((d['definition'], d['edit']))
edits = json.load(open(sys.argv[1]))
work = os.path.join(scratch, 'rocq')
base = os.path.join(scratch, 'base')   # snapshot: the tree may change while this runs
shutil.rmtree(base, ignore_errors=True)
os.makedirs(scratch, exist_ok=True)
subprocess.run(['cp', '-a', os.path.join(root, 'rocq'), base], check=True)

def enclosing(path, line):
    name = '?'
    for i, l in enumerate(open(path)):
        if i >= line: break
        m = re.match(r'\s*(?:Theorem|Lemma|Corollary|Example|Definition|Fixpoint|Fact|Remark)\s+(\w+)', l)
        if m: name = m.group(1)
    return name

for e in edits:
    if (e['definition'], e['edit']) in done: continue
    shutil.rmtree(work, ignore_errors=True)
    subprocess.run(['cp', '-a', base, work], check=True)
    f = os.path.join(work, 'theories', e['file'])
    s = open(f).read()
    if s.count(e['old']) != 1:
        print('BAD PATTERN', s.count(e['old']), e['definition'], e['old']); continue
    open(f, 'w').write(s.replace(e['old'], e['new']))
    subprocess.run('coq_makefile -f _CoqProject -o Makefile', shell=True, cwd=work, capture_output=True)
    try:
        # rebuild the property files concerned (and what they depend on)
        targets = ' '.join(l.strip()[:-2] + '.vo' for l in open(os.path.join(work, '_CoqProject'))
                           if re.match(r'theories/Props/(%s)_' % e['expect'], l))
        r = subprocess.run('make -k -j2 ' + targets, shell=True, cwd=work, capture_output=True, text=True, timeout=1500)
        out = r.stdout + r.stderr
    except subprocess.TimeoutExpired as x:
        out = 'TIMEOUT'
    failed = []
    for m in re.finditer(r'File "\./(theories/[^"]+)", line (\d+)[^\n]*\nError', out):
        failed.append((m.group(1), enclosing(os.path.join(work, m.group(1)), int(m.group(2)))))
    lost = []
    for l in open(os.path.join(work, '_CoqProject')):
        l = l.strip()
        if not re.match(r'theories/Props/(%s)_' % e['expect'], l): continue
        vo = os.path.join(work, l[:-2] + '.vo')
        if os.path.exists(vo) and os.path.getmtime(vo) > os.path.getmtime(f): continue   # rebuilt: all survived
        names = re.findall(r'^(?:Theorem|Corollary)\s+(C\d+_\w+)', open(os.path.join(work, l)).read(), re.M)
        direct = [n for (p, n) in failed if p == l]
        if direct and direct[0] in names: names = names[names.index(direct[0]):]
        elif direct and re.match(r'C\d+_.*(witness|example)', direct[0]): names = []
        lost += names
    rec = {'definition': e['definition'], 'edit': e['edit'], 'claim': e['claim'],
           'theorems_failed': lost,
           'first_broken': sorted(set(n for (_, n) in failed)),
           'theorems_tightened': e.get('tightened', [])}
    verdict = 'caught' if rec['theorems_failed'] else 'SURVIVED'
    print(verdict, e['definition'], '|', e['edit'], '|', rec['first_broken'], flush=True)
    if verdict == 'caught' or e.get('log_anyway'):
        if e.get('note'): rec['note'] = e['note']
        open(log, 'a').write(json.dumps(rec) + '\n')
