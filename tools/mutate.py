#!/usr/bin/env python3
"""Apply one edit to a scratch copy of the model and report which theorems
still prove.

usage: mutate.py FILE.json   (a list of objects with keys
  definition, file, old, new, edit, claim)

For each edit, /verif/rocq is copied to a scratch directory, the edit is made,
and the project is rebuilt.  A proof that no longer checks is replaced by
Admitted and the build continues; afterwards `Print Assumptions` tells which
property theorems rest on such a proof.  One line per edit is appended to
/verif/seeded/LOG.jsonl (use --dry to only print).
"""
import json, os, re, shutil, subprocess, sys, time

ROOT = os.environ.get('MUTROOT', '/verif/rocq')
MUT = os.environ.get('MUT', '/tmp/mut')

def sync():
    subprocess.run(['rsync', '-a', '--delete', ROOT + '/', MUT + '/'], check=True) if shutil.which('rsync') else \
        subprocess.run('rm -rf %s && cp -a %s %s' % (MUT, ROOT, MUT), shell=True, check=True)

def make():
    r = subprocess.run('timeout 1500 make -k -j%s 2>&1' % os.environ.get('MUTJ', '4'), shell=True, cwd=MUT, capture_output=True, text=True)
    return r.returncode, r.stdout

ERR = re.compile(r'File "\./(theories/[^"]+)", line (\d+), characters[^\n]*\n(?:Error|In nested|In environment|Unable)', re.M)
ERR2 = re.compile(r'File "\./(theories/[^"]+)", line (\d+), characters \d+-\d+:\n(?!Warning)')
HEAD = re.compile(r'^\s*(?:Local\s+|Global\s+|#\[[^\]]*\]\s*)*(Lemma|Theorem|Corollary|Example|Fact|Remark|Proposition)\s+([\w\']+)')

def admit(path, line):
    lines = open(path).read().split('\n')
    i = line - 1
    k = None
    for j in range(i, -1, -1):
        m = HEAD.match(lines[j])
        if m:
            k, name, kind = j, m.group(2), m.group(1); break
    if k is None:
        return None
    # end of proof
    e = None
    for j in range(k, len(lines)):
        if re.search(r'\b(Qed|Defined)\.', lines[j]):
            e = j; break
        if j > k and HEAD.match(lines[j]): break
    if e is None or e < i:
        return None
    text = '\n'.join(lines[k:e + 1])
    m = re.search(r'\bProof\b[^.]*\.', text)
    if not m: return None
    if k + text[:m.start()].count('\n') > i:
        return None       # the statement itself fails
    new = text[:m.start()] + 'Admitted.' + '\n' * text[m.start():].count('\n')
    lines[k:e + 1] = new.split('\n')
    open(path, 'w').write('\n'.join(lines))
    return name

def props(since):
    """The theorems of the modules that were compiled again: the others do not depend on the edit."""
    out = {}
    for d, _, fs in os.walk(MUT + '/theories'):
        for f in sorted(fs):
            if f.endswith('Props.v'):
                p = os.path.join(d, f)
                if os.path.getmtime(p + 'o') < since: continue
                mod = 'Verif.' + os.path.relpath(p, MUT + '/theories')[:-2].replace('/', '.')
                out[mod] = re.findall(r'^Theorem (C\d\d_\w+)', open(p).read(), re.M)
    return out

def run(m, log):
    sync()
    p = os.path.join(MUT, 'theories', m['file'])
    s = open(p).read()
    if s.count(m['old']) < 1:
        print('NOT FOUND', m['file'], m['old']); return
    if s.count(m['old']) > 1 and not m.get('all'):
        n = m.get('nth', 0)
        parts = s.split(m['old'])
        s = m['old'].join(parts[:n + 1]) + m['new'] + m['old'].join(parts[n + 1:])
    else:
        s = s.replace(m['old'], m['new'])
    since = time.time() - 1
    open(p, 'w').write(s)
    broken, stuck = [], None
    for _ in range(60):
        rc, out = make()
        if rc == 0: break
        seen = set()
        progress = False
        for f, l in re.findall(r'File "\./(theories/[^"]+)", line (\d+), characters \d+-\d+:\s*\n(?:Error|The|In |Unable|Tactic|.*\nError)', out):
            if f in seen: continue
            seen.add(f)
            n = admit(os.path.join(MUT, f), int(l))
            if n:
                broken.append(n); progress = True
            else:
                stuck = '%s:%s' % (f, l)
        if not progress:
            if not seen: stuck = out[-600:]
            break
    failed = []
    if rc == 0:
        for mod, ths in props(since).items():
            if not ths: continue
            q = 'Require Import %s.\n' % mod + ''.join('Print Assumptions %s.\n' % t for t in ths)
            # one file per module; split on theorem
            open(MUT + '/pa.v', 'w').write('Require %s.\n' % mod + ''.join(
                'Eval compute in tt.\nPrint Assumptions %s.%s.\n' % (mod, t) for t in ths))
            o = subprocess.run(['coqc', '-Q', 'theories', 'Verif', 'pa.v'], cwd=MUT, capture_output=True, text=True)
            parts = o.stdout.split('     = tt\n     : unit\n')[1:]
            for t, part in zip(ths, parts):
                names = re.findall(r'^([\w.\']+)\s*:', part, re.M)
                if any(n.split('.')[-1] in broken for n in names): failed.append(t)
    else:
        failed = ['(model or statement no longer compiles: %s)' % stuck]
    rec = dict(definition=m['definition'], edit=m['edit'], claim=m['claim'],
               failed=failed, broken_lemmas=broken[:8], tightened=m.get('tightened', []))
    if 'note' in m: rec['note'] = m['note']
    hit = any(t.startswith(m['claim']) for t in failed)
    print(('ok  ' if hit else 'SURVIVED ') + m['definition'], '|', m['edit'], '|', m['claim'], '|', failed[:6], broken[:4], stuck or '')
    sys.stdout.flush()
    if log:
        os.makedirs('/verif/seeded', exist_ok=True)
        with open('/verif/seeded/LOG.jsonl', 'a') as fh:
            fh.write(json.dumps(rec) + '\n')

if __name__ == '__main__':
    dry = '--dry' in sys.argv
    for m in json.load(open([a for a in sys.argv[1:] if not a.startswith('--')][0])):
        run(m, not dry)
