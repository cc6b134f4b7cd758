#!/usr/bin/env python3
"""Systematic mutation of the models.  Usage: automutate.py OUT.jsonl [FILE ...]

Every occurrence of the patterns below in a definition of a *_Model.v file is replaced, one at a
time, in a scratch copy of the theories; the files that depend on it are recompiled up to the first
error.  One JSON line per mutant: the definition, the edit, and the first proof that fails
(or null if everything still compiles: a survivor, to be looked at by hand).
Environment: WORKERS, SHUFFLE (a seed), DONE (earlier results, not repeated)."""
import sys, json, re, os, random, shutil, subprocess, threading, queue
SRC = '/verif/rocq/theories'
SNAP = '/tmp/auto/snap'
WORKERS = int(os.environ.get('WORKERS', '3'))

PATTERNS = [
    (r'<\?', '<=?'), (r'<=\?', '<?'), (r'=\?', '<=?'),
    (r'Nat\.ltb', 'Nat.leb'), (r'Nat\.leb', 'Nat.ltb'), (r'Nat\.eqb', 'Nat.leb'),
    (r'&&', '||'), (r'\|\|', '&&'), (r'\bnegb ', ''), (r'\btrue\b', 'false'), (r'\bfalse\b', 'true'),
    (r'\bS \(', '('), (r' \+ ', ' - '), (r' - ', ' + '), (r'\b0%nat', '1%nat'), (r'\b1%nat', '0%nat'),
    (r'(?<=[ (])0(?=[ ;)])', '1'), (r'(?<=[ (])1(?=[ ;)])', '0'),
    (r'\+\+ \[(\w+)\]', r'++ []'), (r'\b(\w+) \+\+ \[(\w+)\]', r'[\2] ++ \1'), (r'\b(\w+) \+\+ (\w+)\b', r'\2 ++ \1'),
    (r'\btl \(', '('), (r'\bskipn\b', 'firstn'), (r'\bfirstn\b', 'skipn'), (r'\brev \(', '('), (r'\brev (\w)', r'\1'),
    (r'\bupd (\w+) ', r'upd (S \1) '), (r'\bexistsb\b', 'forallb'), (r'\bforallb\b', 'existsb'),
    (r'\bcstart\b', 'cend'), (r'\bcend\b', 'cstart'), (r'\blast_in\b', 'last_out'), (r'\blast_out\b', 'last_in'),
    (r'\bSome (\w+) => Ok', r'Some \1 => id (@Err _ UB) ; Ok'),
    (r'\bOk \[\]', 'Err UB'), (r'\bSystemClock\b', 'RosClock'), (r'\bRosClock\b', 'SystemClock'),
    (r'\bif \(?(\w+)\)? then\b', r'if negb \1 then'),
    (r'\bfst\b', 'snd'), (r'\bsnd\b', 'fst'), (r'\bAssertFailed\b', 'UB'), (r'\bThrown\b', 'UB'),
    (r'\bmap2 (\w+)', r'map2 (fun a b => \1 b a)'),
]

def order():
    return [l.strip().split('/')[-1] for l in open('/verif/rocq/_CoqProject') if l.strip().endswith('.v')]
def deps(files):
    d = {}
    for f in files:
        t = open(f'{SNAP}/{f}').read()
        names = set()
        for m in re.finditer(r'From Verif Require (?:Import )?([^.]*)\.', t):
            names |= set(m.group(1).split())
        d[f] = {x + '.v' for x in names}
    return d

def definitions(t):
    """spans of Definition/Fixpoint sentences outside comments"""
    blank = re.sub(r'\(\*.*?\*\)', lambda m: re.sub(r'[^\n]', ' ', m.group(0)), t, flags=re.S)
    for m in re.finditer(r'^\s*(?:Definition|Fixpoint)\s+(\w+).*?\.(?=\s)', blank, re.M | re.S):
        yield m.group(1), m.start(), m.end(), blank

def mutants(f):
    t = open(f'{SNAP}/{f}').read()
    for name, a, b, blank in definitions(t):
        k = blank.find(':=', a, b)
        if k < 0: continue
        for pat, rep in PATTERNS:
            for m in re.finditer(pat, blank[k:b]):
                old, new = m.group(0), m.expand(rep)
                if pat == r'=\?' and blank[k + m.start() - 1] == '<': continue
                if pat == r'<\?' and False: continue
                s, e = k + m.start(), k + m.end()
                ctx = blank[max(k, s - 30):min(b, e + 30)].replace('\n', ' ')
                yield dict(file=f, definition=name, line=t.count('\n', 0, s) + 1, old=old, new=new,
                           context=re.sub(r'\s+', ' ', ctx), text=t[:s] + new + t[e:])

def lemma_at(t, line):
    names = re.findall(r'^\s*(?:Lemma|Theorem|Corollary|Example|Definition|Fixpoint)\s+(\w+)',
                       '\n'.join(t.split('\n')[:line]), re.M)
    return names[-1] if names else '?'

def work(w, q, out, lock, files, dp):
    d = f'/tmp/auto/w{w}'
    shutil.rmtree(d, ignore_errors=True); shutil.copytree(SNAP, d)
    while True:
        try: mu = q.get_nowait()
        except queue.Empty: return
        text = mu.pop('text')
        open(f'{d}/{mu["file"]}', 'w').write(text)
        dirty = set(); res = None
        for f in files:
            if f != mu['file'] and not (dp[f] & dirty): continue
            dirty.add(f)
            p = subprocess.run(['timeout', '300', 'coqc', '-Q', '.', 'Verif', f], cwd=d, capture_output=True, text=True)
            if p.returncode:
                m = re.search(r'line (\d+), characters', p.stderr)
                if f == mu['file']:
                    res = 'ill-typed' if m else 'timeout'
                    if m: res = 'ill-typed'
                else: res = f[:-2] + '.' + (lemma_at(open(f'{d}/{f}').read(), int(m.group(1))) if m else 'timeout')
                break
        mu['first_failure'] = res
        for f in dirty:
            for x in (f, f + 'o'):
                shutil.copy2(f'{SNAP}/{x}', f'{d}/{x}')
        with lock:
            if res != 'ill-typed':
                with open(out, 'a') as g: g.write(json.dumps(mu) + '\n')

def main():
    out = sys.argv[1]
    shutil.rmtree(SNAP, ignore_errors=True); os.makedirs(SNAP)
    for f in os.listdir(SRC):
        if f.endswith(('.v', '.vo')): shutil.copy2(f'{SRC}/{f}', SNAP)
    files = order(); dp = deps(files)
    todo = sys.argv[2:] or [f for f in files if f.endswith('_Model.v') or f == 'RclTime.v']
    skip = set()
    for x in os.environ.get('DONE', '').split():
        for l in open(x):
            m = json.loads(l); skip.add((m['file'], m['definition'], m['line'], m['old'], m['new'], m['context']))
    mus = [mu for f in todo for mu in mutants(f)
           if (mu['file'], mu['definition'], mu['line'], mu['old'], mu['new'], mu['context']) not in skip]
    if os.environ.get('SHUFFLE'): random.Random(int(os.environ['SHUFFLE'])).shuffle(mus)
    q = queue.Queue()
    for mu in mus: q.put(mu)
    print(len(mus), 'mutants', flush=True)
    lock = threading.Lock()
    ts = [threading.Thread(target=work, args=(w, q, out, lock, files, dp)) for w in range(WORKERS)]
    for t in ts: t.start()
    for t in ts: t.join()
if __name__ == '__main__': main()
