#!/usr/bin/env python3
"""Seeded-bug runner.  Usage: mutate.py MUTATIONS.json [index ...]

Each mutation: {"file": "Cache_Model.v", "definition": ..., "edit": ..., "old": ..., "new": ...,
"claim": ...}.  The theories are copied to a scratch directory outside /verif, the edit is
applied, and every file from the edited one on is recompiled; a proof that no longer goes
through is replaced by Admitted so that the rest can be checked, and finally Print
Assumptions tells which of the property theorems depend on a broken proof.  Appends one
line per mutation to /verif/seeded/LOG.jsonl (unless --dry)."""
import sys, json, re, os, shutil, subprocess, concurrent.futures as cf
SRC = '/verif/rocq/theories'
THM = re.compile(r'^(?:Theorem|Corollary)\s+(C\d+_\w+)', re.M)

def order():
    return [l.strip().split('/')[-1] for l in open('/verif/rocq/_CoqProject') if l.strip().endswith('.v')]

def deps(files):
    """direct imports among our files"""
    d = {}
    for f in files:
        t = open(f'{SRC}/{f}').read()
        names = set()
        for m in re.finditer(r'From Verif Require (?:Import )?([^.]*)\.', t):
            names |= set(m.group(1).split())
        d[f] = {x + '.v' for x in names}
    return d

def coqc(d, f, limit=240):
    try:
        p = subprocess.run(['timeout', str(limit), 'coqc', '-Q', '.', 'Verif', f], cwd=d,
                           capture_output=True, text=True)
        return p.returncode, p.stdout + p.stderr
    except Exception as e:
        return 1, str(e)

def enclosing(text, off):
    """bounds of the proof containing offset, and its lemma name"""
    starts = [m.start() for m in re.finditer(r'\bProof\b', text) if m.start() <= off]
    if not starts: return None
    s = starts[-1]
    m = re.compile(r'\b(Qed|Defined)\.').search(text, s)
    if not m or m.end() < off: return None
    names = list(re.finditer(r'^\s*(?:Local |#\[\w+\] )*(?:Lemma|Theorem|Corollary|Example|Fact|Remark|Definition|Instance)\s+(\w+)', text[:s], re.M))
    return s, m.end(), names[-1].group(1)

def run_one(k, mu):
    d = f'/tmp/mut/m{k}'
    shutil.rmtree(d, ignore_errors=True); os.makedirs(d)
    files = order(); dp = deps(files)
    for f in os.listdir(SRC):
        if f.endswith(('.v', '.vo')): shutil.copy(f'{SRC}/{f}', d)
    t = open(f'{d}/{mu["file"]}').read()
    if t.count(mu['old']) != mu.get('count', 1):
        return k, {'error': f'pattern found {t.count(mu["old"])} times'}
    open(f'{d}/{mu["file"]}', 'w').write(t.replace(mu['old'], mu['new']))
    dirty = {mu['file']}
    broken = []; unbuilt = []
    for f in files:
        if f not in dirty and not (dp[f] & dirty): continue
        dirty.add(f)
        t = open(f'{d}/{f}').read()
        # a limit per sentence, so that diverging tactics are located
        t = re.sub(r'^((?:\(\*.*?\*\)\s*)?)', r'\1Set Default Timeout 40. ', t, count=1, flags=re.S)
        open(f'{d}/{f}', 'w').write(t)
        for _ in range(200):
            rc, out = coqc(d, f)
            if rc == 0: break
            m = re.search(r'line (\d+), characters (\d+)-(\d+):\s*\n\s*(?:Error|Timeout)', out) or \
                re.search(r'line (\d+), characters (\d+)-(\d+):', out)
            if not m: unbuilt.append(f + ': ' + out[-200:]); break
            lines = t.split('\n')
            off = sum(len(l.encode()) + 1 for l in lines[:int(m.group(1)) - 1]) + int(m.group(2))
            off = len(t.encode()[:off].decode(errors='ignore'))
            e = enclosing(t, off)
            if not e: unbuilt.append(f'{f}: {out[-300:]}'); break
            t = t[:e[0]] + 'Admitted.' + t[e[1]:]
            broken.append(e[2])
            open(f'{d}/{f}', 'w').write(t)
        else:
            unbuilt.append(f)
        if unbuilt: break
    failed = []; ok = []
    if not unbuilt:
        for f in files:
            if f in dirty and f.endswith('_Props.v'):
                names = THM.findall(open(f'{d}/{f}').read())
                q = f'From Verif Require Import {f[:-2]}.\n' + ''.join(f'Print Assumptions {n}.\n' for n in names)
                open(f'{d}/Q.v', 'w').write(q)
                rc, out = coqc(d, 'Q.v')
                parts = re.split(r'(?=^Closed under|^Axioms:|^Section Variables:)', out, flags=re.M)[1:]
                for n, p in zip(names, parts):
                    (ok if p.startswith('Closed') else failed).append(n)
    return k, {'broken': broken, 'failed': failed, 'ok': ok, 'unbuilt': unbuilt}

def main():
    args = [a for a in sys.argv[1:] if not a.startswith('--')]
    dry = '--dry' in sys.argv
    mus = json.load(open(args[0]))
    idx = [int(a) for a in args[1:]] or range(len(mus))
    with cf.ThreadPoolExecutor(4) as ex:
        for k, r in ex.map(lambda k: run_one(k, mus[k]), idx):
            mu = mus[k]
            print('=' * 70); print(k, mu['definition'], '|', mu['edit']); print('claim:', mu['claim'])
            if 'error' in r: print('ERROR', r['error']); continue
            print('broken proofs:', ' '.join(r['broken'])); print('FAILED:', ' '.join(r['failed']))
            print('still proved:', ' '.join(r['ok'])); 
            if r['unbuilt']: print('UNBUILT', r['unbuilt'])
            if not dry:
                with open('/verif/seeded/LOG.jsonl', 'a') as f:
                    f.write(json.dumps({'definition': mu['file'] + ':' + mu['definition'], 'edit': mu['edit'],
                        'claim_broken': mu['claim'], 'theorems_failed': r['failed'],
                        'examples_failed': [b for b in r['broken'] if b.startswith(('test_', 'ex_'))],
                        'unbuilt': r['unbuilt'], 'theorems_tightened': mu.get('tightened', [])}) + '\n')
            sys.stdout.flush()
main()
