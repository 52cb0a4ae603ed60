#!/usr/bin/env python3
"""mutate.py MUTANTS.json [OUT.jsonl] [JOBS]

Mutation testing of the theorems.  Every mutant is {"id","file","old","new","definition","edit",
"breaks","claims"}: the text [old] of theories/[file] is replaced by [new] in a scratch copy
outside /verif, and everything that depends on the file is rebuilt.  A proof that no longer
compiles is replaced by Admitted and the build goes on, so that at the end Print Assumptions
tells for each theorem whether it rests on a broken proof.  The claims of theorems that do not
rest on a broken proof "survive" the mutant: if the edit makes such a claim false, the theorem is
too weak."""
import json, os, re, shutil, subprocess, sys
from concurrent.futures import ThreadPoolExecutor
ROOT = os.environ.get('MUT_ROOT', '/verif/rocq')  # a built tree; a snapshot lets the work go on
FLAGS = ['-Q', 'theories', 'Verif']
START = re.compile(r'^\s*(?:Local\s+|Global\s+)?(Lemma|Theorem|Example|Corollary|Fact|Remark)\s+([\w\']+)', re.M)
END = re.compile(r'\b(Qed|Defined)\.')

def order():
    fs = [l.strip() for l in open(ROOT + '/_CoqProject') if l.strip().endswith('.v')]
    return [os.path.basename(f)[:-2] for f in fs]

def deps():
    out = subprocess.run(['coqdep', *FLAGS] + ['theories/%s.v' % f for f in order()], cwd=ROOT, capture_output=True, text=True).stdout
    d = {}
    for line in out.splitlines():
        m = re.match(r'theories/(\w+)\.vo[^:]*:(.*)', line)
        if m:
            d[m.group(1)] = set(re.findall(r'theories/(\w+)\.vo\b', m.group(2)))
    return d

def coqc(d, f, timeout):
    try:
        p = subprocess.run(['coqc', *FLAGS, 'theories/%s.v' % f], cwd=d, capture_output=True, text=True, timeout=timeout)
        return p.returncode, p.stdout, p.stderr, None
    except subprocess.TimeoutExpired:
        try:
            p = subprocess.run(['timeout', str(timeout), 'coqc', '-time', *FLAGS, 'theories/%s.v' % f], cwd=d, capture_output=True, text=True)
            ends = re.findall(r'^Chars \d+ - (\d+)', p.stdout, re.M)
            return 1, '', 'TIMEOUT', int(ends[-1]) if ends else 0
        except Exception as e:
            return 1, '', str(e), 0

def run(mut, deps_, order_):
    d = '/tmp/mut/' + mut['id']
    shutil.rmtree(d, ignore_errors=True)
    os.makedirs(d + '/theories')
    for f in order_:
        for ext in ('.v', '.vo', '.glob'):
            p = ROOT + '/theories/' + f + ext
            if os.path.exists(p): shutil.copy2(p, d + '/theories/')
    fn = mut['file'][:-2] if mut['file'].endswith('.v') else mut['file']
    src = open('%s/theories/%s.v' % (d, fn)).read()
    if src.count(mut['old']) != 1:
        return dict(mut, result='INVALID: old text occurs %d times' % src.count(mut['old']))
    open('%s/theories/%s.v' % (d, fn), 'w').write(src.replace(mut['old'], mut['new']))
    dirty, broken, outs = {fn}, [], {}
    todo = []
    for f in order_:
        if f == fn or deps_.get(f, set()) & dirty:
            dirty.add(f); todo.append(f)
    for f in todo:
        path = '%s/theories/%s.v' % (d, f)
        for _ in range(60):
            rc, out, err, pos = coqc(d, f, 400)
            if rc == 0:
                outs[f] = out; break
            text = open(path).read()
            if pos is None:
                m = None
                for m in re.finditer(r'File "[^"]*%s\.v", line (\d+), characters (\d+)-' % f, err): pass
                if m is None:
                    return dict(mut, result='INVALID: %s: %s' % (f, err[-300:]))
                lines = text.splitlines(keepends=True)
                pos = len(''.join(lines[:int(m.group(1)) - 1]).encode()) + int(m.group(2))
            b = text.encode()
            pos = len(b[:pos].decode(errors='ignore'))
            st = None
            for m in START.finditer(text):
                if m.start() <= pos: st = m
                else: break
            if st is None:
                return dict(mut, result='INVALID: %s: %s' % (f, err[-300:]))
            en = END.search(text, st.end())
            pf = text.find('Proof', st.end(), en.end() if en else len(text))
            nxt = START.search(text, st.end())
            if en is None or pf < 0 or pos < pf or pos > en.end() or (nxt and nxt.start() < en.start()):
                return dict(mut, result='INVALID: %s: %s' % (f, err[-300:]))
            broken.append(f + '.' + st.group(2))
            open(path, 'w').write(text[:pf] + 'Admitted.' + text[en.end():])
        else:
            return dict(mut, result='INVALID: too many failures in ' + f)
    names = set(b.split('.')[1] for b in broken)
    failed, survived = [], []
    for f in todo:
        if not f.startswith('Prop'): continue
        text = open('%s/theories/%s.v' % (d, f)).read()
        qs = re.findall(r'Print Assumptions (\w+)\.', text)
        blocks = re.split(r'^(?=Axioms:|Closed under the global context)', outs[f], flags=re.M)[1:]
        for q, bl in zip(qs, blocks):
            ax = set(re.findall(r'^([\w\'.]+)\s*:', bl, re.M))
            bad = [a for a in ax if a.split('.')[-1] in names]
            (failed if bad or q in names else survived).append(q)
    shutil.rmtree(d, ignore_errors=True)
    fc = set(x[:3] for x in failed); sv = set(x[:3] for x in survived)
    miss = [c for c in mut.get('claims', []) if c not in fc]
    return dict(mut, result='ok', broken_proofs=broken, failed=failed, missed=miss, survived_claims=sorted(sv - fc))

def main():
    muts = json.load(open(sys.argv[1]))
    out = sys.argv[2] if len(sys.argv) > 2 else '/tmp/mut.out'
    jobs = int(sys.argv[3]) if len(sys.argv) > 3 else 4
    os.makedirs('/tmp/mut', exist_ok=True)
    dp, od = deps(), order()
    with ThreadPoolExecutor(jobs) as ex, open(out, 'w') as fh:
        for r in ex.map(lambda m: run(m, dp, od), muts):
            fh.write(json.dumps(r) + '\n'); fh.flush()
            print(r['id'], r['result'], 'failed:', len(r.get('failed', [])), 'MISSED:', r.get('missed'), flush=True)
main()
