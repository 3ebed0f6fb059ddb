#!/usr/bin/env python3
"""Mutation testing of the model.  usage: mutate.py MUTFILE
MUTFILE: python list M of dicts: file, old, new, definition, claim (English claim broken), props (ids).
Builds a scratch copy outside /verif and appends one JSON line per mutation to seeded/LOG.jsonl."""
import sys, os, json, subprocess, re, shutil
src='/tmp/mutsrc'; dst='/tmp/mut'
subprocess.run(f'rm -rf {src}; cp -a /verif/rocq {src}', shell=True)  # snapshot
ns={}; exec(open(sys.argv[1]).read(), ns)
log=open('/verif/seeded/LOG.jsonl','a')
def enclosing(path,line):
    L=open(path).read().split('\n'); name='?'
    for i in range(min(line,len(L))):
        m=re.match(r'\s*(Theorem|Lemma|Example|Corollary|Definition|Fixpoint)\s+(\w+)',L[i])
        if m: name=m.group(2)
    return name
for m in ns['M']:
    subprocess.run(f'rm -rf {dst}; cp -a {src} {dst}', shell=True)
    f=f"{dst}/theories/{m['file']}"; s=open(f"{src}/theories/{m['file']}").read()
    if s.count(m['old'])<1: print('NOT FOUND', m['definition'], m['old']); continue
    open(f,'w').write(s.replace(m['old'],m['new'],1))
    r=subprocess.run(f'cd {dst} && coq_makefile -f _CoqProject -o Makefile >/dev/null && timeout 240 make -j3 2>&1', shell=True, capture_output=True, text=True)
    failed=[]
    for e in re.finditer(r'File "\./theories/([\w]+\.v)", line (\d+).*?\n(.*)', r.stdout):
        if 'Warning' in e.group(3): continue
        failed.append(e.group(1)[:-2]+'.'+enclosing(f'{dst}/theories/{e.group(1)}',int(e.group(2))))
    rec=dict(definition=m['definition'],file=m['file'],edit=m['old']+'  ==>  '+m['new'],claim_broken=m['claim'],
             theorems_failed=sorted(set(failed)),outcome='caught' if r.returncode!=0 and failed else ('SURVIVED' if r.returncode==0 else 'timeout' if r.returncode==124 else 'build error'),
             theorems_tightened=m.get('tightened',[]))
    if m.get('note'): rec['note']=m['note']
    log.write(json.dumps(rec)+'\n'); log.flush()
    print(rec['outcome'], m['file'], m['definition'], sorted(set(failed)), flush=True)
