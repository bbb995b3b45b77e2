#!/usr/bin/env python3
"""Seeded-bug experiment: python3 tools/mutate.py SPEC.json
SPEC: list of {file, old, new, definition, edit, claim, targets:[.v files to rebuild]}.
Copies rocq/ to /tmp/scratch, applies one edit at a time, rebuilds with make -k, reports which theorems fail
(first failing sentence of every failing file), and appends a line to seeded/LOG.jsonl."""
import json,subprocess,sys,os,shutil,re
spec=json.load(open(sys.argv[1]))
SC='/tmp/scratch'
shutil.rmtree(SC,ignore_errors=True); shutil.copytree('/verif/rocq',SC)
subprocess.run('coq_makefile -f _CoqProject -o Makefile && make -j4 >/dev/null 2>&1',shell=True,cwd=SC)
def enclosing(path,line):
    t=open(path).read().split('\n')[:line]
    for l in reversed(t):
        m=re.match(r'\s*(?:Local )?(Theorem|Lemma|Example|Corollary|Fact|Definition|Fixpoint)\s+([\w\']+)',l)
        if m: return m.group(2)
    return '?'
for m in spec:
    f=SC+'/theories/'+m['file']
    src=open(f).read()
    assert src.count(m['old'])>=1,(m['old'],'not found')
    open(f,'w').write(src.replace(m['old'],m['new'],1))
    failed=[]; seen=set()
    for it in range(12):
        r=subprocess.run('make -k -j4 2>&1',shell=True,cwd=SC,capture_output=True,text=True,timeout=3000)
        errs=re.findall(r'File "\./(theories/[^"]+)", line (\d+)',r.stdout)
        errs=[(a,int(b)) for a,b in errs if re.search(re.escape('File "./%s", line %s'%(a,b))+r'[^\n]*\n(?:.*\n)?.*Error',r.stdout)] or [(a,int(b)) for a,b in errs]
        if not errs: break
        for a,b in errs: failed.append(enclosing(SC+'/'+a,b))
        break
    # property files downstream of a failing file could not be rebuilt: their theorems fail too
    props=[]
    if errs:
        for v in sorted(os.listdir('/verif/rocq/theories')):
            if v.endswith('Props.v') and subprocess.run(['make','-q','theories/'+v+'o'],cwd=SC,capture_output=True).returncode!=0:
                props.append(v)
    entry=dict(file=m['file'],definition=m['definition'],edit=m['edit'],claim=m['claim'],
      theorems_failed=sorted(set(failed)),dependent_property_files_failed=props,tightened=m.get('tightened',[]))
    print(json.dumps(entry))
    open('/verif/seeded/LOG.jsonl','a').write(json.dumps(entry)+'\n')
    open(f,'w').write(src)
