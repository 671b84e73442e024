import subprocess, sys, json, os, shutil, re
# usage: mut.py batch.json ; each: {def, file, old, new, edit, claim, target}
def run(b, out):
    for m in b:
        w='/tmp/mut/w%d'%os.getpid()
        shutil.rmtree(w, ignore_errors=True)
        shutil.copytree('/verif/rocq', w)
        p=f"{w}/theories/{m['file']}"
        s=open(p).read()
        assert s.count(m['old'])>=1, (m['def'], m['old'])
        s=s.replace(m['old'], m['new'],1); open(p,'w').write(s)
        subprocess.run('coq_makefile -f _CoqProject -o Makefile',shell=True,cwd=w,stdout=subprocess.DEVNULL)
        r=subprocess.run('timeout 2400 make -k -j2 COQC="timeout 300 coqc" '+m.get('target',''),shell=True,cwd=w,capture_output=True,text=True)
        o=r.stdout+r.stderr
        errs=re.findall(r'File "\./(theories/\w+\.v)", line (\d+)[^\n]*\n(?!Warning)',o)
        fails=[]
        for f,l in errs:
            lines=open(f'{w}/{f}').read().split('\n')[:int(l)]
            name='?'
            for x in reversed(lines):
                g=re.match(r'\s*(?:Lemma|Theorem|Example|Definition|Fixpoint|Corollary|Fact)\s+(\w+)',x)
                if g: name=g.group(1);break
            fails.append(f+':'+name)
        fails+=['theories/'+f+'.v:stopped after 300 s' for f in re.findall(r'theories/(\w+)\.vo\] Error 124',o)]
        missing=[f for f in os.listdir(w+'/theories') if f.endswith('.v') and not os.path.exists(w+'/theories/'+f+'o')]
        print(m['def'],'|',m['edit'],'->',fails,missing,flush=True)
        out.write(json.dumps({'m':m,'fails':fails,'missing':missing})+'\n'); out.flush()
        shutil.rmtree(w, ignore_errors=True)
run(json.load(open(sys.argv[1])), open(sys.argv[2],'a'))
