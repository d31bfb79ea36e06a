#!/usr/bin/env python3
# Prints, for every theorem of MANIFEST.json, the axioms Print Assumptions lists (needs a built rocq/ directory).
import json,re,os,subprocess,tempfile
root=os.path.dirname(os.path.dirname(os.path.abspath(__file__))); th=root+'/rocq/theories'
claims=json.load(open(root+'/MANIFEST.json'))['claims']
names=[]
for c in claims:
    for t in c['theorems']:
        if t not in names: names.append(t)
mod={}
for f in os.listdir(th):
    if f.endswith('.v'):
        s=open(th+'/'+f).read()
        for t in names:
            if re.search(r'^(Theorem|Lemma|Corollary)\s+'+t+r'\b',s,re.M): mod[t]=f[:-2]
src=''.join('From Verif Require %s.\n'%m for m in sorted(set(mod.values())))
for t in names: src+='Definition MARK_%s := tt. Print MARK_%s.\nPrint Assumptions Verif.%s.%s.\n'%(t,t,mod[t],t)
d=tempfile.mkdtemp(); open(d+'/chk.v','w').write(src)
o=subprocess.run(['coqc','-Q',th,'Verif',d+'/chk.v'],stdout=subprocess.PIPE,stderr=subprocess.STDOUT,text=True).stdout
parts=re.split(r'MARK_(\w+)',o); res={}
for i in range(1,len(parts),2):
    if parts[i] in mod:
        ax=re.findall(r'^([\w.]+)\s*:',parts[i+1],re.M); ax=[a for a in ax if not a.startswith('MARK') and a!='Axioms']
        res[parts[i]]=res.get(parts[i],[])+ax
groups={}
for t in names: groups.setdefault(tuple(sorted(set(res[t]))),[]).append(t)
for g,ts in sorted(groups.items(),key=lambda x:len(x[0])):
    print('* '+('Closed under the global context' if not g else ', '.join('`%s`'%a for a in g))+' ('+str(len(ts))+'): '+', '.join('`%s`'%t for t in ts)+'\n')
