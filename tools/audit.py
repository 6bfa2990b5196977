import json,re,glob,subprocess,collections,os
T='/verif/rocq/theories'
man=json.load(open('/verif/MANIFEST.json'))
where={}
for f in sorted(glob.glob(T+'/Props_*.v')):
    m=os.path.basename(f)[:-2]
    for x in re.findall(r'^(?:Theorem|Lemma|Corollary)\s+(C\d{2,3}\w*)',open(f).read(),re.M): where[x]=m
mods=sorted(set(where.values()))
out=['(* Print Assumptions for every theorem of MANIFEST.json (generated). The output is summarised in /verif/ASSUMPTIONS.md. *)']
out+=['From Verif Require %s.'%m for m in mods]
ths=[t for c in man['claims'] for t in c['theorems']]
for t in ths: out.append('Print Assumptions Verif.%s.%s.'%(where[t.split('.')[-1]],t.split('.')[-1]))
open('/tmp/Audit.v','w').write('\n'.join(out)+'\n')
r=subprocess.run('cd /verif/rocq && coqc -Q theories Verif /tmp/Audit.v',shell=True,capture_output=True,text=True)
print(r.stderr[-300:])
# split the output per theorem
blocks=re.split(r'^(?=Axioms:|Closed under the global context)',r.stdout,flags=re.M)[1:]
assert len(blocks)==len(ths),(len(blocks),len(ths))
res=collections.OrderedDict()
for t,b in zip(ths,blocks):
    if b.startswith('Closed'): ax=()
    else: ax=tuple(sorted(set(re.findall(r'^([A-Za-z_][\w.]*)(?:\s*:|\s*$)',b[len('Axioms:'):],re.M))))
    res.setdefault(ax,[]).append(t)
L=['# Assumptions of every theorem','','Output of `Print Assumptions` for the %d theorems of MANIFEST.json, grouped (by tools/audit.py).'%len(ths),'']
for ax,tt in sorted(res.items(),key=lambda p:(len(p[0]),p[0])):
    L.append('## '+('Closed under the global context' if not ax else ', '.join('`%s`'%a for a in ax)))
    L.append(''); L.append('%d theorems: %s'%(len(tt),', '.join(tt))); L.append('')
open('/verif/ASSUMPTIONS.md','w').write('\n'.join(L))
for ax,tt in res.items(): print(len(tt),ax)
