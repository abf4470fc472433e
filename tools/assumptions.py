#!/usr/bin/env python3
"""Regenerates section 7 of DESIGN.md: what Print Assumptions lists for each theorem.
Run after a build in /verif/rocq."""
import re,glob,subprocess,os,tempfile
d='/verif/rocq/theories'; mods=[]; ths=[]
for f in sorted(glob.glob(d+'/Properties*.v')):
    m=os.path.basename(f)[:-2]; mods.append(m)
    for x in re.finditer(r'^Theorem\s+(C\d\d\w*)',open(f).read(),re.M): ths.append((m,x.group(1)))
t=tempfile.mkdtemp(); src='\n'.join(f'From Verif Require {m}.' for m in mods)+'\n'
for m,x in ths: src+=f'Goal True. idtac "@@@ {x}". Abort.\nPrint Assumptions Verif.{m}.{x}.\n'
open(t+'/A.v','w').write(src)
o=subprocess.run(['coqc','-Q',d,'Verif','A.v'],cwd=t,capture_output=True,text=True)
assert o.returncode==0,o.stderr
short={'ClassicalDedekindReals.sig_forall_dec':'D','ClassicalDedekindReals.sig_not_dec':'N','FunctionalExtensionality.functional_extensionality_dep':'F','Classical_Prop.classic':'C'}
out=['# What `Print Assumptions` lists for each theorem','',
'Generated by `tools/assumptions.py`. All are axioms of the standard library:','',
'* D = `ClassicalDedekindReals.sig_forall_dec`, N = `ClassicalDedekindReals.sig_not_dec`',
'  and F = `FunctionalExtensionality.functional_extensionality_dep`: the construction of the reals (`Reals`).',
'* C = `Classical_Prop.classic`: used by lemmas of `Reals` (limits, square roots, exponential).',
'* "closed" = no axiom at all.','','| theorem | axioms |','|---|---|']
cnt={}
for b in o.stdout.split('@@@ ')[1:]:
    n,rest=b.split('\n',1)
    ax=re.findall(r'^(\S+)\s*(?::|$)',rest,re.M); ax=[a for a in ax if '.' in a]
    for a in ax: assert a in short,(n,a)
    k=' '.join(sorted(short[a] for a in ax)) or 'closed'
    assert (k=='closed')==('Closed under' in rest),(n,rest)
    cnt[k]=cnt.get(k,0)+1
    out.append(f'| `{n}` | {k} |')
out.insert(9,f'Totals: '+', '.join(f'{v} × ({k})' for k,v in sorted(cnt.items()))+'.\n')
s=open('/verif/DESIGN.md').read(); i=s.index('<!-- ASSUMPTIONS -->')+len('<!-- ASSUMPTIONS -->'); j=s.index('<!-- END -->')
open('/verif/DESIGN.md','w').write(s[:i]+'\n'+'\n'.join(out[2:])+'\n'+s[j:]); print(cnt)
