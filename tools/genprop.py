#!/usr/bin/env python3
"""usage: genprop.py Out.v < spec ; lines: 'theorem NAME lemma FILE' / raw text blocks"""
import re,sys,glob
src={}
for f in glob.glob('/verif/rocq/theories/*.v'):
    if '/Prop' in f: continue
    t=open(f).read()
    for m in re.finditer(r'^(?:Theorem|Lemma)\s+(\w+)\s*:\s*(.*?)\.\s*\nProof',t,re.S|re.M):
        src[m.group(1)]=m.group(2)
out=[]
for line in sys.stdin:
    m=re.match(r'@(\w+) (\w+)\s*$',line)
    if m:
        kind='Theorem'
        n,l=m.groups()
        out.append(f"{kind} {n} : {src[l]}.\nProof. exact {l}. Qed.\nPrint Assumptions {n}.\n")
        continue
    m=re.match(r'!(\w+) (\w+)\s*$',line)
    if m:
        n,l=m.groups()
        out.append(f"Example {n} : {src[l]}.\nProof. exact {l}. Qed.\n")
        continue
    out.append(line)
open(sys.argv[1],'w').write(''.join(out))
