#!/usr/bin/env python3
"""Regenerate the Print Assumptions block at the end of each Prop*.v file."""
import re,glob,os
d=os.path.join(os.path.dirname(__file__),'../rocq/theories')
for p in sorted(glob.glob(d+'/Prop*.v')):
    s=s0=open(p).read()
    s=re.sub(r'\n*((\(\* -+ \*\)\n)?Print Assumptions \w+\.\n*)+$','\n',s)
    s=re.sub(r'(Print Assumptions \w+\.\n*)+$','',s).rstrip()+'\n'
    names=re.findall(r'^\s*(?:Theorem|Corollary)\s+(C\d+_\w+)',s,re.M)
    s+='\n'+''.join('Print Assumptions %s.\n'%n for n in names)
    if s!=s0: open(p,'w').write(s)
