# closes the brackets of "exact (... )." proof terms
import re,sys
f=sys.argv[1]; s=open(f).read()
def fix(m):
    body=m.group(1)
    t=re.sub(r'\)*\s*$','',body)
    d=t.count('(')-t.count(')')
    return '  exact '+t+')'*d+'.\nQed.'
s=re.sub(r'  exact (\((?:ex_intro|conj).*?)\.\nQed\.',fix,s,flags=re.S)
open(f,'w').write(s)
