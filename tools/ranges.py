import re,sys
# print item ranges of a rust file by brace matching on indentation
f=sys.argv[1]
L=open(f).read().split('\n')
for i,l in enumerate(L):
    m=re.match(r'(\s*)(pub(\(crate\))? )?(fn|impl|enum|struct|trait|macro_rules!|mod|type)\b(.*)',l)
    if m and not l.strip().startswith('//'):
        ind=m.group(1)
        if l.rstrip().endswith(';') or l.rstrip().endswith('}'):
            j=i
        else:
            j=i+1
            while j<len(L) and not re.match(ind+r'[}\)]+;?$',L[j].rstrip()) : j+=1
        print(f"{i+1}-{j+1}: {l.strip()[:110]}")
        if 'mod test' in l: break
