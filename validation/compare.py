import re,glob,os
def toks(s):
    s=re.sub(r'//[^\n]*','',s) if True else s
    t=re.findall(r'"(?:\\.|[^"])*"|\w+|[^\w\s]',s)
    return t
def clean(s):
    # protect urls in strings
    s=re.sub(r'"([^"]*)"',lambda m:'"'+m.group(1).replace('//','@@')+'"',s)
    return [x for x in toks(s)]
def strip(t):
    out=[];i=0
    while i<len(t):
        if t[i:i+3]==['impl','Validate','for']: 
            j=i
            while t[j]!='}': j+=1
            i=j+1; continue
        out.append(t[i]);i+=1
    # drop trailing commas
    return [x for k,x in enumerate(out) if not (x==',' and k+1<len(out) and out[k+1] in ')}')]
for d in sorted(glob.glob('/repo/xsd-parser/tests/*/expected.rs')):
    n=os.path.basename(os.path.dirname(d))
    a=strip(clean(open(d).read())); b=strip(clean(open('/tmp/xsd-validation/%s_input.rs'%n).read()))
    print(n, 'SAME' if a==b else 'DIFF')
    if a!=b:
        k=next((k for k in range(min(len(a),len(b))) if a[k]!=b[k]),min(len(a),len(b)))
        print('   exp',a[max(0,k-6):k+12]); print('   got',b[max(0,k-6):k+12])
