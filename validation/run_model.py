import sys,glob,os,subprocess,re
import xml.parsers.expat as ex
def s2c(s): return '['+'; '.join(str(ord(c)) for c in s)+']'
class B:
    def __init__(self,data):
        self.stack=[('doc',[],[],[])]; self.nsctx=[[]]
        p=ex.ParserCreate(); p.ordered_attributes=True; p.buffer_text=True
        p.StartElementHandler=self.st; p.EndElementHandler=self.en; p.CharacterDataHandler=self.ch
        p.CommentHandler=lambda d:self.stack[-1][3].append('Other'); p.ProcessingInstructionHandler=lambda a,b:self.stack[-1][3].append('Other')
        p.Parse(data,True)
        self.roots=self.stack[0][3]
    def st(self,name,attrs):
        al=[];ns=list(self.nsctx[-1])
        for k,v in zip(attrs[::2],attrs[1::2]):
            if k=='xmlns': ns.append((None,v))
            elif k.startswith('xmlns:'): ns.append((k[6:],v))
            elif ':' in k: pass
            else: al.append((k,v))
        self.nsctx.append(ns)
        self.stack.append((name.split(':')[-1],al,ns,[]))
    def en(self,name):
        t,al,ns,c=self.stack.pop(); self.nsctx.pop()
        self.stack[-1][3].append('(Elem %s [%s] [%s] [%s])'%(s2c(t),'; '.join('(%s,%s)'%(s2c(a),s2c(b)) for a,b in al),
           '; '.join('{| ns_name := %s; ns_uri := %s |}'%('None' if a is None else 'Some '+s2c(a),s2c(b)) for a,b in ns) if len(self.stack)<=2 else '', ';\n'.join(c)))
    def ch(self,d):
        if len(self.stack)>1: self.stack[-1][3].append('(Text %s)'%s2c(d))
def trans(path): return '['+'; '.join(B(open(path,'rb').read()).roots)+']'
if __name__=='__main__':
    for f in sys.argv[1:]:
        name=os.path.basename(os.path.dirname(f))+'_'+os.path.basename(f).split('.')[0]
        v='''From Coq Require Import NArith Bool Ascii String List.
From Verif Require Import Str Xml Names Entity Parser Link Gen.
Import ListNotations. Local Open Scope N_scope.
Definition u0 : uni := {| u_alphabetic := fun _ => false; u_numeric := fun _ => false; u_lower := fun _ => false; u_upper := fun _ => false |}.
Definition doc0 : list node := %s.
Definition out := match parse u0 doc0 with Ok f => match generate_rs_file u0 f with Ok (_, s) => (1, s) | Err => (2, []) | Panic => (3, []) end | Err => (4, []) | Panic => (5, []) end.
Eval vm_compute in out.
'''%trans(f)
        open('/tmp/xsd-validation/T.v','w').write(v)
        r=subprocess.run('coqc -Q /verif/rocq/theories Verif /tmp/xsd-validation/T.v',shell=True,capture_output=True,text=True)
        m=re.search(r'= \((\d),(.*)\)\s*:',r.stdout,re.S)
        if not m: print(name,'FAIL',r.stdout[-500:],r.stderr[-500:]); continue
        txt=''.join(chr(int(x)) for x in re.findall(r'\d+',m.group(2)))
        open('/tmp/xsd-validation/%s.rs'%name,'w').write(txt)
        print(name,m.group(1),len(txt))
