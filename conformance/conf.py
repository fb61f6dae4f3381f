import json,re,subprocess,sys,math,os
from fractions import Fraction as F
FX='/repo/tests/fixtures/'
def q(x):
    f=F(str(x)) if not isinstance(x,str) else F(x)
    return '(%d # %d)'%(f.numerator,f.denominator) if f.denominator!=1 else ('%d'%f.numerator if f>=0 else '(%d)'%f.numerator)
def qv(v): return '['+'; '.join(q(x) for x in v)+']%Q'
def qm(m): return '['+'; '.join('['+'; '.join(q(x) for x in r)+']' for r in m)+']%Q'
def norm(p):
    # fixtures hold rounded decimals: last entry of a row absorbs the rounding
    out=[]
    for r in p:
        r=[F(str(x)) for x in r]; s=sum(r)
        if s!=1:
            k=max(range(len(r)),key=lambda i:r[i]); r[k]+=1-s
        out.append(r)
    return out
def names(n): return '['+'; '.join('"%d"'%(i+1) for i in range(n))+']%string'
def nl(v): return '['+'; '.join(str(x) for x in v)+']'
def parse(s):
    s=re.sub(r'%[A-Za-z]+','',s)
    s=s.replace('\n',' ')
    # convert to python
    s=re.sub(r'(-?)0x([0-9a-f]*)\.([0-9a-f]+)',lambda m:'(%sF(%d,%d))'%(m[1],int(m[2]+m[3],16),16**len(m[3])),s)
    s=re.sub(r'\s+',' ',s)
    s=re.sub(r'\((-?\d+) # (\d+)\)',r'F(\1,\2)',s)
    s=re.sub(r'(?<![\w(])(-?\d+) # (\d+)',r'F(\1,\2)',s)
    s=s.replace(';',',')
    s=re.sub(r'\bSome\b','',s); s=re.sub(r'\bNone\b','None',s); s=re.sub(r'\bOk\b','',s)
    s=re.sub(r'\bErr (\w+)\b',r'"Err \1"',s)
    s=s.replace('true','True').replace('false','False')
    return eval(s)
def run(defs,evals,tag,imports='L_PropsR L_Nnls'):
    path='/tmp/conf_%s.v'%tag
    with open(path,'w') as f:
        f.write('From Verif Require Import %s.\nClose Scope Q_scope. Open Scope nat_scope.\nOpen Scope string_scope. Open Scope list_scope. Open Scope nat_scope.\n'%imports)
        f.write(defs)
        for n,e in evals: f.write('Eval vm_compute in (%s).\n'%e)
    r=subprocess.run(['timeout','1500','coqc','-Q','/verif/rocq/theories','Verif',path],capture_output=True,text=True)
    if r.returncode!=0: print('COQ ERROR',tag,r.stderr[-1500:])
    outs=re.findall(r'^     = (.*?)\n     : ',r.stdout,re.S|re.M)
    res={}
    for (n,e),o in zip(evals,outs):
        try: res[n]=parse(o)
        except Exception as ex: res[n]=('PARSE',o,str(ex))
    return res
def close(a,b,tol=1e-5):
    if isinstance(b,str) and b=='Infinity': return a is None or a=='inf'
    if b is None or isinstance(b,bool): return a==b
    if isinstance(b,list): return isinstance(a,(list,tuple)) and len(a)==len(b) and all(close(x,y,tol) for x,y in zip(a,b))
    if isinstance(b,(int,float)):
        try: return abs(float(a)-float(b))<=tol*max(1,abs(float(b)))
        except Exception: return False
    return a==b
