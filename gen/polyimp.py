#!/usr/bin/env python3
"""Translate /repo/src/poly_imp.h into rocq/theories/PolyImp.v, statement by statement.
Usage: python3 gen/polyimp.py /repo/src/poly_imp.h > rocq/theories/PolyImp.v"""
import re,sys
src=open(sys.argv[1]).read()
lines=src.split('\n')
def tok(s):
    pos=0; out=[]
    r=re.compile(r'\s*(gllz_(\d\d)\[\s*(\d+)\]|w\[\s*(\d+)\]|(d)(\d\d)\b|([uv][012])_(\d\d)|(x)\b|(\d+)|([-+*()]))')
    s=s.strip()
    while pos<len(s):
        m=r.match(s,pos)
        assert m,(s,pos)
        if m.group(2): out.append(('G',int(m.group(2)),int(m.group(3))))
        elif m.group(4): out.append(('W',int(m.group(4))))
        elif m.group(5): out.append(('V','d',int(m.group(6))))
        elif m.group(7): out.append(('V',m.group(7),int(m.group(8))))
        elif m.group(9): out.append(('X',))
        elif m.group(10): out.append(('K',int(m.group(10))))
        else: out.append((m.group(11),))
        pos=m.end()
    return out
def parse(s,n):
    """C expression -> text in the notation of PolyImp.v (same shape and association)."""
    t=tok(s); p=[0]
    def peek(): return t[p[0]][0] if p[0]<len(t) else None
    def prim():
        k=t[p[0]]; p[0]+=1
        if k[0]=='(':
            e=add()
            assert t[p[0]][0]==')'; p[0]+=1
            return '('+e+')'
        if k[0]=='K': return str(k[1])
        if k[0]=='W': return 'W %d'%k[1]
        if k[0]=='X': return 'X'
        if k[0]=='G':
            assert k[1]==n
            return 'G %d'%k[2]
        if k[0]=='V': return '%s %d'%(k[1],k[2])
        raise Exception(k)
    def mul():
        e=prim()
        while peek()=='*':
            p[0]+=1; e=e+' * '+prim()
        return e
    def add():
        if peek()=='+': p[0]+=1      # unary plus
        e=mul()
        while peek() in('+','-'):
            o=t[p[0]][0]; p[0]+=1; e=e+' %s '%o+mul()
        return e
    e=add()
    assert p[0]==len(t)
    return e
def lineno(pos): return src.count('\n',0,pos)+1
print('''(** The straight-line programs of src/poly_imp.h (generated by gen/polyimp.py, which copies each
    statement).  Doubles are real numbers; a decimal literal 0.ddd of the tables is its value
    times 10^52.  Unary plus is dropped. *)
From Verif Require Import Base PolyImpSyntax.
Open Scope ex_scope.
''')
tabs={}
for m in re.finditer(r'static const double gllz_(\d\d)\[\s*(\d+)\] = \{([^}]*)\};',src):
    n=int(m.group(1)); v=[x.strip() for x in m.group(3).split(',')]
    assert len(v)==int(m.group(2))
    z=[]
    for x in v:
        mm=re.fullmatch(r'0\.(\d+)',x); assert mm and len(mm.group(1))<=52,x
        z.append(str(int(mm.group(1).ljust(52,'0'))))
    tabs[n]=z
    print('(** gllz_%02d (poly_imp.h:%d-%d). *)'%(n,lineno(m.start()),lineno(m.end())))
    print('Definition gllz_%02d : list Z := [\n  %s]%%Z.\n'%(n,';\n  '.join(z)))
funs=[]
for m in re.finditer(r'static void gll_lag_(\d\d)\(double \*restrict p, double \*restrict w,\s*unsigned n, int d, double xh\)\n\{\n(.*?)\n\}\n',src,re.S):
    n=int(m.group(1)); body=m.group(2)
    mm=re.fullmatch(r'\s*const double x = xh\*2;(.*?)if\(d>0\) \{(.*?)if\(d>1\) \{(.*?)\}\s*\}\s*',body,re.S)
    assert mm,n
    blocks=[]
    for b in mm.groups():
        st=[]
        for s in b.split(';'):
            s=s.strip()
            if not s: continue
            if s.startswith('const double'):
                for dcl in s[len('const double'):].split(','):
                    l,r=dcl.split('=')
                    v=re.fullmatch(r'\s*(d|[uv][012]_)(\d\d)\s*',l); assert v,l
                    st.append('Let (%s %d) (%s)'%(v.group(1).rstrip('_'),int(v.group(2)),parse(r,n)))
            else:
                l,r=s.split('=')
                o=re.fullmatch(r'p\[\s*(?:(2\*)?(\d+)\+)?\s*(\d+)\]',l.strip()); assert o,l
                off=0
                if o.group(2): off=int(o.group(2))*(2 if o.group(1) else 1)
                st.append('Out %d (%s)'%(off+int(o.group(3)),parse(r,n)))
        blocks.append(st)
    funs.append(n)
    print('(** gll_lag_%02d (poly_imp.h:%d-%d). *)'%(n,lineno(m.start()),lineno(m.end())-1))
    print('Definition gll_lag_%02d : prog := {|\n  nodes := %s;'%(n,'gllz_%02d'%n if n in tabs else '[]'))
    for i,b in enumerate(blocks):
        txt='[\n    '+';\n    '.join(b)+']'
        print('  b%d := %s%s'%(i,txt,';' if i<2 else ' |}.\n'))
m=re.search(r'gllz_table\[(\d+)\] = \{([^}]*)\}',src); t=[x.strip() for x in m.group(2).split(',')]
assert int(m.group(1))==len(t)
print('(** gllz_table (poly_imp.h:%d-%d). *)'%(lineno(m.start()),lineno(m.end())))
print('Definition gllz_table : list (list Z) := [%s].\n'%'; '.join(t))
m=re.search(r'gll_lag_table\[(\d+)\] = \{([^}]*)\}',src); t=[x.strip().lstrip('&') for x in m.group(2).split(',')]
assert int(m.group(1))==len(t)
print('(** gll_lag_table (poly_imp.h:%d-%d). *)'%(lineno(m.start()),lineno(m.end())))
print('Definition gll_lag_table : list prog := [%s].\n'%'; '.join(t))
m=re.search(r'#define GLL_LAG_FIX_MAX (\d+)',src)
print('(** GLL_LAG_FIX_MAX (poly_imp.h:%d). *)\nDefinition GLL_LAG_FIX_MAX : nat := %s.'%(lineno(m.start()),m.group(1)))
