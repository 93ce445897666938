"""Reads the two tree literals of the repository (plain text, no Rust tool needed)."""
import re,sys
tok=re.compile(r"'(\\u\{[0-9a-fA-F]+\}|\\.|[^\\'])'|\"((?:[^\"\\]|\\.)*)\"|([A-Za-z_]+)|([(){}\[\],:!])|(\s+)|(.)",re.S)
def unesc(s):
    m=re.fullmatch(r"\\u\{([0-9a-fA-F]+)\}",s)
    if m: return chr(int(m[1],16))
    if s.startswith('\\'):
        return {"'":"'",'"':'"','\\':'\\','n':'\n','t':'\t'}[s[1]]
    return s
def toks(text,base):
    pos=0;line=base;out=[]
    for m in tok.finditer(text):
        if m[1] is not None: out.append(('c',unesc(m[1]),line))
        elif m[2] is not None:
            s=re.sub(r"\\u\{[0-9a-fA-F]+\}|\\.",lambda k:unesc(k[0]),m[2]); out.append(('s',s,line))
        elif m[3] is not None: out.append(('w',m[3],line))
        elif m[4] is not None: out.append(('p',m[4],line))
        elif m[6] is not None: raise Exception((m[6],line))
        line+=m[0].count('\n')
    return out
class P:
    def __init__(s,t): s.t=t;s.i=0
    def peek(s): return s.t[s.i]
    def eat(s,v):
        assert s.t[s.i][1]==v,(s.t[s.i],v); s.i+=1
    def trans(s):
        # Some(vec![..]) | None | vec![..]
        w=s.peek()[1]
        if w=='None': s.i+=1; return None
        some = w=='Some'
        if some: s.eat('Some'); s.eat('(')
        s.eat('vec'); s.eat('!'); s.eat('[')
        r=[]
        while s.peek()[1]!=']' or s.peek()[0]!='p':
            s.eat('(')
            k,c,l=s.peek(); assert k=='c',s.peek(); s.i+=1
            s.eat(',')
            n=s.node()
            if s.peek()[1]==',': s.i+=1
            s.eat(')')
            if s.peek()[1]==',': s.i+=1
            r.append((c,n,l))
        s.eat(']')
        if some:
            if s.peek()[1]==',':s.i+=1
            s.eat(')')
        return r
    def node(s):
        s.eat('Node'); s.eat('{'); s.eat('transitions'); s.eat(':')
        t=s.trans(); s.eat(',')
        s.eat('output'); s.eat(':')
        k,v,l=s.peek()
        if k=='s': o=v; s.i+=1
        elif v=='None': o=None; s.i+=1
        else:
            s.eat('Some'); s.eat('('); o=s.peek()[1]; s.i+=1; s.eat(')')
        if s.peek()[1]==',': s.i+=1
        s.eat('}')
        return (t,o)
def load(f,startpat,endpat):
    L=open(f).read().split('\n')
    a=next(i for i,l in enumerate(L) if startpat in l)
    b=next(i for i,l in enumerate(L) if i>a and endpat == l.rstrip())
    L[a]=L[a].replace('let transitions =','')
    txt='\n'.join(L[a:b+1]).rstrip().rstrip(';')
    p=P(toks(txt,a+1)); r=p.trans(); assert p.i==len(p.t)
    return r,a+1,b+1
def kana(): return load('/repo/src/to_kana_node_tree.rs','let transitions = vec![','        ];')
def romaji(): return load('/repo/src/to_romaji_node_tree.rs','let transitions = Some(vec![','        ]);')
if __name__=='__main__':
    for nm,f in(('K',kana),('R',romaji)):
        t,a,b=f()
        print(nm,a,b)
        def walk(p,t):
            if t is None: return
            ks=[c for c,_,_ in t]
            if len(set(ks))!=len(ks): print('DUP',p,ks)
            if ks!=sorted(ks): print('UNSORTED',p,''.join(ks))
            for c,n,l in t:
                print(repr(p+c),n[1],l)
                walk(p+c,n[0])
        walk('',t)
