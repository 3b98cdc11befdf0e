#!/usr/bin/env python3
# Compares rocq/theories/UniTables.v with the tables of the C++ header:
#   tools/unicode_tables.py rocq/theories/UniTables.v
import sys
import re
src=open('/repo/include/lexy/_detail/unicode_database.hpp',encoding='latin-1').read()
def strs(name):
    m=re.search(r'const char\* '+name+r' = (.*?);\n',src,re.S)
    out=[]
    for lit in re.findall(r'"((?:[^"\\]|\\.)*)"',m.group(1)):
        i=0
        while i<len(lit):
            if lit[i]=='\\':
                mm=re.match(r'\\([0-7]{1,3})',lit[i:])
                if mm: out.append(int(mm.group(1),8)); i+=len(mm.group(0))
                else:
                    d={'\\':92,'"':34,"'":39,'n':10,'t':9,'r':13,'?':63}
                    out.append(d[lit[i+1]]); i+=2
            else: out.append(ord(lit[i])); i+=1
    return out
def arr(name,f):
    m=re.search(name+r'\[\] = \{(.*?)\};',src,re.S)
    return [f(x.strip()) for x in m.group(1).split(',') if x.strip()]
bs=strs('block_starts'); bl=strs('blocks')
cat=arr('category',lambda x:x.split('::')[-1]); bp=arr('binary_properties',int); cf=arr('case_folding_offset',int)
def pi(c): return bl[bs[(c>>8)&0xffff]*256+(c&255)]
def row(xs): return ';'.join(map(str,xs))
def zl(x): return str(x) if x>=0 else '(%d)'%x
o=[]
o.append('''(** The tables of the Unicode database, transcribed number by number.
    Source: include/lexy/_detail/unicode_database.hpp, lines 8-12 [block_starts],
    13-52 [blocks], 65 [category], 80 [binary_properties], 82 [case_folding_offset].
    The two tables written as string literals are listed byte by byte (octal escapes,
    backslash and quote escapes resolved, adjacent literals joined) and cut into pieces of
    256 bytes; the literal's terminating zero is left out, so reading it would be an
    access out of bounds here. *)
From Verif Require Import Prelude.
Open Scope N_scope.

(** code_point.hpp:76-119 [general_category_t]. *)
Inductive category_t :=
| Lu | Ll | Lt | Lm | Lo | Mn | Mc | Me | Nd | Nl | No
| Pc | Pd | Ps | Pe | Pi | Pf | Po | Sm | Sc | Sk | So
| Zs | Zl | Zp | Cc | Cf | Cs | Co | Cn.
''')
def pieces(name,xs,lines):
    o.append('(** unicode_database.hpp:%s [%s]: %d bytes. *)'%(lines,name,len(xs)))
    o.append('Definition %s_pieces : list (list N) := ['%name)
    ps=[xs[i:i+256] for i in range(0,len(xs),256)]
    for k,p in enumerate(ps):
        s=row(p); out='  ['; line=''
        ws=s.split(';')
        cur='  ['
        for j,w in enumerate(ws):
            t=w+(';' if j<len(ws)-1 else ']')
            if len(cur)+len(t)>118: o.append(cur); cur='   '
            cur+=t
        o.append(cur+(';' if k<len(ps)-1 else '].'))
    o.append('')
def flat(name,ty,ws,cite,scope=''):
    o.append('(** unicode_database.hpp:%s [%s]: %d entries. *)'%(cite,name,len(ws)))
    o.append('Definition %s : list %s := ['%(name,ty))
    cur='  '
    for j,w in enumerate(ws):
        t=w+(';' if j<len(ws)-1 else ']'+scope+'.')
        if len(cur)+len(t)>118: o.append(cur); cur='  '
        cur+=t
    o.append(cur); o.append('')
pieces('block_starts',bs,'8-12')
pieces('blocks',bl,'13-52')
flat('category','category_t',cat,'65')
flat('binary_properties','N',[str(x) for x in bp],'80')
flat('case_folding_offset','Z',[zl(x) for x in cf],'82','%Z')
if __name__ == '__main__':
    mine=open(sys.argv[1]).read()
    print('same' if mine=='\n'.join(o) else 'DIFFERENT')
    sys.exit(mine!='\n'.join(o))

