"""Translate the text of GMAT_sphere.py (parsed, not executed) into rocq/theories/GmatModel.v."""
import ast,re,sys
from fractions import Fraction
P='/repo/moving_mesh_transport/solver_classes/GMAT_sphere.py'
src=open(P).read(); tree=ast.parse(src)
DEC={}
def num(n):
    seg=ast.get_source_segment(src,n)
    if isinstance(n.value,int): return str(n.value)
    m=re.fullmatch(r'(\d+)\.0*',seg)
    if m: return m.group(1)
    f=Fraction(seg); q=round(1/f)
    digits=seg.split('.')[1]; e=len(digits); mant=int(digits)
    DEC[seg]=(mant,e,q)
    return f'(flt {mant} {e} {q})'
def ex(n):
    if isinstance(n,ast.BinOp):
        op={ast.Add:'+',ast.Sub:'-',ast.Mult:'*',ast.Div:'/'}
        if isinstance(n.op,ast.Pow):
            assert isinstance(n.right,ast.Constant) and isinstance(n.right.value,int)
            return f'({ex(n.left)} ^ {n.right.value})'
        return f'({ex(n.left)} {op[type(n.op)]} {ex(n.right)})'
    if isinstance(n,ast.UnaryOp) and isinstance(n.op,ast.USub): return f'(- {ex(n.operand)})'
    if isinstance(n,ast.Constant): return num(n)
    if isinstance(n,ast.Name): return n.id
    if isinstance(n,ast.Call) and ast.get_source_segment(src,n.func)=='math.sqrt': return f'(sqrt {ex(n.args[0])})'
    raise Exception(ast.dump(n))
def chain(ifn,var,leaf):
    out=[]
    while ifn is not None:
        t=ifn.test
        assert isinstance(t,ast.Compare) and t.left.id==var and isinstance(t.ops[0],ast.Eq)
        out.append((t.comparators[0].value,leaf(ifn.body)))
        if not ifn.orelse: break
        assert len(ifn.orelse)==1 and isinstance(ifn.orelse[0],ast.If)
        ifn=ifn.orelse[0]
    return out
def leaf_j(body):
    assert len(body)==1 and isinstance(body[0],ast.Return)
    return (ex(body[0].value),body[0].lineno)
def leaf_i(body):
    assert len(body)==1 and isinstance(body[0],ast.If)
    return chain(body[0],'j',leaf_j)
out=[]
for f in tree.body:
    if not isinstance(f,ast.FunctionDef): continue
    assert len(f.body)==1
    rows=chain(f.body[0],'i',leaf_i)
    out.append(f'(** GMAT_sphere.py {f.lineno}-{f.end_lineno}; falling through every branch returns None. *)')
    out.append(f'Definition {f.name} (i j : nat) (a b ap bp : R) : option R :=\n  match i, j with')
    for i,cols in rows:
        for j,(e,ln) in cols:
            out.append(f'  | {i}%nat, {j}%nat => Some {e}  (* line {ln} *)')
    out.append('  | _, _ => None\n  end.')
head='''(** Model of the hard-coded spherical tables of
    /repo/moving_mesh_transport/solver_classes/GMAT_sphere.py, produced by tools/gen_gmat.py from its text.
    Decimal literals such as 0.16666666666666666 are read as the fraction 1/q they are the float64 printing
    of: [flt m e q] stands for the literal m*10^-e and means 1/q; [literals] lists them all. *)
From Verif Require Import Py.

Definition flt (m e q : Z) : R := 1 / IZR q.
'''
lits='(** every decimal literal of the file: mantissa, decimal exponent, q *)\nDefinition literals : list (Z * Z * Z) :=\n  ['+'; '.join(f'({m}, {e}, {q})' for m,e,q in DEC.values())+']%Z.\n'
open('rocq/theories/GmatModel.v','w').write(head+lits+'\n'+'\n'.join(out)+'\n')
print(len(DEC))
