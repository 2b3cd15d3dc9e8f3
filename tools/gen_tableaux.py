#!/usr/bin/env python3
"""Read the coefficient tables of /repo/extensisq/*.py as text (ast, exact
rational arithmetic, sqrt(2) kept symbolic) and print rocq/theories/Tableaux.v.
The code of the repository is not executed: only its literals and array
arithmetic are evaluated, exactly."""
import ast, glob, os, sys
from fractions import Fraction as F

class Q2:                       # a + b*sqrt(2)
    def __init__(s, a, b=0): s.a, s.b = F(a), F(b)
    def __add__(s, o): return Q2(s.a+o.a, s.b+o.b)
    def __sub__(s, o): return Q2(s.a-o.a, s.b-o.b)
    def __mul__(s, o): return Q2(s.a*o.a+2*s.b*o.b, s.a*o.b+s.b*o.a)
    def __truediv__(s, o):
        n = o.a*o.a-2*o.b*o.b
        return s*Q2(o.a/n, -o.b/n)
    def __neg__(s): return Q2(-s.a, -s.b)

class Arr:                      # 1d: list of Q2; 2d: list of lists
    def __init__(s, d): s.d = d

def mapv(f, x):
    if isinstance(x, Arr): return Arr(mapv(f, x.d))
    if isinstance(x, list): return [mapv(f, e) for e in x]
    return f(x)
def bop(f, x, y):
    if isinstance(x, Arr) or isinstance(y, Arr):
        xd = x.d if isinstance(x, Arr) else x
        yd = y.d if isinstance(y, Arr) else y
        return Arr(bopl(f, xd, yd))
    return f(x, y)
def depth(x): return 1+depth(x[0]) if isinstance(x, list) else 0
def bopl(f, x, y):
    if depth(x) == depth(y):
        if depth(x) == 0: return f(x, y)
        assert len(x) == len(y)
        return [bopl(f, a, b) for a, b in zip(x, y)]
    if depth(x) > depth(y):
        return [bopl(f, a, y) for a in x]
    return [bopl(f, x, b) for b in y]

def ev(n, env, src):
    if isinstance(n, ast.Constant):
        if isinstance(n.value, (int, float)) and not isinstance(n.value, bool):
            return Q2(F(ast.get_source_segment(src, n)))
        return n.value
    if isinstance(n, ast.Name): return env[n.id]
    if isinstance(n, (ast.List, ast.Tuple)): return [ev(e, env, src) for e in n.elts]
    if isinstance(n, ast.UnaryOp) and isinstance(n.op, ast.USub):
        return mapv(lambda x: -x, ev(n.operand, env, src))
    if isinstance(n, ast.BinOp):
        x, y = ev(n.left, env, src), ev(n.right, env, src)
        op = {ast.Add: lambda a, b: a+b, ast.Sub: lambda a, b: a-b,
              ast.Mult: lambda a, b: a*b, ast.Div: lambda a, b: a/b}[type(n.op)]
        return bop(op, x, y)
    if isinstance(n, ast.Subscript):
        x = ev(n.value, env, src)
        sl = ast.unparse(n.slice)
        if sl in ('(-1, slice(None, None, None))', '-1, :', '(-1, :)'): return Arr(x.d[-1])
        if sl in ('-2, :', '(-2, :)'): return Arr(x.d[-2])
        if sl == 'slice(None, -1, None)' or sl == ':-1': return Arr(x.d[:-1])
        if sl in (':, 1:', '(:, 1:)'): return Arr([r[1:] for r in x.d])
        if isinstance(n.slice, ast.Tuple):
            i = n.slice.elts[0]
            if isinstance(i, ast.Constant): return Arr(x.d[i.value])
            if isinstance(i, ast.List): return Arr([x.d[e.value] for e in i.elts])
        if isinstance(n.slice, ast.List): return Arr([x.d[e.value] for e in n.slice.elts])
        raise Exception('sub '+ast.dump(n.slice))
    if isinstance(n, ast.Attribute) and n.attr == 'T':
        return Arr([list(r) for r in zip(*ev(n.value, env, src).d)])
    if isinstance(n, ast.Call):
        fn = ast.unparse(n.func)
        if fn == 'np.array':
            def strip(v):
                if isinstance(v, Arr): return v.d
                if isinstance(v, list): return [strip(e) for e in v]
                return v
            return Arr(strip(ev(n.args[0], env, src)))
        if fn == 'np.arange':
            a, b = [int(ev(k, env, src).a) for k in n.args]
            return Arr([Q2(k) for k in range(a, b)])
        if fn == 'np.zeros': return Arr([Q2(0)]*int(ev(n.args[0], env, src).a))
        if fn == 'np.sqrt' and ast.unparse(n.args[0]) == '2': return Q2(0, 1)
        if fn == 'A.sum': return Arr([sum(r, Q2(0)) for r in env['A'].d])
    raise Exception('eval '+ast.unparse(n)[:80])

def q(x): return "%d#%d" % (x.numerator, x.denominator)
def has2(x):
    if isinstance(x, Arr): return has2(x.d)
    if isinstance(x, list): return any(has2(e) for e in x)
    return x.b != 0
def show(x, two):
    if isinstance(x, Arr): return show(x.d, two)
    if isinstance(x, list): return "[" + ";\n   ".join(show(e, two) for e in x) + "]" if depth(x) > 1 else "[" + "; ".join(show(e, two) for e in x) + "]"
    return "(%s, %s)" % (q(x.a), q(x.b)) if two else q(x.a)

def main(repo):
    out = []
    for fn in sorted(glob.glob(os.path.join(repo, 'extensisq', '*.py'))):
        src = open(fn).read()
        for c in ast.parse(src).body:
            if not isinstance(c, ast.ClassDef): continue
            env, lines, skip = {}, {}, set()
            for s in c.body:
                try:
                    if isinstance(s, ast.Assign) and isinstance(s.targets[0], ast.Name):
                        env[s.targets[0].id] = ev(s.value, env, src)
                        lines[s.targets[0].id] = (s.lineno, s.end_lineno)
                    elif isinstance(s, ast.Assign) and ast.unparse(s) == 'A[:, 0] = C - A.sum(axis=1)':
                        v = ev(s.value, env, src).d
                        for r, x in zip(env['A'].d, v): r[0] = x
                        lines['A'] = (lines['A'][0], s.end_lineno)
                    elif isinstance(s, ast.Assign) and ast.unparse(s.targets[0]) == 'E[:-1]':
                        env['E'].d[:-1] = ev(s.value, env, src).d
                        lines['E'] = (lines['E'][0], s.end_lineno)
                    elif isinstance(s, ast.AugAssign):
                        nm = s.target.value.id
                        assert ast.unparse(s.target) == nm+'[:-1]' and isinstance(s.op, ast.Sub)
                        d = env[nm].d
                        d[:-1] = [a-b for a, b in zip(d[:-1], ev(s.value, env, src).d)]
                        lines[nm] = (lines[nm][0], s.end_lineno)
                except Exception as e:
                    if not (isinstance(s, ast.AnnAssign) or 'NotImpl' in ast.unparse(s)):
                        sys.stderr.write("%s %s: %s\n" % (c.name, ast.unparse(s)[:50], e))
            tabs = {k: v for k, v in env.items() if isinstance(v, (Arr, Q2, list)) or isinstance(v, str)}
            if not any(isinstance(v, Arr) for v in tabs.values()): continue
            two = any(has2(v) for v in tabs.values() if not isinstance(v, str))
            base = os.path.basename(fn)
            out.append("(** ** %s, %s%s *)\n" % (c.name, base, " (a, b) stands for a + b sqrt 2" if two else ""))
            for k, v in tabs.items():
                if isinstance(v, str) or k == 's2': continue
                l0, l1 = lines[k]
                if isinstance(v, list): v = Arr(v)
                if isinstance(v, Q2) and k in ('order', 'order_secondary', 'n_stages', 'n_extra_stages'):
                    out.append("Definition %s_%s : nat := %d. (* %s:%d *)\n" % (c.name, k, v.a, base, l0)); continue
                ty = "(Q * Q)" if two else "Q"
                d = depth(v.d) if isinstance(v, Arr) else 0
                for _ in range(d): ty = "list (%s)" % ty if ' ' in ty else "list %s" % ty
                out.append("(* %s:%d-%d *)\nDefinition %s_%s : %s :=\n  %s.\n" % (base, l0, l1, c.name, k, ty, show(v, two)))
            out.append("\n")
    print("(** Generated by tools/gen_tableaux.py from the text of /repo/extensisq/*.py.\n"
          "    Decimal literals are taken exactly; array arithmetic such as [E[:-1] -= B] is\n"
          "    carried out exactly (the code does it in binary64). Do not edit. *)\n"
          "From Coq Require Import QArith List.\nImport ListNotations.\nOpen Scope Q_scope.\n")
    print("".join(out))
main(sys.argv[1] if len(sys.argv) > 1 else '/repo')
