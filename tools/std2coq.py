#!/usr/bin/env python3
"""Translates ticc/src/std/*.tic into the annotated source of GenCore.v (StdLib.v).

A port of the front end, for the subset of the language the library uses: parsing (ticc-syntax), name
resolution (compiler/resolve.rs, type variables of annotations are lexically scoped) and type inference
(compiler/typeck.rs: lets without annotation are monomorphic).  StdLib.v is checked in; PropsStd.v checks
that the core generated from it is accepted by the verifier.
usage: std2coq.py /repo/ticc/src/std > StdLib.v"""
import re, sys, os
D = sys.argv[1]
ORDER = ['intrinsics', 'option', 'result', 'list', 'string', 'int', 'array']
TOK = re.compile(r'\s+|--[^\n]*|(?P<num>\d+)|(?P<str>"[^"]*")|(?P<hole>\?\w+)|(?P<id>[A-Za-z_]\w*)|(?P<op>\|>|->|==|!=|<=|>=|[-+*/%<>=:;|()\\.,])')
KW = {'let','type','export','import','from','match','with','end','if','then','else','fold','rec','true','false','int','bool','string'}

class Lex:
    def __init__(self, src):
        self.t = []; i = 0; line = 1
        while i < len(src):
            m = TOK.match(src, i); assert m, src[i:i+40]
            k = m.lastgroup
            if k: self.t.append((k if not (k == 'id' and m.group() in KW) else 'kw', m.group(), line))
            line += m.group().count('\n'); i = m.end()
        self.t.append(('eof', '', line)); self.i = 0
    def peek(self): return self.t[self.i][1] if self.t[self.i][0] != 'eof' else None
    def kind(self): return self.t[self.i][0]
    def line(self): return self.t[self.i][2]
    def next(self): self.i += 1; return self.t[self.i-1][1]
    def eat(self, x):
        assert self.peek() == x, (x, self.t[self.i]); self.i += 1
    def opt(self, x):
        if self.peek() == x: self.i += 1; return True
        return False

# ---- parsing
PREC = [['|>'], ['<','<=','>','>=','==','!='], ['+','-'], ['*','/','%']]
def p_type(l):
    a = p_tapp(l)
    if l.opt('->'): return ('fn', a, p_type(l))
    return a
def p_tatom(l):
    if l.opt('('):
        t = p_type(l); l.eat(')'); return t
    x = l.next()
    if x in ('int','bool','string','rec'): return (x,)
    return ('named', x, [])
def tatom_start(l): return l.peek() == '(' or l.peek() in ('int','bool','string','rec') or l.kind() == 'id'
def p_tapp(l):
    a = p_tatom(l)
    args = []
    while tatom_start(l): args.append(p_tatom(l))
    if args: assert a[0] == 'named'; return ('named', a[1], args)
    return a
def atom_start(l): return l.kind() in ('num','str','hole','id') or l.peek() in ('(','true','false','match','if')
def p_atom(l):
    k = l.kind()
    if k == 'num': return ('num', int(l.next()))
    if k == 'str': return ('str', l.next()[1:-1])
    if k == 'hole': return ('hole', l.next())
    if l.opt('true'): return ('bool', True)
    if l.opt('false'): return ('bool', False)
    if l.opt('('):
        e = p_expr(l); l.eat(')'); return ('paren', e)
    if l.peek() == 'match':
        l.next(); d = p_expr(l); l.eat('with'); cs = []
        l.opt('|')
        while True:
            c = l.next(); vs = []
            while l.kind() == 'id': vs.append(l.next())
            l.eat('->'); cs.append((c, vs, p_expr(l)))
            if not l.opt('|'): break
        l.eat('end'); return ('match', d, cs)
    if l.peek() == 'if':
        l.next(); c = p_expr(l); l.eat('then'); t = p_expr(l); l.eat('else'); return ('if', c, t, p_expr(l))
    assert k == 'id', l.t[l.i]
    x = l.next()
    if l.peek() == '.': l.next(); return ('ns', x, l.next())
    return ('name', x)
def p_app(l):
    f = p_atom(l)
    while atom_start(l) and l.peek() not in ('match','if'): f = ('app', f, p_atom(l))
    return f
def p_bin(l, k):
    if k == len(PREC): return p_app(l)
    a = p_bin(l, k+1)
    while l.peek() in PREC[k]:
        o = l.next(); b = p_bin(l, k+1)
        a = ('pipe', a, b) if o == '|>' else ('bin', a, o, b)
        if k == 1: break
    return a
def p_expr(l):
    if l.peek() == '\\':
        l.next(); f = l.opt('fold'); x = l.next(); l.eat('->'); return ('fold' if f else 'lam', x, p_expr(l))
    if l.peek() == 'let':
        l.next(); x = l.next(); t = p_type(l) if l.opt(':') else None
        l.eat('='); v = p_expr(l); l.eat(';'); return ('let', x, t, v, p_expr(l))
    return p_bin(l, 0)
def p_items(l):
    out = []
    while l.peek() is not None:
        line = l.line(); ex = l.opt('export')
        if l.opt('import'):
            ns = l.next() if l.kind() == 'id' else None; names = []
            if l.opt('('):
                while l.peek() != ')': names.append(l.next()); l.opt(',')
                l.eat(')')
            l.eat('from'); m = l.next()[1:-1]; l.eat(';'); out.append(('import', ns, names, m, line))
        elif l.opt('type'):
            x = l.next(); ps = []
            while l.peek() != '=': ps.append(l.next())
            l.eat('='); l.opt('export'); l.opt('|'); cs = []
            while True:
                c = l.next(); fs = []
                while tatom_start(l): fs.append(p_tatom(l))
                cs.append((c, fs))
                if not l.opt('|'): break
            l.eat(';'); out.append(('type', ex, x, ps, cs, line))
        else:
            l.eat('let'); x = l.next(); t = p_type(l) if l.opt(':') else None
            l.eat('='); e = p_expr(l); end = l.line(); l.eat(';'); out.append(('let', ex, x, t, e, line, end))
    return out

# ---- symbols
SYMS = []; USED = set()
def fresh(hint):
    h = re.sub(r'\W', '_', hint); n = h; i = 1
    while n in USED: i += 1; n = '%s%d' % (h, i)
    USED.add(n); SYMS.append(n); return n

# ---- types: ('int',) ('bool',) ('string',) ('named', sym, args) ('fn',a,b) ('folded',a,b) Var
class Var:
    __slots__ = ('ref',)
    def __init__(s): s.ref = None
def find(t):
    while isinstance(t, Var) and t.ref is not None: t = t.ref
    return t
def unify(a, b):
    a, b = find(a), find(b)
    if a is b: return
    if isinstance(a, Var): a.ref = b; return
    if isinstance(b, Var): b.ref = a; return
    assert a[0] == b[0], (show(a), show(b))
    if a[0] == 'named':
        assert a[1] == b[1] and len(a[2]) == len(b[2]), (show(a), show(b))
        for x, y in zip(a[2], b[2]): unify(x, y)
    elif a[0] in ('fn', 'folded'): unify(a[1], b[1]); unify(a[2], b[2])
def show(t):
    t = find(t)
    if isinstance(t, Var): return '?'
    if t[0] == 'named': return '(%s %s)' % (t[1], ' '.join(map(show, t[2])))
    if len(t) == 1: return t[0]
    return '(%s %s %s)' % (t[0], show(t[1]), show(t[2]))
def inst(t, m):
    t = find(t)
    if isinstance(t, Var): return t
    if t[0] == 'named':
        if t[1] in m: assert not t[2]; return m[t[1]]
        return ('named', t[1], [inst(x, m) for x in t[2]])
    if len(t) == 1: return t
    return (t[0], inst(t[1], m), inst(t[2], m))
def coqty(t):
    t = find(t)
    if isinstance(t, Var): return 'SInfer'
    if t[0] == 'int': return 'SInt'
    if t[0] == 'bool': return 'SBool'
    if t[0] == 'string': return 'SString'
    if t[0] == 'named': return '(SNamed %s [%s])' % (t[1], '; '.join(map(coqty, t[2])))
    return '(%s %s %s)' % ('SFn' if t[0] == 'fn' else 'SFolded', coqty(t[1]), coqty(t[2]))

class Scope:
    def __init__(s, parent=None): s.p = parent; s.v = {}; s.t = {}; s.m = {}
    def get(s, k, x):
        while s:
            d = getattr(s, k)
            if x in d: return d[x]
            s = s.p
        return None
def rtype(t, sc, tvs, hint):
    if t[0] in ('int', 'bool', 'string'): return t
    if t[0] == 'fn': a = rtype(t[1], sc, tvs, hint); return ('fn', a, rtype(t[2], sc, tvs, hint))
    s = sc.get('t', t[1])
    if s is None:
        assert tvs is not None and t[1][0].islower() and not t[2], t
        s = fresh('%s_%s' % (hint, t[1])); tvs.append(s); sc.t[t[1]] = s
    return ('named', s, [rtype(x, sc, tvs, hint) for x in t[2]])

ENV = {}     # symbol -> (type, vars) or (type, None) for monomorphic
CTORS = {}   # ctor symbol -> (type sym, params, fields)
OPS = {'+':'Add','-':'Subtract','*':'Multiply','/':'Divide','%':'Modulo','<':'Less','<=':'LessEq','>':'Greater','>=':'GreaterEq','==':'Equal','!=':'NotEqual'}
def value(sym):
    t, vs = ENV[sym]
    if vs is None: return t, []
    iv = [Var() for _ in vs]
    return inst(t, dict(zip(vs, iv))), iv

# check returns a thunk that prints the Coq term (types are known only at the end)
def check(e, exp, sc, hint):
    k = e[0]
    if k in ('name', 'ns'):
        s = sc.get('v', e[1]) if k == 'name' else sc.get('m', e[1]).get(e[2])
        assert s, e
        t, iv = value(s); unify(exp, t)
        return lambda: 'SName %s [%s]' % (s, '; '.join(map(coqty, iv)))
    if k == 'app':
        a, b = Var(), Var()
        f = check(e[1], ('fn', a, b), sc, hint); x = check(e[2], a, sc, hint); unify(exp, b)
        return lambda: 'SApply (%s) (%s)' % (f(), x())
    if k == 'bin':
        a = check(e[1], ('int',), sc, hint); b = check(e[3], ('int',), sc, hint)
        unify(exp, ('int',) if e[2] in '+-*/%' else ('bool',))
        return lambda: 'SBinary (%s) %s (%s)' % (a(), OPS[e[2]], b())
    if k == 'pipe':
        a, b = Var(), Var()
        x = check(e[1], a, sc, hint); f = check(e[2], ('fn', a, b), sc, hint); unify(exp, b)
        return lambda: 'SPipe (%s) (%s)' % (x(), f())
    if k == 'let':
        tvs = []; isc = Scope(sc); t = Var()
        if e[2]: t = rtype(e[2], isc, tvs, hint + '_' + e[1])
        v = check(e[3], t, isc, hint)
        s = fresh('%s_%s' % (hint, e[1])); ENV[s] = (t, tvs if e[2] else None)
        sc2 = Scope(sc); sc2.v[e[1]] = s
        r = check(e[4], exp, sc2, hint)
        return lambda: 'SLet %s [%s] (%s)\n    (%s)' % (s, '; '.join(tvs), v(), r())
    if k == 'match':
        dt = Var(); d = check(e[1], dt, sc, hint); f = find(dt)
        folded = not isinstance(f, Var) and f[0] == 'folded'
        prim, rec = (f[1], f[2]) if folded else (f, f)
        cs = []
        for c, vs, b in e[2]:
            cs1 = sc.get('v', c); assert cs1 in CTORS, c
            ts, ps, fs = CTORS[cs1]; iv = [Var() for _ in ps]
            unify(prim, ('named', ts, iv)); assert len(vs) == len(fs), (c, vs)
            sc2 = Scope(sc); ss = []
            for v, ft in zip(vs, fs):
                s = fresh('%s_%s' % (hint, v)); ss.append(s); ENV[s] = (Var(), None)
                unify(rec if ft is None else inst(ft, dict(zip(ps, iv))), ENV[s][0]); sc2.v[v] = s
            cs.append((cs1, ss, check(b, exp, sc2, hint)))
        return lambda: 'SMatch %s (%s) [%s]' % ('true' if folded else 'false', d(),
            ';\n      '.join('(%s, [%s], %s)' % (c, '; '.join(ss), b()) for c, ss, b in cs))
    if k == 'if':
        c = check(e[1], ('bool',), sc, hint); t = check(e[2], exp, sc, hint); f = check(e[3], exp, sc, hint)
        return lambda: 'SIf (%s) (%s)\n      (%s)' % (c(), t(), f())
    if k == 'bool': unify(exp, ('bool',)); return lambda: 'SBoolean %s' % str(e[1]).lower()
    if k == 'num': unify(exp, ('int',)); return lambda: 'SNumber %d' % e[1]
    if k == 'str': unify(exp, ('string',)); return lambda: 'SStr [%s]' % '; '.join('%d%%N' % ord(c) for c in e[1])
    if k in ('lam', 'fold'):
        s = fresh('%s_%s' % (hint, e[1])); a, b = Var(), Var()
        ENV[s] = (('folded', a, b) if k == 'fold' else a, None)
        f = ('fn', a, b); unify(exp, f)
        sc2 = Scope(sc); sc2.v[e[1]] = s
        body = check(e[2], b, sc2, hint)
        if k == 'lam': return lambda: 'SLam %s [] %s (%s)' % (s, coqty(a), body())
        return lambda: 'SFold %s %s\n     (%s)' % (coqty(f), s, body())
    if k == 'paren':
        x = check(e[1], exp, sc, hint); return lambda: 'SParen (%s)' % x()
    if k == 'hole':
        return lambda: 'SHole [%s] %s' % ('; '.join('%d%%N' % ord(c) for c in e[1]), coqty(exp))
    assert 0, e

INTR = {'iterate':'BIterate','stringLength':'(BStr StringLen)','stringConcat':'(BStr StringConcat)','stringCharAt':'(BStr StringCharAt)',
        'stringSubstring':'(BStr StringSubstring)','stringFromChar':'(BStr StringFromChar)','intToString':'(BStr IntToString)'}
MODV = {}; MODT = {}
OUT = []
def module(name):
    src = open(os.path.join(D, name + '.tic')).read()
    sc = Scope(); ex = {}; ext = {}; names = []; defs = []
    for it in p_items(Lex(src)):
        if it[0] == 'import':
            m = it[3].split('/')[1]
            if it[1]: sc.m[it[1]] = MODV[m]
            for n in it[2]:
                if n in MODV[m]: sc.v[n] = MODV[m][n]
                if n in MODT[m]: sc.t[n] = MODT[m][n]
                assert n in MODV[m] or n in MODT[m]
            names.append('IImport [(key_%s, mod_%s)]' % (m, m))
        elif it[0] == 'type':
            _, e, x, ps, cs, line = it
            ts = fresh('%s_%s' % (name, x)); sc.t[x] = ts
            if e: ext[x] = ts
            isc = Scope(sc); pss = []
            for q in ps: s = fresh('%s_%s_%s' % (name, x, q)); isc.t[q] = s; pss.append(s)
            out = []
            for c, fs in cs:
                s = fresh('%s_%s' % (name, c)); fts = [None if f == ('rec',) else rtype(f, isc, None, '') for f in fs]
                CTORS[s] = (ts, pss, fts); sc.v[c] = s; ex[c] = s
                t = ('named', ts, [('named', q, []) for q in pss])
                for f in reversed(fts): t = ('fn', ('named', ts, [('named', q, []) for q in pss]) if f is None else f, t)
                ENV[s] = (t, pss)
                out.append('(%s, [%s])' % (s, '; '.join('None' if f is None else 'Some ' + coqty(f) for f in fts)))
            d = 'ty_%s_%s' % (name, x); names.append(d)
            defs.append('(** std/%s.tic:%d *)\nDefinition %s : item := ITy %s [%s] [%s].' % (name, line, d, ts, '; '.join(pss), '; '.join(out)))
        else:
            _, e, x, t, body, line, end = it
            h = '%s_%s' % (name, x); tvs = []; isc = Scope(sc)
            ty = rtype(t, isc, tvs, h)
            if name == 'intrinsics': b = 'inl ' + INTR[x]; bd = None
            else: bd = check(body, ty, isc, h)
            s = fresh(h); ENV[s] = (ty, tvs); sc.v[x] = s
            if e: ex[x] = s
            nm = 'Some [%s]' % '; '.join('%d%%N' % ord(c) for c in x) if e else 'None'
            cite = '(** std/%s.tic:%d%s *)\n' % (name, line, '-%d' % end if end != line else '')
            if bd: defs.append('%sDefinition e_%s : sexpr :=\n  %s.' % (cite, h, bd())); b = 'inr e_%s' % h; cite = ''
            defs.append('%sDefinition it_%s : item := IVal %s [%s] %s (%s) (%s).' % (cite, h, s, '; '.join(tvs), coqty(ty), nm, b))
            names.append('it_%s' % h)
    MODV[name] = ex; MODT[name] = ext
    OUT.append((name, defs, names))
for m in ORDER: module(m)
print('''(** The standard library (ticc/src/std/*.tic) as annotated source.  Generated by tools/std2coq.py, which ports
    the parser, the name resolver and the type checker for the part of the language used here; every item cites
    the lines it comes from.  Symbols are numbered in the order of their binders. *)
From Verif Require Export GenCore.
Set Implicit Arguments.
''')
for i, s in enumerate(SYMS): print('Definition %s : sym := %d.' % (s, i))
for i, m in enumerate(ORDER): print('Definition key_%s : nat := %d.' % (m, i))
for name, defs, names in OUT:
    print('\n(** ** std/%s *)' % name)
    for d in defs: print(d)
    print('Definition mod_%s : list item := [%s].' % (name, '; '.join(names)))
print('\n(** A program that imports the whole library (builtin.rs:36-54). *)')
print('Definition std_imports : list item := [%s].' % '; '.join('IImport [(key_%s, mod_%s)]' % (m, m) for m in ORDER))
