#!/usr/bin/env python3
"""Write rocq/theories/OpTabM.v: the overloads and node types of
NeboOperators.h and NeboAssignment.h as tables, read from the headers."""
import re, sys

repo = sys.argv[1] if len(sys.argv) > 1 else '/repo'
out = sys.argv[2] if len(sys.argv) > 2 else '/verif/rocq/theories/OpTabM.v'
txt = open(repo + '/spatialops/NeboOperators.h').read()
asg = open(repo + '/spatialops/NeboAssignment.h').read()


def line(text, pos):
    return text.count('\n', 0, pos) + 1


def squash(s):
    return re.sub(r'\s+', '', s)


# ---- expressions in eval() ------------------------------------------------
def parse(s):
    toks = re.findall(r'operand[12]?_\.eval\(\)|[a-z][a-z0-9:]*|&&|\|\||==|!=|<=|>=|[-+*/<>!?:(),]', s)
    assert ''.join(toks) == s, s
    pos = [0]

    def peek():
        return toks[pos[0]] if pos[0] < len(toks) else ''

    def take():
        pos[0] += 1
        return toks[pos[0] - 1]

    def primary():
        t = take()
        if t == '(':
            e = expr()
            assert take() == ')'
            return e
        if t.startswith('operand'):
            return 'Operand%s' % ('2' if '2' in t else '1')
        if t in '-!':
            return '(Prefix "%s" %s)' % (t, primary())
        assert re.match('[a-z]', t), (t, s)
        assert take() == '('
        args = [expr()]
        while peek() == ',':
            take()
            args.append(expr())
        assert take() == ')'
        return '(Call%d "%s" %s)' % (len(args), t, ' '.join(args))

    def expr():
        a = primary()
        if peek() in ('+', '-', '*', '/', '<', '>', '<=', '>=', '==', '!=', '&&', '||'):
            o = take()
            a = '(Infix "%s" %s %s)' % (o, a, primary())
        if peek() == '?':
            take()
            b = primary()
            assert take() == ':'
            a = '(Choose %s %s %s)' % (a, b, primary())
        return a
    e = expr()
    assert pos[0] == len(toks), s
    return e


# ---- node types -----------------------------------------------------------
cases = r'/\* (Scalar|Field|Boolean|SubBoolExpr|Mask|SubExpr|SingleValue|SingleValueExpr)( X (\w+))? \*/'
starts = [(m.group(1), m.start()) for m in re.finditer(r'struct (\w+);', txt)]
bounds = starts + [('', len(txt))]
nodes = []
for (name, a), (_, b) in zip(bounds, bounds[1:]):
    st = txt[a:a + re.search(cases, txt[a:b]).start()]
    modes = {}
    parts = [(m.group(1), m.start()) for m in re.finditer(r'struct %s<(\w+),' % name, st)]
    for (mode, p), (_, q) in zip(parts, parts[1:] + [('', len(st))]):
        m = re.search(r'inline (\w+) eval\((?:void)?\) const \{\s*return\s*(.*?);\s*\}', st[p:q], re.S)
        if m:
            modes[mode] = (m.group(1), parse(squash(m.group(2))))
    assert sorted(modes) == ['GPUWalk', 'Reduction', 'SeqWalk'], (name, modes)
    assert len({t for t, _ in modes.values()}) == 1
    nodes.append((name, line(txt, a), line(txt, a + len(st)), modes['SeqWalk'][0] == 'bool',
                  modes['SeqWalk'][1], modes['GPUWalk'][1], modes['Reduction'][1]))

# ---- overloads ------------------------------------------------------------
SV = 'SpatialOps::structured::SpatialField<SpatialOps::structured::SingleValue,'


def kind(p):
    if p in ('typenameFieldType::value_type', 'typename' + SV + 'T>::value_type'):
        return 'KScalar'
    if p == 'FieldType':
        return 'KField'
    if p in (SV + 'T>', SV + 'typenameFieldType::value_type>'):
        return 'KSingle'
    if p == 'bool':
        return 'KBool'
    if p == 'structured::SpatialMask<FieldType>':
        return 'KMask'
    m = re.match(r'(Nebo\w+)<\w+,(FieldType|T|typenameFieldType::value_type)>$', p)
    return {'NeboExpression': 'KExpr', 'NeboSingleValueExpression': 'KSExpr',
            'NeboBooleanExpression': 'KBExpr', 'NeboBooleanSingleValueExpression': 'KBSExpr'}[m.group(1)]


def wrap(a):
    m = re.match(r'(arg[12]?|rhs)\.expr\(\)$', a)
    if m:
        return 'WExpr', m.group(1)
    m = re.match(r'(\w+)<Initial,.*>\((arg[12]?|rhs)\)$', a)
    return {'NeboScalar': 'WScalar', 'NeboConstField': 'WField', 'NeboConstSingleValueField': 'WSingle',
            'NeboMask': 'WMask'}[m.group(1)], m.group(2)


def split(s):
    parts, depth, cur = [], 0, ''
    for c in s:
        depth += (c in '<(') - (c in '>)')
        if c == ',' and depth == 0:
            parts.append(cur)
            cur = ''
        else:
            cur += c
    return parts + [cur]


overloads = []
found = list(re.finditer(cases, txt))
ends = [m.start() for m in found[1:]] + [len(txt)]
for c, e in zip(found, ends):
    s = squash(txt[c.end():e])
    m = re.search(r'(operator(?:\+|-|\*|/|==|!=|<=|>=|<(?!Init)|>|&&|\|\||!)|[a-z0-9]+)'
                  r'\(((?:[A-Za-z0-9_:<>,]+?const&arg[12]?,?)+)\)\{(\w+)<Initial,(.*?)>typedefReturnType;'
                  r'(\w+)<ReturnType,(\w+)>typedefReturnTerm;returnReturnTerm\(ReturnType\((.*?)\)\);\}', s)
    name, pars, st, _, term, _, args = m.groups()
    ps = [re.match(r'(.*)const&(arg[12]?)$', p).groups() for p in split(pars)]
    order = [p[1] for p in ps]
    built = []
    for a in split(args):
        w, v = wrap(a)
        built.append('(%s, %d)' % (w, order.index(v)))
    overloads.append((line(txt, c.start()), name, [kind(p[0]) for p in ps], st, built,
                      kind(term + '<ReturnType,FieldType>')))

assigns = []
for m in re.finditer(r'template<[^{]*?>\s*inline[^{]*?\b(operator <<=|interior_assign)\(([^{]*)\) \{(.*?)return lhs;', asg, re.S):
    name, pars, body = m.groups()
    ps = [re.match(r'(.*?)(const)?&(lhs|rhs)$', p).groups() for p in split(squash(pars))]
    assert [p[2] for p in ps] == ['lhs', 'rhs']
    b = squash(body)
    k = re.search(r'NeboField<Initial,(.*?)>\(lhs\)\.templateassign<RhsType>\((true|false),(.*)\);$', b)
    assert kind(k.group(1)) == kind(ps[0][0])
    a = k.group(3)
    if a == 'RhsType(rhs)':
        a = re.match(r'(.*)typedefRhsType;', b).group(1) + '(rhs)'
    assigns.append((line(asg, m.start()), squash(name), kind(ps[0][0]), kind(ps[1][0]), k.group(2), wrap(a)[0]))

w = ['(** The node types and overloads of NeboOperators.h and NeboAssignment.h, one entry for',
     '    each, written by tools/optab.py from the headers.  The numbers are the lines where',
     '    the declaration starts. *)',
     'From Verif Require Import Prelude OpM.', 'From Coq Require Import String.', 'Local Open Scope string_scope.', '',
     '(** NeboOperators.h: the eval() of every node type when assigning, on a GPU and in',
     '    reductions; true: of type bool. *)',
     'Definition node_types : list node_type := [']
w.append(';\n'.join('  (* NeboOperators.h:%d-%d *) Node "%s" %s\n    %s\n    %s\n    %s'
                    % (a, b, n, str(q).lower(), x, y, z) for n, a, b, q, x, y, z in nodes))
w += ['].', '', '(** NeboOperators.h: line, function, parameters, node type, its operands, result. *)',
      'Definition overloads : list overload := [']
w.append(';\n'.join('  Over %d "%s" [%s] "%s" [%s]%%nat %s' % (l, n, '; '.join(p), s, '; '.join(b), r)
                    for l, n, p, s, b, r in overloads))
w += ['].', '', '(** NeboAssignment.h: line, function, destination, right-hand side, with ghosts, operand. *)',
      'Definition assign_overloads : list assign_overload := [']
w.append(';\n'.join('  AOver %d "%s" %s %s %s %s' % x for x in assigns))
w += ['].', '']
open(out, 'w').write('\n'.join(w))
print(len(nodes), len(overloads), len(assigns))
