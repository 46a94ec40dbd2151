#!/usr/bin/env python3
"""Transcribes expectations of the project's own Go tests (calls of runTests with a syntax literal,
and the tables of errors_test.go) into Coq, to validate the model against the expectations the
authors wrote down.  Writes rocq/theories/GoTests.v."""
import re, sys, ast

def tokenize(src):
    toks = []; i = 0
    while i < len(src):
        c = src[i]
        if c.isspace(): i += 1; continue
        if src.startswith('//', i):
            i = src.find('\n', i); continue
        if c == '`':
            j = src.index('`', i + 1); toks.append(('s', src[i+1:j])); i = j + 1; continue
        if c == '"':
            j = i + 1
            while src[j] != '"':
                j += 2 if src[j] == '\\' else 1
            toks.append(('s', ast.literal_eval(src[i:j+1]))); i = j + 1; continue
        if c == "'":
            j = i + 1
            while src[j] != "'":
                j += 2 if src[j] == '\\' else 1
            toks.append(('c', src[i:j+1])); i = j + 1; continue
        m = re.match(r'[A-Za-z_][A-Za-z0-9_.]*|\d+|:=|[^\s]', src[i:])
        toks.append(('t', m.group(0))); i += len(m.group(0))
    return toks

class P:
    def __init__(s, toks, i, consts): s.t = toks; s.i = i; s.consts = consts
    def peek(s): return s.t[s.i]
    def eat(s, x=None):
        k = s.t[s.i]
        if x is not None and k != ('t', x): raise Exception('expected %s got %r' % (x, k))
        s.i += 1; return k
    def value(s):
        # type prefix
        while s.peek() in (('t', '&'), ('t', '['), ('t', ']'), ('t', '*')): s.eat()
        k = s.peek()
        if k[0] == 's':
            s.eat()
            v = k[1]
            while s.peek() == ('t', '+'):
                s.eat(); v += s.value()
            return v
        if k[0] == 't' and re.match(r'^\d+$', k[1]): s.eat(); return int(k[1])
        if k[0] == 't' and re.match(r'^[A-Za-z]', k[1]):
            s.eat()
            if k[1] == 'true': return True
            if k[1] == 'false': return False
            if k[1] in s.consts: return s.consts[k[1]]
            if s.peek() != ('t', '{'): raise Exception('ident ' + k[1])
        s.eat('{')
        out = None
        while s.peek() != ('t', '}'):
            if s.peek()[0] == 't' and s.t[s.i+1] == ('t', ':'):
                key = s.eat()[1]; s.eat(':')
                if out is None: out = {}
                out[key] = s.value()
            else:
                if out is None: out = []
                out.append(s.value())
            if s.peek() == ('t', ','): s.eat()
        s.eat('}')
        return out if out is not None else {}

def cs(x):
    for ch in x:
        assert ord(ch) < 128
    return '"' + x.replace('"', '""') + '"'
def cnode(n):
    return 'Node %s %d %d [%s]' % (cs(n.get('Name', '')), n.get('From', 0), n.get('To', 0),
                                   '; '.join(cnode(x) for x in (n.get('Nodes') or [])))
out = ['(** Expectations of the project\'s Go tests, transcribed by tools/gotests.py, checked on the model.',
       '    These are tests of the model, not proofs of properties. *)',
       'From Verif Require Import Base Utf8 Results Parser Build Syntax SelfData Define GoTestsHead.',
       'Local Open Scope string_scope.', '']
count = 0
skipped = []
for f in ['parse_test.go', 'keyword_test.go', 'whitespace_test.go', 'errors_test.go']:
    toks = tokenize(open('/repo/' + f).read())
    consts = {}
    groups = []
    for i, k in enumerate(toks[:-2]):
        if k[0] == 't' and toks[i+1] in (('t', '='), ('t', ':=')) and toks[i+2][0] == 's':
            consts[k[1]] = toks[i+2][1]
        if k in (('t', 'runTests'), ('t', 'testParseError')) and toks[i+1] == ('t', '(') and toks[i+2] == ('t', 't') and toks[i+3] == ('t', ','):
            a = toks[i+4]
            syn = a[1] if a[0] == 's' else consts.get(a[1])
            if syn is None: skipped.append((f, i)); continue
            try:
                p = P(toks, i + 6, consts)
                v = p.value()
            except Exception as e:
                skipped.append((f, i, str(e))); continue
            groups.append((k[1], syn, v))
    for kind, syn, tests in groups:
        rows = []
        for t in tests:
            try:
                if kind == 'testParseError':
                    pe = t['perr']
                    rows.append('(%s, %s, ExpectErr %d %d %d %s)' % (cs(t.get('syntax') or syn), cs(t.get('doc', '')),
                        pe.get('Offset', 0), pe.get('Line', 0), pe.get('Column', 0), cs(pe.get('Definition', ''))))
                elif t.get('fail'):
                    rows.append('(%s, %s, ExpectFail)' % (cs(syn), cs(t.get('text', ''))))
                else:
                    ig = 'true' if t.get('ignorePosition') else 'false'
                    if 'node' in t:
                        rows.append('(%s, %s, ExpectNode %s (%s))' % (cs(syn), cs(t.get('text', '')), ig, cnode(t['node'])))
                    else:
                        rows.append('(%s, %s, ExpectNodes %s [%s])' % (cs(syn), cs(t.get('text', '')), ig,
                                    '; '.join(cnode(x) for x in (t.get('nodes') or []))))
            except AssertionError:
                skipped.append((f, t.get('title')))
        if rows:
            count += 1
            out.append('Example %s_%d : map check [\n  %s] = repeat true %d.' %
                       (f.split('.')[0], count, ';\n  '.join(rows), len(rows)))
            out.append('Proof. vm_compute. reflexivity. Qed.\n')
open('/verif/rocq/theories/GoTests.v', 'w').write('\n'.join(out))
print(count, 'groups; skipped', skipped)
