#!/usr/bin/env python3
"""Transcribes the parser and builder tables of /repo/self/self.go (lines 812 and on, written by
the project's own generator) into rocq/theories/SelfData.v.  The address of an entry is its id."""
import re
src = open('/repo/self/self.go').read()
start = src.index('func Parse(r io.Reader)')
body = src[start:]
ents = {'p': {}, 'b': {}}

def ints(s):
    return [int(x) for x in re.findall(r'-?\d+', s)]

for m in re.finditer(r'var ([pb])(\d+) = (char|sequence|choice)(?:Parser|Builder)\{(.*)\}$', body, re.M):
    k, i, kind, f = m.group(1), int(m.group(2)), m.group(3), m.group(4)
    e = {'kind': kind, 'refs': []}
    def grab(pat, default):
        mm = re.search(pat, f)
        return mm.group(1) if mm else default
    e['id'] = int(grab(r'\bid: (\d+)', '0'))
    e['commit'] = int(grab(r'commit: (\d+)', '0'))
    e['name'] = grab(r'name: "([^"]*)"', '')
    e['allChars'] = 'allChars: true' in f
    e['not'] = 'not: true' in f
    e['gens'] = ints(grab(r'generalizations: \[\]int\{([^}]*)\}', ''))
    e['chars'] = ints(grab(r'chars: \[\]rune\{([^}]*)\}', ''))
    r = grab(r'ranges: \[\]\[\](?:int|rune)\{((?:\{[^}]*\},? ?)*)\}', '')
    e['ranges'] = [tuple(ints(x)) for x in re.findall(r'\{([^}]*)\}', r)]
    assert i not in ents[k]
    ents[k][i] = e
for m in re.finditer(r'^\s*([pb])(\d+)\.(items|options) = \[\](?:parser|builder)\{(.*)\}$', body, re.M):
    k, i = m.group(1), int(m.group(2))
    ents[k][i]['refs'] = [int(x) for x in re.findall(r'&[pb](\d+)', m.group(4))]

ret = re.search(r'return parseInput\(r, &p(\d+), &b(\d+), keywords\)', body)
assert re.search(r'var keywords = \[\]parser\{\}', body)

def coq(e):
    if e is None:
        return 'PChar "" 0 true [] []'
    nl = lambda l: '[' + '; '.join(str(x) for x in l) + ']'
    pl = lambda l: '[' + '; '.join('((%d)%%Z, (%d)%%Z)' % x for x in l) + ']'
    b = lambda x: 'true' if x else 'false'
    if e['kind'] == 'char':
        return 'PChar "%s" %d %s [%s] %s' % (e['name'], e['id'], b(e['not']),
            '; '.join('(%d)%%Z' % x for x in e['chars']), pl(e['ranges']))
    if e['kind'] == 'sequence':
        return 'PSeq "%s" %d %d%%N %s %s %s %s' % (e['name'], e['id'], e['commit'], nl(e['refs']),
            pl(e['ranges']), nl(e['gens']), b(e['allChars']))
    return 'PChoice "%s" %d %d%%N %s %s' % (e['name'], e['id'], e['commit'], nl(e['refs']), nl(e['gens']))

out = ['(** Tables of the parser generated by the project itself for its own syntax description,',
       '    self/self.go:812-1433, written by tools/selfdata.py: the address of an entry is its id;',
       '    ids with no entry in the file get a dummy that nothing refers to. *)',
       'From Verif Require Import Base Results Parser.', 'Local Open Scope string_scope.', '']
for k, nm in (('p', 'selfParsers'), ('b', 'selfBuilders')):
    n = max(ents[k]) + 1
    what = 'self/self.go:813-1120' if k == 'p' else 'self/self.go:1121-1428'
    out.append('(** %s *)' % what)
    out.append('Definition %s : pheap := [' % nm)
    out.append(';\n'.join('  ' + coq(ents[k].get(i)) for i in range(n)))
    out.append('].\n')
out.append('(** self/self.go:1430-1432 *)')
out.append('Definition selfRoot : addr := %s.' % ret.group(1))
out.append('Definition selfBuilderRoot : addr := %s.' % ret.group(2))
open('/verif/rocq/theories/SelfData.v', 'w').write('\n'.join(out) + '\n')
print(len(ents['p']), len(ents['b']))
