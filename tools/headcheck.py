#!/usr/bin/env python3
"""Compares the declarations in headCode (head.go), which Generate copies into its output, with
those of the source files the model is made from: tokens only, without comments and trailing commas."""
import json, re, sys
src = open('/repo/head.go').read()
code = json.loads(src[src.index('const headCode = ') + len('const headCode = '):].strip())
def decls(s):
    s = re.sub(r'//[^\n]*', '', s)
    out = []
    for p in re.split(r'\n(?=func |type |var |const |import |package )', '\n' + s):
        if not p.strip() or p.startswith(('package', 'import')): continue
        t = ' '.join(re.findall(r'"(?:\\.|[^"\\])*"|`[^`]*`|\w+|[^\s\w]', p))
        out.append(re.sub(r', ([)}])', r'\1', t))
    return out
H = decls(code)
S = [d for f in ['char.go', 'sequence.go', 'choice.go', 'idset.go', 'results.go', 'context.go', 'nodehead.go', 'syntaxhead.go']
     for d in decls(open('/repo/' + f).read())]
a = [d.replace(' ', '') for d in H]; b = [d.replace(' ', '') for d in S]
a = [x for x in a if not x.startswith('import')]; b = [x for x in b if not x.startswith('import')]
for x in a:
    if x not in b: print('only in head.go:', x[:200])
for x in b:
    if x not in a: print('only in sources:', x[:200])
print(len(a), 'declarations compared'); sys.exit(sorted(a) != sorted(b))
