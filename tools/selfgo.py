#!/usr/bin/env python3
"""Writes SelfGo.v: the function Parse of self/self.go without white space."""
import re
t = open('/repo/self/self.go').read()
t = t[t.index('func Parse('):]
t = re.sub(r'\s', '', t)
assert ';' not in t and ',}' not in t
parts = [t[i:i+800].replace('"', '""') for i in range(0, len(t), 800)]
open('/verif/rocq/theories/SelfGo.v', 'w').write('''(** Written by tools/selfgo.py: the function Parse of self/self.go without white space. *)
From Coq Require Import String List.
Import ListNotations.
Local Open Scope string_scope.
Definition selfGo : list string := [
%s].
''' % ";\n".join('"%s"' % p for p in parts))
