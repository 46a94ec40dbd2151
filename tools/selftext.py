#!/usr/bin/env python3
"""Copies /repo/syntax.treerack into rocq/theories/SelfText.v as a Coq string."""
s = open('/repo/syntax.treerack').read()
open('/verif/rocq/theories/SelfText.v', 'w').write('(** The text of syntax.treerack (whole file), copied by tools/selftext.py. *)\nFrom Verif Require Import Base.\nDefinition selfText : string := "%s"%%string.\n' % s.replace('"', '""'))
