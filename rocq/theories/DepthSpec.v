(** Specification: how deep the calls of parser.parse (syntaxhead.go:60-65) are nested for an input. *)
From Verif Require Import Base Parser Syntax Cost.

(** in Parse of an initialized syntax at most [d] calls of the parsers are active at the same time, and at
    some point [d] are; with enough fuel the number does not depend on it *)
Definition CallDepth (s : syntax) (input : list rune) (e : rend) (d : nat) : Prop :=
  exists fuel, forall fuel', fuel <= fuel' -> parseDepth fuel' s input e = Ok d.
