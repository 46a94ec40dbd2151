(** Specification: how many times builder.build (syntaxhead.go:67-71) runs for an input, and how deep its
    calls are nested. *)
From Verif Require Import Base Parser Syntax CostBuild.

(** Parse of an initialized syntax calls the builders [k] times; with enough fuel the number does not
    depend on it *)
Definition BuildCalls (s : syntax) (input : list rune) (e : rend) (k : nat) : Prop :=
  exists fuel, forall fuel', fuel <= fuel' -> buildCalls fuel' s input e = Ok k.
(** at most [d] calls of the builders are active at the same time, and at some point [d] are *)
Definition BuildDepth (s : syntax) (input : list rune) (e : rend) (d : nat) : Prop :=
  exists fuel, forall fuel', fuel <= fuel' -> buildDepth fuel' s input e = Ok d.
