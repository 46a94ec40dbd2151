(** Specification: how many times parser.parse (syntaxhead.go:60-65) runs for an input, and the syntaxes
    where sequences do not refer to themselves without a choice in between. *)
From Verif Require Import Base Parser Syntax Grammar Cost.

(** Parse of an initialized syntax calls the parsers [k] times before the root returns; with enough fuel
    the number does not depend on it *)
Definition Calls (s : syntax) (input : list rune) (e : rend) (k : nat) : Prop :=
  exists fuel, forall fuel', fuel <= fuel' -> parseCalls fuel' s input e = Ok k.

(** the sequences can be ranked such that the items of one are choices or have a smaller rank: every cycle
    of references contains a choice *)
Definition choiceInEveryCycle (calls : list defcall) : Prop :=
  exists rank : string -> nat, forall n ct items it, In (DSequence n ct items) calls -> In it items ->
  (exists ct' options, In (DChoice (siName it) ct' options) calls) \/ rank (siName it) < rank n.
