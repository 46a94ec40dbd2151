(** Specification: definitions that differ in one flag only. *)
From Verif Require Import Base Parser Syntax.

(** a definition call without a flag *)
Definition dropFlag (F : commitType) (d : defcall) : defcall :=
  match d with
  | DAnyChar n ct => DAnyChar n (N.ldiff ct F)
  | DClass n ct cnot chars ranges => DClass n (N.ldiff ct F) cnot chars ranges
  | DCharSequence n ct chars => DCharSequence n (N.ldiff ct F) chars
  | DSequence n ct items => DSequence n (N.ldiff ct F) items
  | DChoice n ct options => DChoice n (N.ldiff ct F) options
  end.
(** the same definitions but for this flag *)
Definition sameButFlag (F : commitType) (calls calls' : list defcall) : Prop := map (dropFlag F) calls = map (dropFlag F) calls'.
