(** Specification of positions in a text, and of the fields of the text of a node. *)
From Coq Require Import DecimalString.
From Verif Require Import Base.

(** the number of newlines; and the column at the end of [before]: the distance from the last newline *)
Definition newlines (text : list rune) : nat := List.length (filter (fun r => Z.eqb r 10) text).
Definition columnOf (before : list rune) (col : nat) : Prop :=
  exists earlier line, before = earlier ++ line /\ List.length line = col /\ ~ In 10%Z line /\
  (earlier = [] \/ exists e, earlier = e ++ [10%Z]).

(** the fields name:from:to:text, with the standard library's reader of decimal numbers *)
Fixpoint untilColon (s : string) : string * string :=
  match s with
  | EmptyString => (EmptyString, EmptyString)
  | String c s' => if Ascii.eqb c ":" then (EmptyString, s') else (String c (fst (untilColon s')), snd (untilColon s'))
  end.
Definition number (s : string) : option Z := option_map Z.of_int (NilZero.int_of_string s).
Definition nodeFields (s : string) : string * option Z * option Z * string :=
  let (name, s1) := untilColon s in
  let (from, s2) := untilColon s1 in
  let (to, text) := untilColon s2 in
  (name, number from, number to, text).
