(** Specification vocabulary: what the sources named by the arguments of a command deliver. *)
From Verif Require Import Base Parser Cli CliSpec ArgSpec.
Local Open Scope string_scope.
Local Open Scope list_scope.

(** the syntax that the arguments name has these bytes *)
Definition syntaxHas (w : world) (vs : list (string * string)) (positional : list string) (bs : list Z) (e : rend) : Prop :=
  exists src, takes w (syntaxGiven vs positional) src /\ delivers w src bs e.
(** the input that the arguments name has these bytes; the syntax is read before it *)
Definition inputHas (w : world) (vs : list (string * string)) (positional : list string) (bs : list Z) (e : rend) : Prop :=
  exists src1 src2, takes w (syntaxGiven vs []) src1 /\ takes w (inputGiven vs positional) src2 /\ deliversAfter w src1 src2 bs e.
