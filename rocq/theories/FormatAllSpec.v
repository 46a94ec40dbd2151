(** The parts of an expression. *)
From Verif Require Import Base Utf8 Parser Build Syntax ReadSpec.
Local Open Scope list_scope.

(** the expression itself and everything inside *)
Fixpoint inside (x : expr) : list expr :=
  x :: match x with
       | ESequence items => flat_map (fun it => inside (fst it)) items
       | EChoice options => flat_map inside options
       | _ => []
       end.
