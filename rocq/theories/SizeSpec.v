(** Specification: the nodes of a tree. *)
From Verif Require Import Base Parser Build Syntax Grammar.

(** the number of the nodes of a tree: how many a traversal visits *)
Fixpoint nodeCount (n : node) : nat :=
  match n with Node _ _ _ l => S (fold_right (fun x k => nodeCount x + k) 0 l) end.

(** no sequence requires an item more than once: every minimum is zero or one *)
Definition minimumsAtMostOne (calls : list defcall) : Prop :=
  forall n ct items it, In (DSequence n ct items) calls -> In it items -> (siMin it <= 1)%Z.
