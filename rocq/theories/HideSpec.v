(** Specification: the alias flag, as a change of the definitions and of the trees. *)
From Verif Require Import Base Parser Build Syntax.

(** the definition call with the alias flag added, if its name is one of [hidden] *)
Definition aliasIf (hidden : string -> bool) (d : defcall) : defcall :=
  let more n ct := if hidden n then N.lor ct CAlias else ct in
  match d with
  | DAnyChar n ct => DAnyChar n (more n ct)
  | DClass n ct cnot chars ranges => DClass n (more n ct) cnot chars ranges
  | DCharSequence n ct chars => DCharSequence n (more n ct) chars
  | DSequence n ct items => DSequence n (more n ct) items
  | DChoice n ct options => DChoice n (more n ct) options
  end.

(** a tree without its nodes named [hidden]: the children of such a node take its place *)
Fixpoint hide (hidden : string -> bool) (t : node) : list node :=
  match t with
  | Node name from to nodes =>
    let nodes := flat_map (hide hidden) nodes in
    if hidden name then nodes else [Node name from to nodes]
  end.
