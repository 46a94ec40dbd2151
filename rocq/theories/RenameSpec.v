(** Specification: other names for the definitions. *)
From Verif Require Import Base Parser Build Syntax.

(** a definition call with other names, in the definition and in its references *)
Definition renameItem (f : string -> string) (it : seqItem) : seqItem := mkItem (f (siName it)) (siMin it) (siMax it).
Definition renameCall (f : string -> string) (d : defcall) : defcall :=
  match d with
  | DAnyChar n ct => DAnyChar (f n) ct
  | DClass n ct cnot chars ranges => DClass (f n) ct cnot chars ranges
  | DCharSequence n ct chars => DCharSequence (f n) ct chars
  | DSequence n ct items => DSequence (f n) ct (map (renameItem f) items)
  | DChoice n ct options => DChoice (f n) ct (map f options)
  end.
(** the names in the definitions: of definitions and in references *)
Definition callRefs (d : defcall) : list string :=
  match d with DSequence _ _ items => map siName items | DChoice _ _ options => options | _ => [] end.
Definition namesIn (calls : list defcall) : list string := flat_map (fun d => callName d :: callRefs d) calls.

(** a tree and an error with other names *)
Fixpoint renameNode (f : string -> string) (t : node) : node :=
  match t with Node name from to nodes => Node (f name) from to (map (renameNode f) nodes) end.
Definition renameErr (f : string -> string) (e : gerr) : gerr :=
  match e with
  | ErrDuplicateDefinition n => ErrDuplicateDefinition (f n)
  | ErrParserNotFound n => ErrParserNotFound (f n)
  | ErrIncompatible n a b => ErrIncompatible (f n) a b
  | ErrParse off line col n => ErrParse off line col (f n)
  | _ => e
  end.
