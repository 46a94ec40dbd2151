(** Specification: alias definitions written out where they are referred to. *)
From Verif Require Import Base Parser Syntax Grammar WsLang RefSpec.

(** the definition with a name *)
Definition callOf (calls : list defcall) (n : string) : option defcall := find (fun d => String.eqb (callName d) n) calls.
(** an item that occurs exactly once *)
Definition isOnce (it : seqItem) : bool := match bounds it with (1, Some 1) => true | _ => false end.

Section INLINE.
Variables (calls : list defcall) (sel : string -> bool).
(** the items of an alias sequence that is selected to be written out *)
Definition seqBody (n : string) : option (commitType * list seqItem) :=
  if sel n then
    match callOf calls n with
    | Some (DSequence _ ct items) => if hasFlag ct CAlias && negb (hasFlag ct CNoKeyword) then Some (ct, items) else None
    | _ => None
    end
  else None.
(** the options of an alias choice that is selected to be written out *)
Definition choiceBody (n : string) : option (list string) :=
  if sel n then
    match callOf calls n with
    | Some (DChoice _ ct options) => if hasFlag ct CAlias then Some options else None
    | _ => None
    end
  else None.
Definition writeItem (it : seqItem) : list seqItem :=
  match seqBody (siName it) with
  | Some (_, items) => if isOnce it then items else [it]
  | None => [it]
  end.
Definition writeOption (o : string) : list string := match choiceBody o with Some options => options | None => [o] end.
(** a definition with the selected sequences written out in place of the items that refer to them
    once, and the selected choices in place of the options that refer to them *)
Definition writeOut (d : defcall) : defcall :=
  match d with
  | DSequence n ct items => DSequence n ct (flat_map writeItem items)
  | DChoice n ct options => DChoice n ct (flat_map writeOption options)
  | _ => d
  end.
(** with whitespace definitions: a sequence is written out in sequences that take whitespace between
    the items when it does so itself, and then its first item is not one that may be missing and may
    be repeated *)
Definition spacedAlike : Prop :=
  spacing calls = true -> forall n ct items it ctX itemsX,
    In (DSequence n ct items) calls -> In it items -> isOnce it = true -> seqBody (siName it) = Some (ctX, itemsX) ->
    compact ctX = compact ct /\ (compact ct = false -> exists first rest, itemsX = first :: rest /\ (fst (bounds first) <> 0 \/ snd (bounds first) = Some 1)).
End INLINE.
