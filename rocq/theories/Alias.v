(** Model of the slices that the caller and the syntax share: syntax.go:204-279,
    sequencedefine.go:25-37, 63-69, choicedefine.go:29-35, chardefine.go:13-25.

    Sequence, Choice and Class keep the slices of their arguments: newSequence has [items: items],
    newChoice [options: options], newChar [chars: chars, ranges: ranges].  AnyChar has no slice,
    CharSequence copies its characters.  The memory of the caller is a list of arrays; a slice is a
    part of one.  The state is a syntax, the links from fields of its definitions to slices, and the
    memory.  The content of a linked field is in the memory only: a method runs on the [view], the
    syntax with the contents in their places, and [store] puts the contents back.  When fields share
    an element, a method that writes it (initRanges, by normalizeItemRange, which is idempotent)
    writes the same value for each of them.  Simplification: a [][]rune of ranges is one array of
    pairs. *)
From Verif Require Import Base Utf8 Parser Build Syntax.

(** an array of Go, and the memory of the caller; a slice (pointer, offset, length), and reading and writing it *)
Inductive array :=
| AItems (l : list seqItem) | ANames (l : list string) | ARunes (l : list rune) | ARanges (l : list (rune * rune)).
Definition memory := list array.
Record slice := mkSlice { slArray : nat; slFrom : nat; slLen : nat }.
Definition part {A} (sl : slice) (l : list A) : list A := firstn (slLen sl) (skipn (slFrom sl) l).
Definition overwrite {A} (sl : slice) (x l : list A) : list A := firstn (slFrom sl) l ++ x ++ skipn (slFrom sl + List.length x) l.

(** the elements of a slice, by their type *)
Definition itemsAt (m : memory) (sl : slice) : list seqItem :=
  match nth_error m (slArray sl) with Some (AItems l) => part sl l | _ => [] end.
Definition namesAt (m : memory) (sl : slice) : list string :=
  match nth_error m (slArray sl) with Some (ANames l) => part sl l | _ => [] end.
Definition runesAt (m : memory) (sl : slice) : list rune :=
  match nth_error m (slArray sl) with Some (ARunes l) => part sl l | _ => [] end.
Definition rangesAt (m : memory) (sl : slice) : list (rune * rune) :=
  match nth_error m (slArray sl) with Some (ARanges l) => part sl l | _ => [] end.

(** a field of the definition at an address, and the slice it holds *)
Inductive field := FItems | FOptions | FChars | FRanges.
Definition link := (addr * field * slice)%type.
Record shared := mkShared { aSyntax : syntax; aLinks : list link; aMemory : memory }.

(** the field of the definition (sequencedefine.go:9-23, choicedefine.go:8-19, char.go:3-9) as read through its slice *)
Definition setField (m : memory) (f : field) (sl : slice) (d : defobj) : defobj :=
  match f, dKind d with
  | FItems, KSeq oi _ rs ids gs ac v i => setKind (KSeq oi (itemsAt m sl) rs ids gs ac v i) d
  | FOptions, KChoice _ ods gs v i => setKind (KChoice (namesAt m sl) ods gs v i) d
  | FChars, KChar n _ rs => setKind (KChar n (runesAt m sl) rs) d
  | FRanges, KChar n cs _ => setKind (KChar n cs (rangesAt m sl)) d
  | _, _ => d
  end.
(** all definitions, with the linked fields as read through their slices *)
Definition viewHeap (m : memory) (links : list link) (h : dheap) : dheap :=
  fold_left (fun h l => let '(a, f, sl) := l in updNth a (setField m f sl) h) links h.
Definition view (st : shared) : syntax := withHeap (aSyntax st) (viewHeap (aMemory st) (aLinks st) (sHeap (aSyntax st))).

(** writing a field through its slice, sequencedefine.go:63-69 *)
Definition storeField (f : field) (sl : slice) (d : defobj) (ar : array) : array :=
  match f, dKind d, ar with
  | FItems, KSeq _ items _ _ _ _ _ _, AItems l => AItems (overwrite sl items l)
  | FOptions, KChoice options _ _ _ _, ANames l => ANames (overwrite sl options l)
  | FChars, KChar _ chars _, ARunes l => ARunes (overwrite sl chars l)
  | FRanges, KChar _ _ ranges, ARanges l => ARanges (overwrite sl ranges l)
  | _, _, _ => ar
  end.
(** all linked fields *)
Definition store (h : dheap) (links : list link) (m : memory) : memory :=
  fold_left (fun m l => let '(a, f, sl) := l in
    match nth_error h a with Some d => updNth (slArray sl) (storeField f sl d) m | None => m end) links m.
(** the state after a method, with the links it has made *)
Definition after (st : shared) (s : syntax) (new : list link) : shared :=
  mkShared s (aLinks st ++ new) (store (sHeap s) (aLinks st) (aMemory st)).

(** a definition call with slices of the caller *)
Inductive slicecall :=
| SSequence (name : string) (ct : commitType) (items : slice)
| SChoice (name : string) (ct : commitType) (options : slice)
| SClass (name : string) (ct : commitType) (cnot : bool) (chars ranges : slice)
| SCharSequence (name : string) (ct : commitType) (chars : slice)
| SAnyChar (name : string) (ct : commitType).
(** the arguments of a call as read from the memory, syntax.go:202-283 *)
Definition contents (m : memory) (c : slicecall) : defcall :=
  match c with
  | SSequence n ct items => DSequence n ct (itemsAt m items)
  | SChoice n ct options => DChoice n ct (namesAt m options)
  | SClass n ct cnot chars ranges => DClass n ct cnot (runesAt m chars) (rangesAt m ranges)
  | SCharSequence n ct chars => DCharSequence n ct (runesAt m chars)
  | SAnyChar n ct => DAnyChar n ct
  end.
(** the fields of the definition at [a], which the call made, that keep a slice *)
Definition linksOf (c : slicecall) (a : addr) (d : defobj) : list link :=
  match c, dKind d with
  | SSequence _ _ items, KSeq _ _ _ _ _ _ _ _ => [(a, FItems, items)]
  | SChoice _ _ options, KChoice _ _ _ _ _ => [(a, FOptions, options)]
  | SClass _ _ _ chars ranges, KChar _ _ _ => [(a, FChars, chars); (a, FRanges, ranges)]
  | _, _ => []
  end.
(** for all definitions that the call made *)
Fixpoint newLinks (c : slicecall) (a : addr) (l : list defobj) : list link :=
  match l with [] => [] | d :: l' => linksOf c a d ++ newLinks c (S a) l' end.

(** Sequence, Choice, Class, CharSequence, AnyChar *)
Definition sliceDefine (st : shared) (c : slicecall) : shared * option gerr :=
  let n := List.length (sHeap (aSyntax st)) in
  let '(s, e) := defineCall (view st) (contents (aMemory st) c) in
  (after st s (newLinks c n (skipn n (sHeap s))), e).
(** Init *)
Definition sliceInit (fuel : nat) (st : shared) : res (shared * option gerr) :=
  r <- Init fuel (view st) ;; Ok (after st (fst r) [], snd r).
(** Parse *)
Definition sliceParse (fuel : nat) (st : shared) (input : list rune) (e : rend) : res (shared * parseOut) :=
  r <- Parse fuel (view st) input e ;; Ok (after st (fst r) [], snd r).
(** the caller changes its memory *)
Definition withMemory (st : shared) (m : memory) : shared := mkShared (aSyntax st) (aLinks st) m.
