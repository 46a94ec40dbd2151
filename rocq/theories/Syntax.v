(** Model of the definition half: registry.go, chardefine.go, sequencedefine.go,
    choicedefine.go, whitespace.go, syntax.go. *)
From Coq Require Import DecimalString Decimal.
From Verif Require Import Base Utf8 IdSet Results Parser Build.
Local Open Scope string_scope.
Local Open Scope list_scope.

(** strconv.Itoa *)
Definition itoa (z : Z) : string := NilZero.string_of_int (Z.to_int z).
(** strconv.Itoa of a number that is not negative *)
Definition itoaNat (n : nat) : string := itoa (Z.of_nat n).

(** syntax.go:14-17 SequenceItem *)
Record seqItem := mkItem { siName : string; siMin : Z; siMax : Z }.

(** char.go:3-9 (as a definition), sequencedefine.go:9-23, choicedefine.go:8-19.  The caches
    sparser/sbuilder/cparser/cbuilder are not fields here, see [toParser] and Conc.v. *)
Inductive dkind : Type :=
| KChar (cnot : bool) (chars : list rune) (cranges : list (rune * rune))
| KSeq (originalItems items : list seqItem) (ranges : list (Z * Z)) (itemDefs : list addr)
       (generalizations : list nat) (allChars validated initialized : bool)
| KChoice (options : list string) (optionDefs : list addr) (generalizations : list nat)
          (validated initialized : bool).

(** syntax.go:38-52 definition, the common fields of char.go:3-9, sequencedefine.go:9-23 and choicedefine.go:8-19 *)
Record defobj := mkDef { dName : string; dId : nat; dCommit : commitType; dKind : dkind }.

(** chardefine.go:13-25 newChar; charParser.commitType() is Alias (char.go:18) *)
Definition newChar (name : string) (cnot : bool) (chars : list rune) (ranges : list (rune * rune)) : defobj :=
  mkDef name 0 CAlias (KChar cnot chars ranges).
(** sequencedefine.go:25-37 newSequence *)
Definition newSequence (name : string) (ct : commitType) (items : list seqItem) : defobj :=
  mkDef name 0 ct (KSeq items items [] [] [] false false false).
(** choicedefine.go:29-35 newChoice *)
Definition newChoice (name : string) (ct : commitType) (options : list string) : defobj :=
  mkDef name 0 ct (KChoice options [] [] false false).

(** setName, setID (chardefine.go:27-28, sequencedefine.go:40-42, choicedefine.go:22-24) *)
Definition setName (n : string) (d : defobj) : defobj := mkDef n (dId d) (dCommit d) (dKind d).
Definition setID (i : nat) (d : defobj) : defobj := mkDef (dName d) i (dCommit d) (dKind d).
(** setCommitType: no effect on a char (chardefine.go:29), sequencedefine.go:44, choicedefine.go:26 *)
Definition setCommitType (ct : commitType) (d : defobj) : defobj :=
  match dKind d with
  | KChar _ _ _ => d
  | _ => mkDef (dName d) (dId d) ct (dKind d)
  end.
(** assignment of the fields particular to a kind of definition, sequencedefine.go:63-127, choicedefine.go:37-84 *)
Definition setKind (k : dkind) (d : defobj) : defobj := mkDef (dName d) (dId d) (dCommit d) k.

(** the definition objects behind the pointers; an address is an index *)
Definition dheap := list defobj.

(** registry.go:3-7 registry *)
Record registry := mkRegistry {
  gIdSeed : nat;
  gDefinition : list (string * addr);   (* the map *)
  gDefinitions : list addr }.

(** registry.go:9-12, the empty registry *)
Definition emptyRegistry : registry := mkRegistry 0 [] [].

(** r.definition[n], registry.go:21-33 *)
Fixpoint lookup (m : list (string * addr)) (n : string) : option addr :=
  match m with
  | [] => None
  | (k, a) :: m' => if String.eqb k n then Some a else lookup m' n
  end.

(** syntax.go:19-26 Syntax, together with the heap of the definition objects *)
Record syntax := mkSyntax {
  sHeap : dheap;
  sRegistry : option registry;
  sInitialized : bool;
  sInitFailed : bool;
  sExplicitRoot : bool;
  sKeywords : list addr;
  sRoot : option addr }.

(** [&Syntax{}] *)
Definition emptySyntax : syntax := mkSyntax [] None false false false [] None.

(** the definitions are changed in place; the fields of syntax.go:19-26 stay *)
Definition withHeap (s : syntax) (h : dheap) : syntax :=
  mkSyntax h (sRegistry s) (sInitialized s) (sInitFailed s) (sExplicitRoot s) (sKeywords s) (sRoot s).

(** registry.go:21-33 setDefinition of the object at [a] *)
Definition setDefinition (h : dheap) (r : registry) (a : addr) : dheap * registry * option gerr :=
  match nth_error h a with
  | None => (h, r, None)   (* not reachable: [a] is always allocated *)
  | Some d =>
    match lookup (gDefinition r) (dName d) with
    | Some _ => (h, r, Some (ErrDuplicateDefinition (dName d)))
    | None =>
      let id := S (gIdSeed r) in
      (updNth a (setID id) h,
       mkRegistry id ((dName d, a) :: gDefinition r) (gDefinitions r ++ [a]),
       None)
    end
  end.

(** registry.go:9-19 newRegistry: errors of setDefinition are ignored *)
Fixpoint newRegistryLoop (h : dheap) (r : registry) (defs : list addr) : dheap * registry :=
  match defs with
  | [] => (h, r)
  | a :: defs' => let '(h, r, _) := setDefinition h r a in newRegistryLoop h r defs'
  end.
(** registry.go:9-19 *)
Definition newRegistry (h : dheap) (defs : list addr) : dheap * registry :=
  newRegistryLoop h emptyRegistry defs.

(** syntax.go:94 symbolChars: backslash, space, \n \t \b \f \r \v, slash, dot, brackets, quote,
    braces, caret, plus, star, question mark, bar, parens, colon, equals, semicolon *)
Definition symbolChars : list rune :=
  [92; 32; 10; 9; 8; 12; 13; 11; 47; 46; 91; 93; 34; 123; 125; 94; 43; 42; 63; 124; 40; 41; 58; 61; 59]%Z.

(** syntax.go:96-106 isValidSymbol *)
Definition isValidSymbol (n : string) : bool :=
  forallb (fun r => matchChar symbolChars [] true r) (stringRunes n).

(** syntax.go:112-120 intsContain *)
Definition intsContain (is : list nat) (i : nat) : bool := existsb (fun ii => Nat.eqb ii i) is.

(** syntax.go:122-127 incompatibleCommitTypes.  Go iterates over the map in an arbitrary order:
    [checkCommitTypeIn] takes the table in some order; the model's register uses this one. *)
Definition incompatibleCommitTypes : list (commitType * list commitType) :=
  [ (CAlias, [CRoot]);
    (CWhitespace, [CKeyword; CNoKeyword; CFailPass; CRoot]);
    (CKeyword, [CNoKeyword; CRoot]);
    (CFailPass, [CRoot]) ].

(** syntax.go:129-150 checkCommitType *)
Fixpoint checkCommitTypeIn (table : list (commitType * list commitType)) (d : defobj) : option gerr :=
  match table with
  | [] => None
  | (ct, ict) :: table' =>
    if hasFlag (dCommit d) ct then
      match find (fun cti => hasFlag (dCommit d) cti) ict with
      | Some cti => Some (ErrIncompatible (dName d) ct cti)
      | None => checkCommitTypeIn table' d
      end
    else checkCommitTypeIn table' d
  end.
(** syntax.go:129-150 with the table of syntax.go:122-127 *)
Definition checkCommitType (d : defobj) : option gerr := checkCommitTypeIn incompatibleCommitTypes d.

(** syntax.go:152-172 applyRoot of the object at [a] *)
Definition applyRoot (s : syntax) (a : addr) : syntax * option gerr :=
  match nth_error (sHeap s) a with
  | None => (s, None)   (* not reachable *)
  | Some d =>
    let explicitRoot := hasFlag (dCommit d) CRoot in
    if explicitRoot && sExplicitRoot s then (s, Some ErrMultipleRoots)
    else
      let h := match sRoot s with
               | Some r => if explicitRoot || negb (sExplicitRoot s)
                           then updNth r (fun d => setCommitType (N.ldiff (dCommit d) CRoot) d) (sHeap s)
                           else sHeap s
               | None => sHeap s
               end in
      let (h, root) := if explicitRoot || negb (sExplicitRoot s)
                       then (updNth a (fun d => setCommitType (N.lor (dCommit d) CRoot) d) h, Some a)
                       else (h, sRoot s) in
      (mkSyntax h (sRegistry s) (sInitialized s) (sInitFailed s)
                (if explicitRoot then true else sExplicitRoot s) (sKeywords s) root, None)
  end.

(** syntax.go:174-196 register *)
Definition register (s : syntax) (d : defobj) : syntax * option gerr :=
  if sInitialized s then (s, Some ErrSyntaxInitialized)
  else
    let a := List.length (sHeap s) in
    let reg := match sRegistry s with Some r => r | None => emptyRegistry end in
    let s := mkSyntax (sHeap s ++ [d]) (Some reg) (sInitialized s) (sInitFailed s) (sExplicitRoot s)
                      (sKeywords s) (sRoot s) in
    match checkCommitType d with
    | Some e => (s, Some e)
    | None =>
      match applyRoot s a with
      | (s, Some e) => (s, Some e)
      | (s, None) =>
        let kw := if hasFlag (dCommit d) CKeyword then sKeywords s ++ [a] else sKeywords s in
        let '(h, reg, e) := setDefinition (sHeap s) reg a in
        (mkSyntax h (Some reg) (sInitialized s) (sInitFailed s) (sExplicitRoot s) kw (sRoot s), e)
      end
    end.

(** syntax.go:210-212 childName *)
Definition childName (name : string) (childIndex : nat) : string := (name ++ ":" ++ itoaNat childIndex)%string.

(** syntax.go:214-221 namesToSequenceItems *)
Definition namesToSequenceItems (n : list string) : list seqItem := map (fun x => mkItem x 0 0) n.

(** syntax.go:261-263 sequence *)
Definition sequence (s : syntax) (name : string) (ct : commitType) (items : list seqItem) :=
  register s (newSequence name ct items).
(** syntax.go:273-275 choice *)
Definition choice (s : syntax) (name : string) (ct : commitType) (options : list string) :=
  register s (newChoice name ct options).
(** syntax.go:223-230 class *)
Definition class (s : syntax) (name : string) (ct : commitType) (cnot : bool) (chars : list rune)
           (ranges : list (rune * rune)) : syntax * option gerr :=
  let cname := childName name 0 in
  match register s (newChar cname cnot chars ranges) with
  | (s, Some e) => (s, Some e)
  | (s, None) => sequence s name ct [mkItem cname 0 0]
  end.
(** syntax.go:198-200 anyChar *)
Definition anyChar (s : syntax) (name : string) (ct : commitType) := class s name ct true [] [].
(** syntax.go:241-248, the loop of charSequence *)
Fixpoint charSeqLoop (s : syntax) (name : string) (i : nat) (chars : list rune) : syntax * option gerr :=
  match chars with
  | [] => (s, None)
  | ci :: chars' =>
    match register s (newChar (childName name i) false [ci] []) with
    | (s, Some e) => (s, Some e)
    | (s, None) => charSeqLoop s name (S i) chars'
    end
  end.
(** syntax.go:240-251 charSequence *)
Definition charSequence (s : syntax) (name : string) (ct : commitType) (chars : list rune) : syntax * option gerr :=
  match charSeqLoop s name 0 chars with
  | (s, Some e) => (s, Some e)
  | (s, None) =>
    sequence s name (N.lor ct CNoWhitespace)
             (namesToSequenceItems (map (childName name) (seq 0 (List.length chars))))
  end.

(** the exported definition calls: syntax.go:202-208, 232-238, 253-259, 265-271, 277-283 *)
Inductive defcall : Type :=
| DAnyChar (name : string) (ct : commitType)
| DClass (name : string) (ct : commitType) (cnot : bool) (chars : list rune) (ranges : list (rune * rune))
| DCharSequence (name : string) (ct : commitType) (chars : list rune)
| DSequence (name : string) (ct : commitType) (items : list seqItem)
| DChoice (name : string) (ct : commitType) (options : list string).

(** the name argument of syntax.go:202, 232, 253, 265, 277 *)
Definition callName (d : defcall) : string :=
  match d with
  | DAnyChar n _ => n | DClass n _ _ _ _ => n | DCharSequence n _ _ => n
  | DSequence n _ _ => n | DChoice n _ _ => n
  end.

(** the unexported calls, used by define.go too *)
Definition defineRaw (s : syntax) (d : defcall) : syntax * option gerr :=
  match d with
  | DAnyChar n ct => anyChar s n ct
  | DClass n ct cnot chars ranges => class s n ct cnot chars ranges
  | DCharSequence n ct chars => charSequence s n ct chars
  | DSequence n ct items => sequence s n ct items
  | DChoice n ct options => choice s n ct options
  end.
(** ct|userDefined in the exported calls, syntax.go:202-208, 232-238, 253-259, 265-271, 277-283 *)
Definition withUserDefined (d : defcall) : defcall :=
  match d with
  | DAnyChar n ct => DAnyChar n (N.lor ct CUserDefined)
  | DClass n ct cnot chars ranges => DClass n (N.lor ct CUserDefined) cnot chars ranges
  | DCharSequence n ct chars => DCharSequence n (N.lor ct CUserDefined) chars
  | DSequence n ct items => DSequence n (N.lor ct CUserDefined) items
  | DChoice n ct options => DChoice n (N.lor ct CUserDefined) options
  end.
(** AnyChar, Class, CharSequence, Sequence, Choice *)
Definition defineCall (s : syntax) (d : defcall) : syntax * option gerr :=
  if isValidSymbol (callName d) then defineRaw s (withUserDefined d) else (s, Some ErrInvalidSymbolName).

(** sequencedefine.go:46-61 normalizeItemRange *)
Definition normalizeItemRange (item : seqItem) : seqItem :=
  if Z.eqb (siMin item) 0 && Z.eqb (siMax item) 0 then mkItem (siName item) 1 1
  else
    mkItem (siName item)
           (if Z.leb (siMin item) 0 then 0%Z else siMin item)
           (if Z.leb (siMax item) 0 then (-1)%Z else siMax item).

(** sequencedefine.go:63-69 initRanges *)
Definition initRanges (d : defobj) : defobj :=
  match dKind d with
  | KSeq oi items ranges itemDefs gs ac v i =>
    let items := map normalizeItemRange items in
    setKind (KSeq oi items (ranges ++ map (fun it => (siMin it, siMax it)) items) itemDefs gs ac v i) d
  | _ => d
  end.

(** preinit: chardefine.go:30, sequencedefine.go:71-73, choicedefine.go:27 *)
Definition preinit := initRanges.

(** syntax.go:317-319 *)
Definition preinitAll (h : dheap) (defs : list addr) : dheap :=
  fold_left (fun h a => updNth a preinit h) defs h.

(** ** whitespace.go *)

(** whitespace.go:8 *)
Definition whitespaceName : string := ":ws".

(** d.commitType() and d.nodeName() of the definition behind a pointer, sequencedefine.go:39-43, choicedefine.go:21-25 *)
Definition commitAt (h : dheap) (a : addr) : commitType :=
  match nth_error h a with Some d => dCommit d | None => 0%N end.
Definition nameAt (h : dheap) (a : addr) : string :=
  match nth_error h a with Some d => dName d | None => "" end.

(** whitespace.go:157-165 hasWhitespace *)
Definition hasWhitespace (h : dheap) (defs : list addr) : bool :=
  existsb (fun a => hasFlag (commitAt h a) CWhitespace) defs.

(** whitespace.go:10-23 splitWhitespaceDefs *)
Fixpoint splitWhitespaceDefs (h : dheap) (defs : list addr) : dheap * list addr * list addr :=
  match defs with
  | [] => (h, [], [])
  | a :: defs' =>
    if hasFlag (commitAt h a) CWhitespace then
      let h := updNth a (fun d => setCommitType (N.lor (dCommit d) CAlias) d) h in
      let '(h, ws, rest) := splitWhitespaceDefs h defs' in (h, a :: ws, rest)
    else
      let '(h, ws, rest) := splitWhitespaceDefs h defs' in (h, ws, a :: rest)
  end.

(** whitespace.go:25-41 splitRoot: the last definition carrying Root; all carrying it are removed *)
Definition splitRoot (h : dheap) (defs : list addr) : option addr * list addr :=
  (last (map (@Some addr) (filter (fun a => hasFlag (commitAt h a) CRoot) defs)) None,
   filter (fun a => negb (hasFlag (commitAt h a) CRoot)) defs).

(** whitespace.go:52-54 patchName *)
Definition patchName (s : list string) : string := String.concat ":" s.

(** whitespace.go:62 *)
Definition whitespaceItem : seqItem := mkItem whitespaceName 0 (-1).

(** whitespace.go:63-105, the loop of applyWhitespaceToSeq: the helper definitions and the new
    items of the sequence *)
Fixpoint wsItems (seqName : string) (i : nat) (items : list seqItem) : list defobj * list seqItem :=
  match items with
  | [] => ([], [])
  | item :: items' =>
    let (defs, rest) := wsItems seqName (S i) items' in
    let ws := if Nat.ltb 0 i then [whitespaceItem] else [] in
    if Z.eqb (siMax item) 1 then (defs, ws ++ item :: rest)
    else
      let singleItem := mkItem (siName item) 1 1 in
      let restName := patchName [siName item; seqName; "wsrest"; itoaNat i] in
      let restDef := newSequence restName CAlias [whitespaceItem; singleItem] in
      let restItems := mkItem restName (if Z.ltb 0 (siMin item) then (siMin item - 1)%Z else 0%Z)
                              (if Z.ltb 1 (siMax item) then (siMax item - 1)%Z else (-1)%Z) in
      if Z.ltb 0 (siMin item) then (restDef :: defs, ws ++ singleItem :: restItems :: rest)
      else
        let optName := patchName [siName item; seqName; "wsopt"; itoaNat i] in
        let optDef := newSequence optName CAlias (ws ++ [singleItem; restItems]) in
        (restDef :: optDef :: defs, mkItem optName 0 1 :: rest)
  end.

(** whitespace.go:56-110 applyWhitespaceToSeq: the new definition objects, the sequence last *)
Definition applyWhitespaceToSeq (name : string) (ct : commitType) (items : list seqItem) : list defobj :=
  let (defs, items) := wsItems name 0 items in
  defs ++ [newSequence name ct items].

(** whitespace.go:112-130 applyWhitespaceToDefs; new objects are allocated in the heap *)
Fixpoint applyWhitespaceToDefs (h : dheap) (defs : list addr) : dheap * list addr :=
  match defs with
  | [] => (h, [])
  | a :: defs' =>
    match nth_error h a with
    | Some (mkDef name _ ct (KSeq _ items _ _ _ _ _ _)) =>
      if hasFlag ct CNoWhitespace then
        let (h, rest) := applyWhitespaceToDefs h defs' in (h, a :: rest)
      else
        let new := applyWhitespaceToSeq name ct items in
        let base := List.length h in
        let (h, rest) := applyWhitespaceToDefs (h ++ new) defs' in
        (h, seq base (List.length new) ++ rest)
    | _ => let (h, rest) := applyWhitespaceToDefs h defs' in (h, a :: rest)
    end
  end.

(** whitespace.go:132-155 applyWhitespaceToRoot, for an existing root *)
Definition applyWhitespaceToRoot (h : dheap) (root : addr) : dheap * addr :=
  let name := nameAt h root in
  let wsName := patchName [name; "wsroot"] in
  let h := updNth root (fun d => setCommitType (N.lor (N.ldiff (dCommit d) CRoot) CAlias) (setName wsName d)) h in
  (h ++ [newSequence name CRoot [whitespaceItem; mkItem wsName 1 1; whitespaceItem]], List.length h).

(** whitespace.go:167-187 applyWhitespace; a missing root is a nil interface call in
    applyWhitespaceToRoot *)
Definition applyWhitespace (h : dheap) (defs : list addr) : res (dheap * list addr * addr) :=
  let '(h, wsDefs, defs) := splitWhitespaceDefs h defs in
  let wsAddr := List.length h in
  let h := h ++ [newChoice whitespaceName CAlias (map (nameAt h) wsDefs)] in
  let (h, defs) := applyWhitespaceToDefs h defs in
  let (root, defs) := splitRoot h defs in
  match root with
  | None => Panic PanicNil
  | Some originalRoot =>
    let (h, root) := applyWhitespaceToRoot h originalRoot in
    Ok (h, defs ++ wsDefs ++ [wsAddr; originalRoot; root], root)
  end.

(** ** validate and init *)

Section DEFREC.
Variable m : list (string * addr).   (* r.definition *)

(** sequencedefine.go:81-90, choicedefine.go:43-52: the loop over the referenced names *)
Fixpoint validateNames (rec : dheap -> addr -> res (dheap * option gerr)) (names : list string) (h : dheap)
  : res (dheap * option gerr) :=
  match names with
  | [] => Ok (h, None)
  | n :: names' =>
    match lookup m n with
    | None => Ok (h, Some (ErrParserNotFound n))
    | Some a =>
      he <- rec h a ;;
      match he with
      | (h, Some e) => Ok (h, Some e)
      | (h, None) => validateNames rec names' h
      end
    end
  end.

(** validate: chardefine.go:31, sequencedefine.go:75-93, choicedefine.go:37-55 *)
Fixpoint validate (n : nat) (h : dheap) (a : addr) : res (dheap * option gerr) :=
  match n with
  | O => NoFuel
  | S n' =>
    match nth_error h a with
    | None => Panic PanicNil
    | Some d =>
      match dKind d with
      | KChar _ _ _ => Ok (h, None)
      | KSeq oi items ranges itemDefs gs ac v i =>
        if v then Ok (h, None)
        else validateNames (validate n') (map siName items)
                           (updNth a (setKind (KSeq oi items ranges itemDefs gs ac true i)) h)
      | KChoice options od gs v i =>
        if v then Ok (h, None)
        else validateNames (validate n') options (updNth a (setKind (KChoice options od gs true i)) h)
      end
    end
  end.

(** addGeneralization: chardefine.go:33, sequencedefine.go:121-127, choicedefine.go:75-84.  The
    range over [d.optionDefs] uses the slice as it is when the loop starts. *)
Fixpoint forAddrs (rec : dheap -> addr -> res dheap) (l : list addr) (h : dheap) : res dheap :=
  match l with
  | [] => Ok h
  | a :: l' => h <- rec h a ;; forAddrs rec l' h
  end.

(** addGeneralization: chardefine.go:33, sequencedefine.go:121-127, choicedefine.go:75-84 *)
Fixpoint addGeneralization (n : nat) (g : nat) (h : dheap) (a : addr) : res dheap :=
  match n with
  | O => NoFuel
  | S n' =>
    match nth_error h a with
    | None => Panic PanicNil
    | Some d =>
      match dKind d with
      | KChar _ _ _ => Ok h
      | KSeq oi items ranges itemDefs gs ac v i =>
        if intsContain gs g then Ok h
        else Ok (updNth a (setKind (KSeq oi items ranges itemDefs (gs ++ [g]) ac v i)) h)
      | KChoice options od gs v i =>
        if intsContain gs g then Ok h
        else forAddrs (addGeneralization n' g) od
                      (updNth a (setKind (KChoice options od (gs ++ [g]) v i)) h)
      end
    end
  end.

(** append to itemDefs, sequencedefine.go:95-109, and to optionDefs, choicedefine.go:57-64 *)
Definition addItemDef (x : addr) (d : defobj) : defobj :=
  match dKind d with
  | KSeq oi items ranges itemDefs gs ac v i =>
    setKind (KSeq oi items ranges (itemDefs ++ [x]) gs ac v i) d
  | KChoice options od gs v i => setKind (KChoice options (od ++ [x]) gs v i) d
  | _ => d
  end.
(** d.allChars = b, sequencedefine.go:95-109 *)
Definition setAllChars (b : bool) (d : defobj) : defobj :=
  match dKind d with
  | KSeq oi items ranges itemDefs gs _ v i => setKind (KSeq oi items ranges itemDefs gs b v i) d
  | _ => d
  end.
(** d.initialized = true, sequencedefine.go:111-119, choicedefine.go:66-73 *)
Definition setInitialized (d : defobj) : defobj :=
  match dKind d with
  | KSeq oi items ranges itemDefs gs ac v _ => setKind (KSeq oi items ranges itemDefs gs ac v true) d
  | KChoice options od gs v _ => setKind (KChoice options od gs v true) d
  | _ => d
  end.
(** the type assertion to *charParser in sequencedefine.go:95-109 *)
Definition isCharAt (h : dheap) (a : addr) : bool :=
  match nth_error h a with
  | Some (mkDef _ _ _ (KChar _ _ _)) => true
  | _ => false
  end.

(** sequencedefine.go:97-106, the loop of initItems *)
Fixpoint initItemsLoop (rec : dheap -> addr -> res dheap) (d : addr) (names : list string) (allChars : bool)
         (h : dheap) : res (dheap * bool) :=
  match names with
  | [] => Ok (h, allChars)
  | n :: names' =>
    match lookup m n with
    | None => Panic PanicNil
    | Some x =>
      let h := updNth d (addItemDef x) h in
      h <- rec h x ;;
      initItemsLoop rec d names' (allChars && isCharAt h x) h
    end
  end.

(** choicedefine.go:57-64 initOptions *)
Fixpoint initOptionsLoop (rec : dheap -> addr -> res dheap) (gfuel : nat) (d : addr) (id : nat)
         (names : list string) (h : dheap) : res dheap :=
  match names with
  | [] => Ok h
  | n :: names' =>
    match lookup m n with
    | None => Panic PanicNil
    | Some x =>
      let h := updNth d (addItemDef x) h in
      h <- rec h x ;;
      h <- addGeneralization gfuel id h x ;;
      initOptionsLoop rec gfuel d id names' h
    end
  end.

(** init: chardefine.go:32, sequencedefine.go:111-119, choicedefine.go:66-73 *)
Fixpoint initDef (n : nat) (gfuel : nat) (h : dheap) (a : addr) : res dheap :=
  match n with
  | O => NoFuel
  | S n' =>
    match nth_error h a with
    | None => Panic PanicNil
    | Some d =>
      match dKind d with
      | KChar _ _ _ => Ok h
      | KSeq _ items _ _ _ _ _ i =>
        if i then Ok h
        else
          let h := updNth a (fun d => initRanges (setInitialized d)) h in
          hb <- initItemsLoop (initDef n' gfuel) a (map siName items) true h ;;
          Ok (updNth a (setAllChars (snd hb)) (fst hb))
      | KChoice options _ _ _ i =>
        if i then Ok h
        else initOptionsLoop (initDef n' gfuel) gfuel a (dId d) options (updNth a setInitialized h)
      end
    end
  end.
End DEFREC.

(** syntax.go:326-331 *)
Fixpoint validateAll (m : list (string * addr)) (n : nat) (l : list addr) (h : dheap) : res (dheap * option gerr) :=
  match l with
  | [] => Ok (h, None)
  | a :: l' =>
    he <- validate m n h a ;;
    match he with
    | (h, Some e) => Ok (h, Some e)
    | (h, None) => validateAll m n l' h
    end
  end.

(** s.initFailed = true in syntax.go:299-345 *)
Definition setFailed (s : syntax) (h : dheap) (r : registry) (root : addr) : syntax :=
  mkSyntax h (Some r) (sInitialized s) true (sExplicitRoot s) (sKeywords s) (Some root).

(** syntax.go:299-345 Init.  [n] is the fuel of the recursive definition walks. *)
Definition Init (n : nat) (s : syntax) : res (syntax * option gerr) :=
  if sInitFailed s then Ok (s, Some ErrInitFailed)
  else if sInitialized s then Ok (s, None)
  else
    match sRoot s with
    | None => Ok (s, Some ErrNoParsersDefined)
    | Some root =>
      match nth_error (sHeap s) root, sRegistry s with
      | Some rd, Some reg =>
        match checkCommitType rd with
        | Some e => Ok (s, Some e)
        | None =>
          let h := preinitAll (sHeap s) (gDefinitions reg) in
          hrr <- (if hasWhitespace h (gDefinitions reg) then
                    x <- applyWhitespace h (gDefinitions reg) ;;
                    let '(h, defs, root) := x in
                    let (h, reg) := newRegistry h defs in
                    Ok (h, reg, root)
                  else Ok (h, reg, root)) ;;
          let '(h, reg, root) := hrr in
          he <- validateAll (gDefinition reg) n (sKeywords s ++ [root]) h ;;
          match he with
          | (h, Some e) => Ok (setFailed s h reg root, Some e)
          | (h, None) =>
            h <- forAddrs (initDef (gDefinition reg) n n) (sKeywords s ++ [root]) h ;;
            Ok (mkSyntax h (Some reg) true false (sExplicitRoot s) (sKeywords s) (Some root), None)
          end
        end
      | _, _ => Panic PanicNil
      end
    end.

(** parser(): chardefine.go:34, sequencedefine.go:129-155, choicedefine.go:86-110 (and builder(),
    same fields).  The parser of the definition at an address is put at the same address; the
    lazy creation order is the subject of Conc.v. *)
Definition toParser (d : defobj) : pobj :=
  match dKind d with
  | KChar cnot chars ranges => PChar (dName d) (dId d) cnot chars ranges
  | KSeq _ _ ranges itemDefs gs ac _ _ => PSeq (dName d) (dId d) (dCommit d) itemDefs ranges gs ac
  | KChoice _ od gs _ _ => PChoice (dName d) (dId d) (dCommit d) od gs
  end.
(** syntax.go:299-345: the parsers that Init and the lazy parser() calls make *)
Definition parsers (s : syntax) : pheap := map toParser (sHeap s).

(** syntax.go:442-448 Parse; the syntax is changed by the Init inside *)
Definition Parse (fuel : nat) (s : syntax) (input : list rune) (e : rend) : res (syntax * parseOut) :=
  se <- Init fuel s ;;
  match se with
  | (s, Some err) => Ok (s, Failed err)
  | (s, None) =>
    match sRoot s with
    | None => Panic PanicNil
    | Some root => o <- parseInput (parsers s) (sKeywords s) root fuel input e ;; Ok (s, o)
    end
  end.
