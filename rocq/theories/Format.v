(** Model of the textual form of definitions: the format methods of chardefine.go, sequencedefine.go
    and choicedefine.go.  The flags are not used by the code and are left out. *)
From Verif Require Import Base Utf8 IdSet Results Parser Build Syntax Escape.
Local Open Scope string_scope.
Local Open Scope list_scope.

(** chardefine.go:9 charClassEscape *)
Definition charClassEscape : rune := 92%Z.
(** chardefine.go:10 charClassBanned: \ [ ] ^ - \b \f \n \r \t \v *)
Definition charClassBanned : list rune := [92; 91; 93; 94; 45; 8; 12; 10; 13; 9; 11]%Z.

(** chardefine.go:43-45 isSingleChar *)
Definition isSingleChar (cnot : bool) (chars : list rune) (ranges : list (rune * rune)) : bool :=
  negb cnot && Nat.eqb (List.length chars) 1 && Nat.eqb (List.length ranges) 0.

(** chardefine.go:52-54 esc *)
Definition esc (chars : list rune) : list rune := escape charClassEscape charClassBanned chars.
(** chardefine.go:65-69 the loop over the ranges *)
Fixpoint escRanges (ranges : list (rune * rune)) : list rune :=
  match ranges with
  | [] => []
  | (l, h) :: ranges' => esc [l] ++ [45%Z] ++ esc [h] ++ escRanges ranges'
  end.
(** chardefine.go:47-73 charParser.format *)
Definition formatChar (cnot : bool) (chars : list rune) (ranges : list (rune * rune)) : string :=
  if cnot && Nat.eqb (List.length chars) 0 && Nat.eqb (List.length ranges) 0 then "."
  else runesString ([91%Z] ++ (if cnot then [94%Z] else []) ++ esc chars ++ escRanges ranges ++ [93%Z]).

(** sequencedefine.go:252-281 the quantifier of an item with normalized range *)
Definition formatQuantifier (mn mx : Z) : string :=
  if Z.eqb mn 1 && Z.eqb mx 1 then ""
  else if Z.eqb mn 0 && Z.eqb mx 1 then "?"
  else if Z.eqb mn 0 && Z.ltb mx 0 then "*"
  else if Z.eqb mn 1 && Z.ltb mx 0 then "+"
  else
    "{" ++
    (if Z.eqb mn mx then itoa mn
     else (if Z.ltb 0 mn then itoa mn else "") ++ "," ++ (if Z.leb 0 mx then itoa mx else "")) ++
    "}".

(** r.definition[name]: nil when there is none *)
Definition definitionAt (h : dheap) (m : list (string * addr)) (name : string) : option defobj :=
  match lookup m name with Some a => nth_error h a | None => None end.

(** sequencedefine.go:185-200 isCharSequence *)
Definition isCharSequence (h : dheap) (m : list (string * addr)) (items : list seqItem) : bool :=
  forallb (fun it =>
    let item := normalizeItemRange it in
    Z.eqb (siMin item) 1 && Z.eqb (siMax item) 1 &&
    match definitionAt h m (siName it) with
    | Some d => match dKind d with KChar cnot chars ranges => isSingleChar cnot chars ranges | _ => false end
    | None => false
    end) items.

(** c.chars[0] of the items of a character sequence (sequencedefine.go:210-215) *)
Definition firstChars (h : dheap) (m : list (string * addr)) (items : list seqItem) : list rune :=
  flat_map (fun it =>
    match definitionAt h m (siName it) with
    | Some d => match dKind d with KChar _ (c :: _) _ => [c] | _ => [] end
    | None => []
    end) items.

Section FORMAT.
Variables (h : dheap) (m : list (string * addr)).
Variable rec : defobj -> res string.

(** sequencedefine.go:230-250 an item without its quantifier; a nil definition panics *)
Definition formatItem (name : string) : res string :=
  match definitionAt h m name with
  | None => Panic PanicNil
  | Some d =>
    if hasFlag (dCommit d) CUserDefined then Ok (dName d)
    else
      let needsGrouping :=
        match dKind d with
        | KChoice options _ _ _ _ => Nat.ltb 1 (List.length options)
        | KSeq items _ _ _ _ _ _ _ => Nat.ltb 1 (List.length items) && negb (isCharSequence h m items)
        | KChar _ _ _ => false
        end in
      t <- rec d ;; Ok (if needsGrouping then ("(" ++ t ++ ")")%string else t)
  end.
(** sequencedefine.go:222-282 the loop over the items, with the text before; a space is put between
    items when there is any text before *)
Fixpoint formatItems (text : string) (items : list seqItem) : res string :=
  match items with
  | [] => Ok text
  | it :: items' =>
    let item := normalizeItemRange it in
    t <- formatItem (siName it) ;;
    formatItems (text ++ (match text with EmptyString => "" | _ => " " end) ++ t ++ formatQuantifier (siMin item) (siMax item))%string items'
  end.
(** choicedefine.go:139-150 the loop over the options *)
Fixpoint formatOptions (first : bool) (options : list string) : res string :=
  match options with
  | [] => Ok ""
  | o :: options' =>
    t <- match definitionAt h m o with
         | None => Panic PanicNil
         | Some d => if hasFlag (dCommit d) CUserDefined then Ok (dName d) else rec d
         end ;;
    rest <- formatOptions false options' ;;
    Ok ((if first then "" else " | ") ++ t ++ rest)%string
  end.
End FORMAT.

(** sequencedefine.go:202-284, choicedefine.go:137-154, chardefine.go:47-73 format *)
Fixpoint format (n : nat) (h : dheap) (m : list (string * addr)) (d : defobj) : res string :=
  match n with
  | O => NoFuel
  | S n' =>
    match dKind d with
    | KChar cnot chars ranges => Ok (formatChar cnot chars ranges)
    | KSeq items _ _ _ _ _ _ _ =>
      if isCharSequence h m items then
        match items with
        | [it] =>
          match definitionAt h m (siName it) with
          | Some c => match dKind c with KChar cnot chars ranges => Ok (formatChar cnot chars ranges) | _ => Panic PanicNil end
          | None => Panic PanicNil
          end
        | _ => Ok (runesString ([34%Z] ++ esc (firstChars h m items) ++ [34%Z]))
        end
      else formatItems h m (format n' h m) "" items
    | KChoice options _ _ _ _ => formatOptions h m (format n' h m) true options
    end
  end.

(** the textual form of the definition with a name, before Init (format_test.go:33-38) *)
Definition formatOf (n : nat) (s : syntax) (name : string) : res string :=
  match sRegistry s with
  | None => Panic PanicNil
  | Some r =>
    match definitionAt (sHeap s) (gDefinition r) name with
    | None => Panic PanicNil
    | Some d => format n (sHeap s) (gDefinition r) d
    end
  end.
