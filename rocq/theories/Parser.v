(** Model of the matching half: char.go, sequence.go, choice.go (parse methods), context.go. *)
From Verif Require Import Base Utf8 IdSet Results.

(** char.go:3-9 charParser, sequence.go:3-11 sequenceParser, choice.go:3-9 choiceParser.
    Items and options are addresses in the parser heap. *)
Inductive pobj : Type :=
| PChar (name : string) (id : nat) (cnot : bool) (chars : list rune) (cranges : list (rune * rune))
| PSeq (name : string) (id : nat) (commit : commitType) (items : list addr)
       (ranges : list (Z * Z)) (generalizations : list nat) (allChars : bool)
| PChoice (name : string) (id : nat) (commit : commitType) (options : list addr)
          (generalizations : list nat).

(** the parser objects behind the pointers of sequence.go:3-11 and choice.go:3-9; an address is an index *)
Definition pheap := list pobj.

(** nodeName, nodeID, commitType: char.go:16-18, sequence.go:23-25, choice.go:19-21 *)
Definition nodeName (p : pobj) : string :=
  match p with PChar n _ _ _ _ => n | PSeq n _ _ _ _ _ _ => n | PChoice n _ _ _ _ => n end.
Definition nodeID (p : pobj) : nat :=
  match p with PChar _ i _ _ _ => i | PSeq _ i _ _ _ _ _ => i | PChoice _ i _ _ _ => i end.
Definition commitTypeOf (p : pobj) : commitType :=
  match p with PChar _ _ _ _ _ => CAlias | PSeq _ _ c _ _ _ _ => c | PChoice _ _ c _ _ => c end.

(** What the io.RuneReader delivers at the end. *)
Inductive rend := REof | RFail (code : nat).

(** context.go:9-23 context; [cInput]/[cEnd] stand for the reader, offsetLimit -1 is [None] *)
Record context := mkContext {
  cInput : list rune;
  cEnd : rend;
  cOffset : nat;
  cReadOffset : nat;
  cConsumed : nat;
  cOffsetLimit : option nat;
  cFailOffset : Z;
  cFailingParser : option addr;
  cReadErr : option gerr;
  cEof : bool;
  cResults : results;
  cTokens : list rune;
  cMatchLast : bool }.

(** context.go:25-33 newContext *)
Definition newContext (input : list rune) (e : rend) : context :=
  mkContext input e 0 0 0 None (-1)%Z None None false emptyResults [] false.

(** field assignments *)
Definition setOffset (c : context) (v : nat) : context :=
  mkContext (cInput c) (cEnd c) v (cReadOffset c) (cConsumed c) (cOffsetLimit c) (cFailOffset c)
            (cFailingParser c) (cReadErr c) (cEof c) (cResults c) (cTokens c) (cMatchLast c).
(** c.offsetLimit = v, context.go:93-106 isKeyword *)
Definition setLimit (c : context) (v : option nat) : context :=
  mkContext (cInput c) (cEnd c) (cOffset c) (cReadOffset c) (cConsumed c) v (cFailOffset c)
            (cFailingParser c) (cReadErr c) (cEof c) (cResults c) (cTokens c) (cMatchLast c).
(** c.failOffset = o; c.failingParser = p, sequence.go:57-59, 119-121, choice.go:94-111 *)
Definition setFail (c : context) (o : Z) (p : option addr) : context :=
  mkContext (cInput c) (cEnd c) (cOffset c) (cReadOffset c) (cConsumed c) (cOffsetLimit c) o
            p (cReadErr c) (cEof c) (cResults c) (cTokens c) (cMatchLast c).
(** c.results changed in place by the calls of results.go:45-176 *)
Definition setResults (c : context) (r : results) : context :=
  mkContext (cInput c) (cEnd c) (cOffset c) (cReadOffset c) (cConsumed c) (cOffsetLimit c) (cFailOffset c)
            (cFailingParser c) (cReadErr c) (cEof c) r (cTokens c) (cMatchLast c).

(** context.go:35-62 read.  With a bufio.Reader an EOF always comes with n == 0, so the branch
    of an EOF that carries a rune is not modelled. *)
Definition read (c : context) : context * bool :=
  if cEof c then (c, false)
  else match cReadErr c with
  | Some _ => (c, false)
  | None =>
    match cInput c with
    | [] =>
      match cEnd c with
      | REof =>
        (mkContext [] (cEnd c) (cOffset c) (cReadOffset c) (cConsumed c) (cOffsetLimit c) (cFailOffset c)
                   (cFailingParser c) (cReadErr c) true (cResults c) (cTokens c) (cMatchLast c), false)
      | RFail e =>
        (mkContext [] (cEnd c) (cOffset c) (cReadOffset c) (cConsumed c) (cOffsetLimit c) (cFailOffset c)
                   (cFailingParser c) (Some (ErrReader e)) (cEof c) (cResults c) (cTokens c) (cMatchLast c),
         false)
      end
    | token :: rest =>
      if Z.eqb token runeError then
        (mkContext rest (cEnd c) (cOffset c) (S (cReadOffset c)) (cConsumed c) (cOffsetLimit c)
                   (cFailOffset c) (cFailingParser c) (Some ErrInvalidUnicodeCharacter) (cEof c)
                   (cResults c) (cTokens c) (cMatchLast c), false)
      else
        (mkContext rest (cEnd c) (cOffset c) (S (cReadOffset c)) (cConsumed c) (cOffsetLimit c)
                   (cFailOffset c) (cFailingParser c) (cReadErr c) (cEof c)
                   (cResults c) (cTokens c ++ [token]) (cMatchLast c), true)
    end
  end.

(** context.go:64-76 token; [c.tokens[c.offset]] panics when the offset is not below the length *)
Definition token (c : context) : res (context * option rune) :=
  if (match cOffsetLimit c with Some l => cOffset c =? l | None => false end)
  then Ok (c, None)
  else
    let (c, ok) := if cOffset c =? cReadOffset c then read c else (c, true) in
    if ok then
      match nth_error (cTokens c) (cOffset c) with
      | Some r => Ok (c, Some r)
      | None => Panic PanicIndex
      end
    else Ok (c, None).

(** context.go:108-114 success *)
Definition success (c : context) (to : nat) : context :=
  mkContext (cInput c) (cEnd c) to (cReadOffset c) (if cConsumed c <? to then to else cConsumed c)
            (cOffsetLimit c) (cFailOffset c) (cFailingParser c) (cReadErr c) (cEof c) (cResults c)
            (cTokens c) true.

(** context.go:116-119 fail *)
Definition fail (c : context) (offset : nat) : context :=
  mkContext (cInput c) (cEnd c) offset (cReadOffset c) (cConsumed c) (cOffsetLimit c) (cFailOffset c)
            (cFailingParser c) (cReadErr c) (cEof c) (cResults c) (cTokens c) false.

(** context.go:78-91 fromResults; [None] is false *)
Definition fromResults (c : context) (id : nat) : option context :=
  match longestResult (cResults c) (cOffset c) id with
  | LUnknown => None
  | LMatch to => Some (success c to)
  | LNoMatch => Some (fail c (cOffset c))
  end.

(** char.go:20-34 matchChar *)
Definition matchChar (chars : list rune) (ranges : list (rune * rune)) (cnot : bool) (char : rune) : bool :=
  if existsb (fun ci => Z.eqb ci char) chars then negb cnot
  else if existsb (fun ri => Z.leb (fst ri) char && Z.leb char (snd ri)) ranges then negb cnot
  else cnot.

(** char.go:40-52 charParser.parse *)
Definition charParse (cnot : bool) (chars : list rune) (ranges : list (rune * rune)) (c : context)
  : res context :=
  ct <- token c ;;
  let (c, tok) := ct in
  if (match tok with Some t => matchChar chars ranges cnot t | None => false end)
  then Ok (success c (S (cOffset c)))
  else
    let c := if Z.ltb (cFailOffset c) (Z.of_nat (cOffset c))
             then setFail c (Z.of_nat (cOffset c)) None else c in
    Ok (fail c (cOffset c)).

(** the recurring [c.failingParser == nil && commit&userDefined != 0 && commit&Whitespace == 0 &&
    commit&FailPass == 0 { c.failingParser = p }], sequence.go:69-74, 98-103, choice.go:82-87, 113-118 *)
Definition blame (p : addr) (commit : commitType) (c : context) : context :=
  match cFailingParser c with
  | Some _ => c
  | None =>
    if hasFlag commit CUserDefined && negb (hasFlag commit CWhitespace) && negb (hasFlag commit CFailPass)
    then setFail c (cFailOffset c) (Some p) else c
  end.

(** a call on c.results, e.g. sequence.go:34 c.results.markPending *)
Definition mapResults (f : results -> res results) (c : context) : res context :=
  r <- f (cResults c) ;; Ok (setResults c r).

(** [if !p.allChars { c.results.unmarkPending(from, p.id) }] *)
Definition unmarkUnless (allChars : bool) (from id : nat) (c : context) : res context :=
  if allChars then Ok c else mapResults (fun r => unmarkPending r from id) c.

(** [if to > c.failOffset { c.failOffset = -1; c.failingParser = nil }] *)
Definition clearFail (to : nat) (c : context) : context :=
  if Z.ltb (cFailOffset c) (Z.of_nat to) then setFail c (-1)%Z None else c.

Section PARSE.
(** recursive call of [parse] on the object at an address *)
Variable rec : addr -> context -> res context.

(** context.go:97-105, the loop of isKeyword *)
Fixpoint keywordLoop (kws : list addr) (from to : nat) (c : context) : res (context * bool) :=
  match kws with
  | [] => Ok (c, false)
  | kw :: kws' =>
    c <- rec kw (setOffset c from) ;;
    if cMatchLast c && (cOffset c =? to) then Ok (c, true) else keywordLoop kws' from to c
  end.

(** context.go:93-106 isKeyword *)
Definition isKeyword (kws : list addr) (from to : nat) (c : context) : res (context * bool) :=
  let ol := cOffsetLimit c in
  cb <- keywordLoop kws from to (setLimit c (Some to)) ;;
  Ok (setLimit (fst cb) ol, snd cb).

(** sequence.go:46-95, the item loop.  Leaving the loop normally gives [SLoop to c]; the
    [return]s inside the loop give [SReturn c]. *)
Inductive seqOut := SLoop (to : nat) (c : context) | SReturn (c : context).

(** sequence.go:46-95; [k] calls of items are possible *)
Fixpoint seqLoop (k : nat) (p : addr) (id : nat) (commit : commitType) (items : list addr)
         (ranges : list (Z * Z)) (allChars : bool) (from to itemIndex currentCount : nat) (c : context)
  : res seqOut :=
  match k with
  | O => NoFuel
  | S k' =>
    match nth_error items itemIndex with
    | None => Ok (SLoop to c)
    | Some item =>
      c <- rec item c ;;
      match nth_error ranges itemIndex with
      | None => Panic PanicIndex
      | Some (mn, mx) =>
        if negb (cMatchLast c) then
          if Z.leb mn (Z.of_nat currentCount)
          then seqLoop k' p id commit items ranges allChars from to (S itemIndex) 0 c
          else
            let c := setOffset c from in
            match fromResults c id with
            | Some c =>
              c <- unmarkUnless allChars from id (clearFail to c) ;;
              Ok (SReturn c)
            | None =>
              c <- unmarkUnless allChars from id (fail (blame p commit c) from) ;;
              Ok (SReturn c)
            end
        else
          let parsed := to <? cOffset c in
          let currentCount := if parsed then S currentCount else currentCount in
          let to := cOffset c in
          if negb parsed || (Z.ltb 0 mx && Z.eqb (Z.of_nat currentCount) mx)
          then seqLoop k' p id commit items ranges allChars from to (S itemIndex) 0 c
          else seqLoop k' p id commit items ranges allChars from to itemIndex currentCount c
      end
    end
  end.

(** sequence.go:113-117 *)
Definition setGeneralizations (from to : nat) (gs : list nat) (r : results) : results :=
  fold_left (fun r g => if pending r from g then setMatch r from g to else r) gs r.

(** sequence.go:27-129 sequenceParser.parse *)
Definition seqParse (k : nat) (kws : list addr) (p : addr) (id : nat) (commit : commitType)
           (items : list addr) (ranges : list (Z * Z)) (gs : list nat) (allChars : bool) (c : context)
  : res context :=
  if negb allChars && pending (cResults c) (cOffset c) id
  then Ok (fail c (cOffset c))
  else
    let from := cOffset c in
    let c := if allChars then c else setResults c (markPending (cResults c) from id) in
    o <- seqLoop k p id commit items ranges allChars from from 0 0 c ;;
    match o with
    | SReturn c => Ok c
    | SLoop to c =>
      cb <- (if hasFlag commit CNoKeyword then isKeyword kws from to c else Ok (c, false)) ;;
      let (c, isKw) := cb in
      if isKw then unmarkUnless allChars from id (fail (blame p commit c) from)
      else
        let c := setResults c (setGeneralizations from to gs (cResults c)) in
        let c := clearFail to c in
        let c := setResults c (setMatch (cResults c) from id to) in
        unmarkUnless allChars from id (success c to)
    end.

(** the local variables of choice.go:35-46 that the loops change *)
Record chState := mkChState {
  chMatch : bool;
  chFound : bool;
  chTo : nat;
  chFailOffset : Z;
  chFailing : option addr }.

(** choice.go:52-73, one pass over the options *)
Fixpoint choicePass (id from : nat) (options : list addr) (s : chState) (c : context)
  : res (chState * context) :=
  match options with
  | [] => Ok (s, c)
  | o :: options' =>
    c <- rec o c ;;
    let s := if negb (cMatchLast c) && Z.ltb (chFailOffset s) (cFailOffset c)
             then mkChState (chMatch s) (chFound s) (chTo s) (cFailOffset c) (cFailingParser c)
             else s in
    if negb (cMatchLast c) || (chMatch s && (cOffset c <=? chTo s))
    then choicePass id from options' s (setOffset c from)
    else
      let to := cOffset c in
      let s := mkChState true true to (chFailOffset s) (chFailing s) in
      let c := setOffset c from in
      choicePass id from options' s (setResults c (setMatch (cResults c) from id to))
  end.

(** choice.go:48-78 *)
Fixpoint choiceLoop (k : nat) (id from : nat) (options : list addr) (s : chState) (c : context)
  : res (chState * context) :=
  match k with
  | O => NoFuel
  | S k' =>
    sc <- choicePass id from options (mkChState (chMatch s) false (chTo s) (chFailOffset s) (chFailing s)) c ;;
    let (s, c) := sc in
    if chFound s then choiceLoop k' id from options s c else Ok (s, c)
  end.

(** choice.go:23-124 choiceParser.parse *)
Definition choiceParse (k : nat) (kws : list addr) (p : addr) (id : nat) (commit : commitType)
           (options : list addr) (c : context) : res context :=
  match fromResults c id with
  | Some c => Ok c
  | None =>
    if pending (cResults c) (cOffset c) id
    then Ok (fail c (cOffset c))
    else
      let c := setResults c (markPending (cResults c) (cOffset c) id) in
      let from := cOffset c in
      let initialFailOffset := cFailOffset c in
      let initialFailingParser := cFailingParser c in
      sc <- choiceLoop k id from options (mkChState false false from initialFailOffset None) c ;;
      let (s, c) := sc in
      let to := chTo s in
      if chMatch s then
        cb <- (if hasFlag commit CNoKeyword then isKeyword kws from to c else Ok (c, false)) ;;
        let (c, isKw) := cb in
        if isKw then
          mapResults (fun r => unmarkPending r from id) (fail (blame p commit c) from)
        else
          let c := if Z.ltb (Z.of_nat to) (chFailOffset s) then setFail c (chFailOffset s) (chFailing s)
                   else if Z.ltb initialFailOffset (Z.of_nat to) then setFail c (-1)%Z None
                   else setFail c initialFailOffset initialFailingParser in
          mapResults (fun r => unmarkPending r from id) (success c to)
      else
        let c := if Z.ltb initialFailOffset (chFailOffset s)
                 then blame p commit (setFail c (chFailOffset s) (chFailing s))
                 else c in
        let c := setResults c (setNoMatch (cResults c) from id) in
        mapResults (fun r => unmarkPending r from id) (fail c from)
  end.
End PARSE.

(** parser.parse, syntaxhead.go:60-65: dispatch on the object.  Fuel bounds both the call depth
    and the loops. *)
Fixpoint parse (P : pheap) (kws : list addr) (n : nat) (p : addr) (c : context) : res context :=
  match n with
  | O => NoFuel
  | S n' =>
    match nth_error P p with
    | None => Panic PanicDangling
    | Some (PChar _ _ cnot chars ranges) => charParse cnot chars ranges c
    | Some (PSeq _ id commit items ranges gs allChars) =>
      seqParse (parse P kws n') n' kws p id commit items ranges gs allChars c
    | Some (PChoice _ id commit options _) =>
      choiceParse (parse P kws n') n' kws p id commit options c
    end
  end.

(** context.go:121-132 findLine, for 0 <= offset <= len(tokens) *)
Fixpoint findLineLoop (tokens : list rune) (line column : nat) : nat * nat :=
  match tokens with
  | [] => (line, column)
  | t :: tokens' =>
    if Z.eqb t 10 then findLineLoop tokens' (S line) 0
    else findLineLoop tokens' line (S column)
  end.

(** [tokens[:offset]] with a negative offset, or one beyond the capacity, panics.  An offset
    between length and capacity would not; it is modelled as a panic here, and FailOffset
    proofs show that it never happens. *)
Definition findLine (tokens : list rune) (offset : Z) : res (nat * nat) :=
  if Z.ltb offset 0 || Z.ltb (Z.of_nat (List.length tokens)) offset then Panic PanicSlice
  else Ok (findLineLoop (firstn (Z.to_nat offset) tokens) 0 0).

(** context.go:135-139: the part of the name before the first ":" unless it starts with ":" *)
Definition definitionName (name : string) : string :=
  match String.index 0 ":" name with
  | Some (S i) => String.substring 0 (S i) name
  | _ => name
  end.

(** context.go:134-153 parseError *)
Definition parseError (P : pheap) (c : context) (p : addr) : res gerr :=
  match nth_error P p with
  | None => Panic PanicDangling
  | Some o =>
    let fo := match cFailingParser c with
              | None => Z.of_nat (cConsumed c)
              | Some _ => cFailOffset c
              end in
    lc <- findLine (cTokens c) fo ;;
    Ok (ErrParse (Z.to_nat fo) (fst lc) (snd lc) (definitionName (nodeName o)))
  end.

(** context.go:155-176 finalizeParse; [None] is a nil error *)
Definition finalizeParse (P : pheap) (c : context) (root : addr) : res (context * option gerr) :=
  let fp := match cFailingParser c with Some p => p | None => root end in
  match nth_error P root with
  | None => Panic PanicDangling
  | Some o =>
    match longestResult (cResults c) 0 (nodeID o) with
    | LMatch to =>
      if to <? cReadOffset c then e <- parseError P c fp ;; Ok (c, Some e)
      else
        let (c, _) := read c in
        if cEof c then Ok (c, None)
        else match cReadErr c with
             | Some e => Ok (c, Some e)
             | None => e <- parseError P c root ;; Ok (c, Some e)
             end
    | _ => e <- parseError P c fp ;; Ok (c, Some e)
    end
  end.
