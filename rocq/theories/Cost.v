(** The number of calls of parser.parse in a run, and the depth of the calls: the functions of
    Parser.v, with a measure.  The measures of calls that follow each other are combined by [op], and
    every call adds one: with the sum it is the number of calls, with the maximum the depth.
    [parse_counts] in CostFacts.v: without the measure they are the functions of Parser.v. *)
From Verif Require Import Base Utf8 IdSet Results Parser Syntax.

Section PARSE.
(** how the measures of calls that follow each other are combined *)
Variable op : nat -> nat -> nat.
(** recursive call of [parse] on the object at an address, with the measure *)
Variable rec : addr -> context -> res (context * nat).

(** context.go:97-105, the loop of isKeyword *)
Fixpoint keywordLoopN (kws : list addr) (from to : nat) (c : context) : res (context * bool * nat) :=
  match kws with
  | [] => Ok (c, false, 0)
  | kw :: kws' =>
    ck <- rec kw (setOffset c from) ;;
    let (c, k) := ck in
    if cMatchLast c && (cOffset c =? to) then Ok (c, true, k)
    else x <- keywordLoopN kws' from to c ;; Ok (fst x, op k (snd x))
  end.

(** context.go:93-106 isKeyword *)
Definition isKeywordN (kws : list addr) (from to : nat) (c : context) : res (context * bool * nat) :=
  let ol := cOffsetLimit c in
  x <- keywordLoopN kws from to (setLimit c (Some to)) ;;
  let '(c, b, k) := x in
  Ok (setLimit c ol, b, k).

(** sequence.go:46-95, the item loop *)
Fixpoint seqLoopN (k : nat) (p : addr) (id : nat) (commit : commitType) (items : list addr)
         (ranges : list (Z * Z)) (allChars : bool) (from to itemIndex currentCount : nat) (c : context)
  : res (seqOut * nat) :=
  match k with
  | O => NoFuel
  | S k' =>
    match nth_error items itemIndex with
    | None => Ok (SLoop to c, 0)
    | Some item =>
      cm <- rec item c ;;
      let (c, m) := cm in
      match nth_error ranges itemIndex with
      | None => Panic PanicIndex
      | Some (mn, mx) =>
        if negb (cMatchLast c) then
          if Z.leb mn (Z.of_nat currentCount)
          then x <- seqLoopN k' p id commit items ranges allChars from to (S itemIndex) 0 c ;; Ok (fst x, op m (snd x))
          else
            let c := setOffset c from in
            match fromResults c id with
            | Some c =>
              c <- unmarkUnless allChars from id (clearFail to c) ;;
              Ok (SReturn c, m)
            | None =>
              c <- unmarkUnless allChars from id (fail (blame p commit c) from) ;;
              Ok (SReturn c, m)
            end
        else
          let parsed := to <? cOffset c in
          let currentCount := if parsed then S currentCount else currentCount in
          let to := cOffset c in
          x <- (if negb parsed || (Z.ltb 0 mx && Z.eqb (Z.of_nat currentCount) mx)
                then seqLoopN k' p id commit items ranges allChars from to (S itemIndex) 0 c
                else seqLoopN k' p id commit items ranges allChars from to itemIndex currentCount c) ;;
          Ok (fst x, op m (snd x))
      end
    end
  end.

(** sequence.go:27-129 sequenceParser.parse *)
Definition seqParseN (k : nat) (kws : list addr) (p : addr) (id : nat) (commit : commitType)
           (items : list addr) (ranges : list (Z * Z)) (gs : list nat) (allChars : bool) (c : context)
  : res (context * nat) :=
  if negb allChars && pending (cResults c) (cOffset c) id
  then Ok (fail c (cOffset c), 0)
  else
    let from := cOffset c in
    let c := if allChars then c else setResults c (markPending (cResults c) from id) in
    om <- seqLoopN k p id commit items ranges allChars from from 0 0 c ;;
    match om with
    | (SReturn c, m) => Ok (c, m)
    | (SLoop to c, m) =>
      cb <- (if hasFlag commit CNoKeyword then isKeywordN kws from to c else Ok (c, false, 0)) ;;
      let '(c, isKw, m') := cb in
      x <- (if isKw then unmarkUnless allChars from id (fail (blame p commit c) from)
            else
              let c := setResults c (setGeneralizations from to gs (cResults c)) in
              let c := clearFail to c in
              let c := setResults c (setMatch (cResults c) from id to) in
              unmarkUnless allChars from id (success c to)) ;;
      Ok (x, op m m')
    end.

(** choice.go:52-73, one pass over the options *)
Fixpoint choicePassN (id from : nat) (options : list addr) (s : chState) (c : context)
  : res (chState * context * nat) :=
  match options with
  | [] => Ok (s, c, 0)
  | o :: options' =>
    cm <- rec o c ;;
    let (c, m) := cm in
    let s := if negb (cMatchLast c) && Z.ltb (chFailOffset s) (cFailOffset c)
             then mkChState (chMatch s) (chFound s) (chTo s) (cFailOffset c) (cFailingParser c)
             else s in
    x <- (if negb (cMatchLast c) || (chMatch s && (cOffset c <=? chTo s))
          then choicePassN id from options' s (setOffset c from)
          else
            let to := cOffset c in
            let s := mkChState true true to (chFailOffset s) (chFailing s) in
            let c := setOffset c from in
            choicePassN id from options' s (setResults c (setMatch (cResults c) from id to))) ;;
    Ok (fst x, op m (snd x))
  end.

(** choice.go:48-78 *)
Fixpoint choiceLoopN (k : nat) (id from : nat) (options : list addr) (s : chState) (c : context)
  : res (chState * context * nat) :=
  match k with
  | O => NoFuel
  | S k' =>
    sc <- choicePassN id from options (mkChState (chMatch s) false (chTo s) (chFailOffset s) (chFailing s)) c ;;
    let '(s, c, m) := sc in
    if chFound s then x <- choiceLoopN k' id from options s c ;; Ok (fst x, op m (snd x)) else Ok (s, c, m)
  end.

(** choice.go:23-124 choiceParser.parse *)
Definition choiceParseN (k : nat) (kws : list addr) (p : addr) (id : nat) (commit : commitType)
           (options : list addr) (c : context) : res (context * nat) :=
  match fromResults c id with
  | Some c => Ok (c, 0)
  | None =>
    if pending (cResults c) (cOffset c) id
    then Ok (fail c (cOffset c), 0)
    else
      let c := setResults c (markPending (cResults c) (cOffset c) id) in
      let from := cOffset c in
      let initialFailOffset := cFailOffset c in
      let initialFailingParser := cFailingParser c in
      sc <- choiceLoopN k id from options (mkChState false false from initialFailOffset None) c ;;
      let '(s, c, m) := sc in
      let to := chTo s in
      if chMatch s then
        cb <- (if hasFlag commit CNoKeyword then isKeywordN kws from to c else Ok (c, false, 0)) ;;
        let '(c, isKw, m') := cb in
        x <- (if isKw then
                mapResults (fun r => unmarkPending r from id) (fail (blame p commit c) from)
              else
                let c := if Z.ltb (Z.of_nat to) (chFailOffset s) then setFail c (chFailOffset s) (chFailing s)
                         else if Z.ltb initialFailOffset (Z.of_nat to) then setFail c (-1)%Z None
                         else setFail c initialFailOffset initialFailingParser in
                mapResults (fun r => unmarkPending r from id) (success c to)) ;;
        Ok (x, op m m')
      else
        let c := if Z.ltb initialFailOffset (chFailOffset s)
                 then blame p commit (setFail c (chFailOffset s) (chFailing s))
                 else c in
        let c := setResults c (setNoMatch (cResults c) from id) in
        x <- mapResults (fun r => unmarkPending r from id) (fail c from) ;;
        Ok (x, m)
  end.
End PARSE.

(** parser.parse, syntaxhead.go:60-65: every call counts *)
Fixpoint parseN (op : nat -> nat -> nat) (P : pheap) (kws : list addr) (n : nat) (p : addr) (c : context) : res (context * nat) :=
  match n with
  | O => NoFuel
  | S n' =>
    x <- match nth_error P p with
         | None => Panic PanicDangling
         | Some (PChar _ _ cnot chars ranges) => c <- charParse cnot chars ranges c ;; Ok (c, 0)
         | Some (PSeq _ id commit items ranges gs allChars) =>
           seqParseN op (parseN op P kws n') n' kws p id commit items ranges gs allChars c
         | Some (PChoice _ id commit options _) =>
           choiceParseN op (parseN op P kws n') n' kws p id commit options c
         end ;;
    Ok (fst x, S (snd x))
  end.

(** syntax.go:442-448 Parse of an initialized syntax, syntaxhead.go:87: the measure of the calls of
    parser.parse for an input, until the root returns *)
Definition parseMeasure (op : nat -> nat -> nat) (fuel : nat) (s : syntax) (input : list rune) (e : rend) : res nat :=
  match sRoot s with
  | None => Panic PanicNil
  | Some root => x <- parseN op (parsers s) (sKeywords s) fuel root (newContext input e) ;; Ok (snd x)
  end.
(** the number of the calls *)
Definition parseCalls : nat -> syntax -> list rune -> rend -> res nat := parseMeasure Nat.add.
(** the number of calls that are active at the same time, at most *)
Definition parseDepth : nat -> syntax -> list rune -> rend -> res nat := parseMeasure Nat.max.
