(** Model of the tree building half: char.go, sequence.go, choice.go (build methods),
    nodehead.go and parseInput of syntaxhead.go. *)
From Verif Require Import Base Utf8 IdSet Results Parser.

(** nodehead.go:5-10 Node.  The [tokens] field is the same slice ([c.tokens]) in every node of a
    tree; it is kept once, next to the root, in [parseOut]. *)
Inductive node : Type := Node (name : string) (from to : nat) (nodes : list node).

(** the fields of nodehead.go:5-10 *)
Definition nName (n : node) := match n with Node a _ _ _ => a end.
Definition nFrom (n : node) := match n with Node _ a _ _ => a end.
Definition nTo (n : node) := match n with Node _ _ a _ => a end.
Definition nNodes (n : node) := match n with Node _ _ _ a => a end.

(** nodehead.go:20-22 Text, as runes and as a Go string *)
Definition nodeRunes (tokens : list rune) (n : node) : list rune :=
  firstn (nTo n - nFrom n) (skipn (nFrom n) tokens).
Definition nodeText (tokens : list rune) (n : node) : string := runesString (nodeRunes tokens n).

(** [for _, g := range b.generalizations { c.results.f(offset, g) }] *)
Fixpoint forIds (f : results -> nat -> res results) (gs : list nat) (r : results) : res results :=
  match gs with
  | [] => Ok r
  | g :: gs' => r <- f r g ;; forIds f gs' r
  end.

(** sequence.go:155-170, choice.go:138-152: drop the match that is being built, or, for an empty
    match, mark it as being built.  [None]: already being built. *)
Definition enterBuild (c : context) (id : nat) (gs : list nat) (to : nat) : res (option context) :=
  let o := cOffset c in
  if o <? to then
    r <- forIds (fun r g => dropMatchTo r o g to) (id :: gs) (cResults c) ;;
    Ok (Some (setResults c r))
  else if pending (cResults c) o id then Ok None
  else
    r <- forIds (fun r g => Ok (markPending r o g)) (id :: gs) (cResults c) ;;
    Ok (Some (setResults c r)).

(** sequence.go:209-214, choice.go:163-168 *)
Definition leaveBuild (c : context) (id : nat) (gs : list nat) (from to : nat) : res context :=
  if from <? to then Ok c
  else
    r <- forIds (fun r g => unmarkPending r from g) (id :: gs) (cResults c) ;;
    Ok (setResults c r).

Section BUILD.
(** recursive call of [build] on the builder at an address: nodes, ok, context *)
Variable rec : addr -> context -> res (list node * bool * context).

(** sequence.go:178-207, the item loop *)
Fixpoint buildLoop (k : nat) (items : list addr) (ranges : list (Z * Z)) (itemIndex currentCount : nat)
         (nodes : list node) (c : context) : res (list node * context) :=
  match k with
  | O => NoFuel
  | S k' =>
    match nth_error items itemIndex with
    | None => Ok (nodes, c)
    | Some item =>
      let itemFrom := cOffset c in
      x <- rec item c ;;
      match x with
      | (_, false, c) => buildLoop k' items ranges (S itemIndex) 0 nodes c
      | (n, true, c) =>
        match nth_error ranges itemIndex with
        | None => Panic PanicIndex
        | Some (mn, mx) =>
          if itemFrom <? cOffset c then
            let nodes := nodes ++ n in
            let currentCount := S currentCount in
            if Z.ltb 0 mx && Z.eqb (Z.of_nat currentCount) mx
            then buildLoop k' items ranges (S itemIndex) 0 nodes c
            else buildLoop k' items ranges itemIndex currentCount nodes c
          else
            let nodes := nodes ++ List.concat (repeat n (Z.to_nat (mn - Z.of_nat currentCount))) in
            buildLoop k' items ranges (S itemIndex) 0 nodes c
        end
      end
    end
  end.

(** sequence.go:134-227 sequenceBuilder.build *)
Definition seqBuild (k : nat) (name : string) (id : nat) (commit : commitType) (items : list addr)
           (ranges : list (Z * Z)) (gs : list nat) (allChars : bool) (c : context)
  : res (list node * bool * context) :=
  match longestMatch (cResults c) (cOffset c) id with
  | None => Ok ([], false, c)
  | Some to =>
    let from := cOffset c in
    if allChars then
      let c := setOffset c to in
      if hasFlag commit CAlias then Ok ([], true, c)
      else Ok ([Node name from to []], true, c)
    else
      e <- enterBuild c id gs to ;;
      match e with
      | None => Ok ([], false, c)
      | Some c =>
        nc <- buildLoop k items ranges 0 0 [] c ;;
        let (nodes, c) := nc in
        c <- leaveBuild c id gs from to ;;
        if hasFlag commit CAlias then Ok (nodes, true, c)
        else Ok ([Node name from to nodes], true, c)
      end
  end.

(** choice.go:154-160: the first option that has a stored match of the same length *)
Fixpoint pickOption (P : pheap) (r : results) (offset to : nat) (options : list addr) : res (option addr) :=
  match options with
  | [] => Ok None
  | o :: options' =>
    match nth_error P o with
    | None => Panic PanicDangling
    | Some ob => if hasMatchTo r offset (nodeID ob) to then Ok (Some o)
                 else pickOption P r offset to options'
    end
  end.

(** choice.go:129-181 choiceBuilder.build *)
Definition choiceBuild (P : pheap) (name : string) (id : nat) (commit : commitType) (options : list addr)
           (gs : list nat) (c : context) : res (list node * bool * context) :=
  match longestMatch (cResults c) (cOffset c) id with
  | None => Ok ([], false, c)
  | Some to =>
    let from := cOffset c in
    e <- enterBuild c id gs to ;;
    match e with
    | None => Ok ([], false, c)
    | Some c =>
      op <- pickOption P (cResults c) (cOffset c) to options ;;
      match op with
      | None => Panic PanicNil
      | Some o =>
        x <- rec o c ;;
        let '(n, _, c) := x in
        c <- leaveBuild c id gs from to ;;
        if hasFlag commit CAlias then Ok (n, true, c)
        else Ok ([Node name from to n], true, c)
      end
    end
  end.
End BUILD.

(** builder.build, syntaxhead.go:67-71.  A builder has the fields of the parser of the same
    definition (choicedefine.go:112-135, sequencedefine.go:157-183), so the parser heap is used
    for both.  charBuilder.build (char.go:57-59) returns nil, false. *)
Fixpoint build (P : pheap) (n : nat) (b : addr) (c : context) : res (list node * bool * context) :=
  match n with
  | O => NoFuel
  | S n' =>
    match nth_error P b with
    | None => Panic PanicDangling
    | Some (PChar _ _ _ _ _) => Ok ([], false, c)
    | Some (PSeq name id commit items ranges gs allChars) =>
      seqBuild (build P n') n' name id commit items ranges gs allChars c
    | Some (PChoice name id commit options gs) =>
      choiceBuild (build P n') P name id commit options gs c
    end
  end.

(** result of parseInput: a tree with its tokens, or an error *)
Inductive parseOut := Tree (n : node) (tokens : list rune) | Failed (e : gerr).

(** syntaxhead.go:85-105 parseInput, with a heap of parsers and a heap of builders.  The Input
    field of the ParseError is always "<input>" and is left out. *)
Definition parseInputPB (P B : pheap) (kws : list addr) (root rootB : addr) (fuel : nat)
           (input : list rune) (e : rend) : res parseOut :=
  c <- parse P kws fuel root (newContext input e) ;;
  match cReadErr c with
  | Some err => Ok (Failed err)
  | None =>
    ce <- finalizeParse P c root ;;
    match ce with
    | (_, Some err) => Ok (Failed err)
    | (c, None) =>
      let c := setOffset c 0 in
      let c := setResults c (resetPending (cResults c)) in
      x <- build B fuel rootB c ;;
      match x with
      | (n :: _, _, c) => Ok (Tree n (cTokens c))
      | ([], _, _) => Panic PanicIndex
      end
    end
  end.

(** in memory (syntax.go:447) parsers and builders come from the same definitions *)
Definition parseInput (P : pheap) (kws : list addr) (root : addr) (fuel : nat)
           (input : list rune) (e : rend) : res parseOut :=
  parseInputPB P P kws root root fuel input e.
