(** The calls of builder.build in a run, and their depth: the functions of Build.v, with a measure like in
    Cost.v.  [build_counts] in CostBuildFacts.v: without the measure they are the functions of Build.v. *)
From Verif Require Import Base Utf8 IdSet Results Parser Build Syntax.

Section BUILD.
(** how the measures of calls that follow each other are combined *)
Variable op : nat -> nat -> nat.
(** recursive call of [build] on the builder at an address, with the measure *)
Variable rec : addr -> context -> res (list node * bool * context * nat).

(** sequence.go:178-207, the item loop *)
Fixpoint buildLoopN (k : nat) (items : list addr) (ranges : list (Z * Z)) (itemIndex currentCount : nat)
         (nodes : list node) (c : context) : res (list node * context * nat) :=
  match k with
  | O => NoFuel
  | S k' =>
    match nth_error items itemIndex with
    | None => Ok (nodes, c, 0)
    | Some item =>
      let itemFrom := cOffset c in
      xm <- rec item c ;;
      let (x, m) := xm in
      match x with
      | (_, false, c) => y <- buildLoopN k' items ranges (S itemIndex) 0 nodes c ;; Ok (fst y, op m (snd y))
      | (n, true, c) =>
        match nth_error ranges itemIndex with
        | None => Panic PanicIndex
        | Some (mn, mx) =>
          y <- (if itemFrom <? cOffset c then
                  let nodes := nodes ++ n in
                  let currentCount := S currentCount in
                  if Z.ltb 0 mx && Z.eqb (Z.of_nat currentCount) mx
                  then buildLoopN k' items ranges (S itemIndex) 0 nodes c
                  else buildLoopN k' items ranges itemIndex currentCount nodes c
                else
                  let nodes := nodes ++ List.concat (repeat n (Z.to_nat (mn - Z.of_nat currentCount))) in
                  buildLoopN k' items ranges (S itemIndex) 0 nodes c) ;;
          Ok (fst y, op m (snd y))
        end
      end
    end
  end.

(** sequence.go:134-227 sequenceBuilder.build *)
Definition seqBuildN (k : nat) (name : string) (id : nat) (commit : commitType) (items : list addr)
           (ranges : list (Z * Z)) (gs : list nat) (allChars : bool) (c : context)
  : res (list node * bool * context * nat) :=
  match longestMatch (cResults c) (cOffset c) id with
  | None => Ok ([], false, c, 0)
  | Some to =>
    let from := cOffset c in
    if allChars then
      let c := setOffset c to in
      if hasFlag commit CAlias then Ok ([], true, c, 0)
      else Ok ([Node name from to []], true, c, 0)
    else
      e <- enterBuild c id gs to ;;
      match e with
      | None => Ok ([], false, c, 0)
      | Some c =>
        nc <- buildLoopN k items ranges 0 0 [] c ;;
        let '(nodes, c, m) := nc in
        c <- leaveBuild c id gs from to ;;
        if hasFlag commit CAlias then Ok (nodes, true, c, m)
        else Ok ([Node name from to nodes], true, c, m)
      end
  end.

(** choice.go:129-181 choiceBuilder.build *)
Definition choiceBuildN (P : pheap) (name : string) (id : nat) (commit : commitType) (options : list addr)
           (gs : list nat) (c : context) : res (list node * bool * context * nat) :=
  match longestMatch (cResults c) (cOffset c) id with
  | None => Ok ([], false, c, 0)
  | Some to =>
    let from := cOffset c in
    e <- enterBuild c id gs to ;;
    match e with
    | None => Ok ([], false, c, 0)
    | Some c =>
      o <- pickOption P (cResults c) (cOffset c) to options ;;
      match o with
      | None => Panic PanicNil
      | Some o =>
        x <- rec o c ;;
        let '(n, _, c, m) := x in
        c <- leaveBuild c id gs from to ;;
        if hasFlag commit CAlias then Ok (n, true, c, m)
        else Ok ([Node name from to n], true, c, m)
      end
    end
  end.
End BUILD.

(** builder.build, syntaxhead.go:67-71: every call counts *)
Fixpoint buildN (op : nat -> nat -> nat) (P : pheap) (n : nat) (b : addr) (c : context) : res (list node * bool * context * nat) :=
  match n with
  | O => NoFuel
  | S n' =>
    x <- match nth_error P b with
         | None => Panic PanicDangling
         | Some (PChar _ _ _ _ _) => Ok ([], false, c, 0)
         | Some (PSeq name id commit items ranges gs allChars) =>
           seqBuildN op (buildN op P n') n' name id commit items ranges gs allChars c
         | Some (PChoice name id commit options gs) =>
           choiceBuildN (buildN op P n') P name id commit options gs c
         end ;;
    Ok (fst x, S (snd x))
  end.

(** syntax.go:442-448 Parse of an initialized syntax, syntaxhead.go:85-105: the measure of the calls of
    builder.build for an input; none when the input is rejected *)
Definition buildMeasure (op : nat -> nat -> nat) (fuel : nat) (s : syntax) (input : list rune) (e : rend) : res nat :=
  match sRoot s with
  | None => Panic PanicNil
  | Some root =>
    c <- parse (parsers s) (sKeywords s) fuel root (newContext input e) ;;
    match cReadErr c with
    | Some err => Ok 0
    | None =>
      ce <- finalizeParse (parsers s) c root ;;
      match ce with
      | (_, Some err) => Ok 0
      | (c, None) =>
        x <- buildN op (parsers s) fuel root (setResults (setOffset c 0) (resetPending (cResults (setOffset c 0)))) ;;
        Ok (snd x)
      end
    end
  end.
(** the number of the calls *)
Definition buildCalls : nat -> syntax -> list rune -> rend -> res nat := buildMeasure Nat.add.
(** the number of calls that are active at the same time, at most *)
Definition buildDepth : nat -> syntax -> list rune -> rend -> res nat := buildMeasure Nat.max.
