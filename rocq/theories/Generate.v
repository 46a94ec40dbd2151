(** Model of Syntax.Generate: syntax.go:356-440, chardefine.go:75-116, sequencedefine.go:296-424,
    choicedefine.go:155-257.

    The writer is a function from the number of the Write call to the error it returns, if any.
    fmt.Fprintf and fmt.Fprint make one Write call each.  What a failed call leaves in the output
    is not modelled.  The constant texts gendoc (syntax.go) and headCode (head.go) are arguments;
    tools/headcheck.py compares headCode with the sources it is made of. *)
From Verif Require Import Base Utf8 IdSet Results Parser Build Syntax.
Local Open Scope string_scope.
Local Open Scope list_scope.
Local Infix "+++" := String.append (at level 60, right associativity).

(** io.Writer: the error of each Write call, if any *)
Definition writer := nat -> option nat.
(** number of Write calls, texts of the successful ones *)
Record output := mkOutput { oCalls : nat; oTexts : list string }.
(** nothing written yet *)
Definition noOutput : output := mkOutput 0 [].

(** the local fprintf and fprint closures: nothing is written after an error *)
Definition fprintf (W : writer) (text : string) (oe : output * option nat) : output * option nat :=
  match oe with
  | (o, Some e) => (o, Some e)
  | (o, None) =>
    match W (oCalls o) with
    | None => (mkOutput (S (oCalls o)) (oTexts o ++ [text]), None)
    | Some e => (mkOutput (S (oCalls o)) (oTexts o), Some e)
    end
  end.
(** several calls of fprintf one after the other *)
Fixpoint fprintfs (W : writer) (texts : list string) (oe : output * option nat) : output * option nat :=
  match texts with [] => oe | t :: texts' => fprintfs W texts' (fprintf W t oe) end.

(** the texts of the fprintf calls.  [b]: builders are named b<id>, parsers p<id>. *)
Definition vname (b : bool) (id : nat) : string := (if b then "b" else "p") +++ itoaNat id.
(** the quotation mark around names, sequencedefine.go:316, and the number that %d writes for a CommitType *)
Definition quote : string := String (Ascii.ascii_of_nat 34) "".
Definition commitText (c : commitType) : string := itoa (Z.of_N c).

(** sequencedefine.go:323-330, 388-395 *)
Definition rangePieces (ranges : list (Z * Z)) : list string :=
  match ranges with
  | [] => []
  | _ => "ranges: [][]int{" :: map (fun r => "{" +++ itoa (fst r) +++ ", " +++ itoa (snd r) +++ "},") ranges ++ ["},"]
  end.
(** sequencedefine.go:332-339, 397-404, choicedefine.go:178-185, 230-237 *)
Definition generalizationPieces (gs : list nat) : list string :=
  match gs with
  | [] => []
  | _ => "generalizations: []int{" :: map (fun g => itoaNat g +++ ",") gs ++ ["},"]
  end.
(** sequencedefine.go:315-317, 380-382, choicedefine.go:174-176, 226-228: parsers have a name when
    they are defined by the user, builders when they are no aliases *)
Definition writesName (b : bool) (commit : commitType) : bool :=
  if b then negb (hasFlag commit CAlias) else hasFlag commit CUserDefined.
(** sequencedefine.go:315-317, 380-382, choicedefine.go:174-176, 226-228 *)
Definition namePieces (b : bool) (name : string) (commit : commitType) : list string :=
  if writesName b commit then ["name: " +++ quote +++ name +++ quote +++ ","] else [].
(** the declaration of a variable *)
Definition declPieces (b : bool) (o : pobj) : list string :=
  match o with
  | PChar name id cnot chars ranges =>
    (* chardefine.go:75-110, 113-116 *)
    if b then ["var " +++ vname b id +++ " = charBuilder{};"]
    else ["var " +++ vname b id +++ " = charParser{"; "id: " +++ itoaNat id +++ ","] ++
         (if cnot then ["not: true,"] else []) ++
         match chars with [] => [] | _ => "chars: []rune{" :: map (fun c => itoa c +++ ",") chars ++ ["},"] end ++
         match ranges with
         | [] => []
         | _ => "ranges: [][]rune{" :: map (fun r => "{" +++ itoa (fst r) +++ ", " +++ itoa (snd r) +++ "},") ranges ++ ["},"]
         end ++ ["};"]
  | PSeq name id commit _ ranges gs allChars =>
    (* sequencedefine.go:312-341, 377-406 *)
    ["var " +++ vname b id +++ " = sequence" +++ (if b then "Builder" else "Parser") +++ "{";
     "id: " +++ itoaNat id +++ ", commit: " +++ commitText commit +++ ","] ++
    namePieces b name commit ++ (if allChars then ["allChars: true,"] else []) ++ rangePieces ranges ++
    generalizationPieces gs ++ ["};"]
  | PChoice name id commit _ gs =>
    (* choicedefine.go:171-187, 223-239 *)
    ["var " +++ vname b id +++ " = choice" +++ (if b then "Builder" else "Parser") +++ "{";
     "id: " +++ itoaNat id +++ ", commit: " +++ commitText commit +++ ","] ++
    namePieces b name commit ++ generalizationPieces gs ++ ["};"]
  end.
(** the assignment of the items or options: sequencedefine.go:350-355, 415-420,
    choicedefine.go:196-201, 248-253 *)
Definition linkPieces (b : bool) (id : nat) (seq : bool) (kids : list nat) : list string :=
  (vname b id +++ "." +++ (if seq then "items" else "options") +++ " = []" +++ (if b then "builder" else "parser") +++ "{") ::
  map (fun k => "&" +++ vname b k +++ ",") kids ++ ["};"].

(** the receivers of generate: sequencedefine.go:296, 361 or choicedefine.go:155, 207; their items or options *)
Definition isSeq (o : pobj) : bool := match o with PSeq _ _ _ _ _ _ _ => true | _ => false end.
Definition kids (o : pobj) : list addr :=
  match o with PChar _ _ _ _ _ => [] | PSeq _ _ _ items _ _ _ => items | PChoice _ _ _ options _ => options end.
(** p.items[i].nodeID() for every item *)
Fixpoint kidIDs (P : pheap) (l : list addr) : res (list nat) :=
  match l with
  | [] => Ok []
  | x :: l' =>
    match nth_error P x with
    | None => Panic PanicDangling
    | Some o => r <- kidIDs P l' ;; Ok (nodeID o :: r)
    end
  end.

Section WRITE.
Variable W : writer.
(** recursive call of generate: done map, output, error *)
Variable rec : addr -> list string -> output -> res (list string * output * option nat).

(** [for i := range items { if err := items[i].generate(w, done); err != nil { return err } }] *)
Fixpoint generateKids (l : list addr) (done : list string) (o : output) : res (list string * output * option nat) :=
  match l with
  | [] => Ok (done, o, None)
  | x :: l' =>
    r <- rec x done o ;;
    match r with
    | (done, o, Some e) => Ok (done, o, Some e)
    | (done, o, None) => generateKids l' done o
    end
  end.
End WRITE.

(** generate of a parser or builder, chardefine.go:75-116 (without the done map),
    sequencedefine.go:296-424, choicedefine.go:155-257 *)
Fixpoint generate (W : writer) (P : pheap) (b : bool) (n : nat) (a : addr) (done : list string) (o : output)
  : res (list string * output * option nat) :=
  match n with
  | O => NoFuel
  | S n' =>
    match nth_error P a with
    | None => Panic PanicDangling
    | Some ob =>
      match ob with
      | PChar _ _ _ _ _ =>
        let (o, err) := fprintfs W (declPieces b ob) (o, None) in Ok (done, o, err)
      | _ =>
        if existsb (String.eqb (nodeName ob)) done then Ok (done, o, None)
        else
          let done := nodeName ob :: done in
          let (o, err) := fprintfs W (declPieces b ob) (o, None) in
          match kids ob with
          | [] => Ok (done, o, err)
          | ks =>
            r <- generateKids (generate W P b n') ks done o ;;
            match r with
            | (done, o, Some e) => Ok (done, o, Some e)
            | (done, o, None) =>
              ids <- kidIDs P ks ;;
              let (o, err) := fprintfs W (linkPieces b (nodeID ob) (isSeq ob) ids) (o, err) in Ok (done, o, err)
            end
          end
      end
    end
  end.

(** syntax.go:28-31 GeneratorOptions *)
Record genOptions := mkGenOptions { gPackage : string; gExport : bool }.
(** fprintln, syntax.go:356-385 *)
Definition newline : string := String (Ascii.ascii_of_nat 10) "".

(** syntax.go:386-405 *)
Definition headPieces (gendoc headCode : string) (opts : genOptions) : list string :=
  [gendoc; newline; newline; "package " +++ (if String.eqb (gPackage opts) "" then "main" else gPackage opts); newline; newline;
   headCode; newline; newline;
   (if gExport opts then "func Parse(r io.Reader) (*Node, error) {" else "func parse(r io.Reader) (*Node, error) {"); newline].
(** syntax.go:425-437 *)
Definition tailPieces (keywords : list nat) (root rootB : nat) : list string :=
  [newline; newline; "var keywords = []parser{"] ++ map (fun k => "&p" +++ itoaNat k +++ ", ") keywords ++ ["}"; newline; newline;
   "return parseInput(r, &p" +++ itoaNat root +++ ", &b" +++ itoaNat rootB +++ ", keywords)"; newline; "}"; newline].

(** syntax.go:356-440 Generate: the syntax, the output and the error of the writer or of Init.  The
    errors of its own fprint calls are in [err], which is not returned (syntax.go:439). *)
Definition Generate (gendoc headCode : string) (opts : genOptions) (W : writer) (fuel : nat) (s : syntax)
  : res (syntax * output * option (gerr + nat)) :=
  se <- Init fuel s ;;
  match se with
  | (s, Some err) => Ok (s, noOutput, Some (inl err))
  | (s, None) =>
    match sRoot s with
    | None => Panic PanicNil
    | Some root =>
      let P := parsers s in
      let (o, err) := fprintfs W (headPieces gendoc headCode opts) (noOutput, None) in
      r <- generateKids (generate W P false fuel) (sKeywords s) [] o ;;
      match r with
      | (_, o, Some e) => Ok (s, o, Some (inr e))
      | (done, o, None) =>
        let (o, err) := fprintf W newline (o, err) in
        r <- generate W P false fuel root done o ;;
        match r with
        | (_, o, Some e) => Ok (s, o, Some (inr e))
        | (_, o, None) =>
          r <- generate W P true fuel root [] o ;;
          match r with
          | (_, o, Some e) => Ok (s, o, Some (inr e))
          | (_, o, None) =>
            ids <- kidIDs P (sKeywords s) ;;
            r <- kidIDs P [root] ;;
            let id := match r with i :: _ => i | [] => 0 end in
            let (o, _) := fprintfs W (tailPieces ids id id) (o, err) in
            Ok (s, o, None)
          end
        end
      end
    end
  end.
