(** Model of the command line tool: cmd/treerack.

    Modelled: the dispatch of main.go, the flags (package flag), the choice of the sources, the exit
    codes of check, check-syntax and show, the node tree printed by show, and the wrapping of help
    texts.  Not modelled: the text printed to the outputs apart from that of show (the
    text is in Json.v), the generate command (see CliGen.v). *)
From Verif Require Import Base Utf8 Parser Build Syntax SelfData Define.
Local Open Scope string_scope.
Local Open Scope list_scope.

(** package flag, FlagSet.parseOne and Parse, with ContinueOnError.  [flags] lists the names with
    [true] for a boolean flag; the values given are returned last first. *)
Fixpoint splitFlag (name : string) : string * option string :=
  match name with
  | EmptyString => (EmptyString, None)
  | String c rest =>
    if Ascii.eqb c "="%char then (EmptyString, Some rest)
    else let (n, v) := splitFlag rest in (String c n, v)
  end.
(** name[0] is not checked for '=' by the loop: it starts at 1 *)
Definition splitName (name : string) : string * option string :=
  match name with
  | EmptyString => (EmptyString, None)
  | String c rest => let (n, v) := splitFlag rest in (String c n, v)
  end.
(** strconv.ParseBool *)
Definition parseBool (v : string) : option bool :=
  if existsb (String.eqb v) ["1"; "t"; "T"; "true"; "TRUE"; "True"] then Some true
  else if existsb (String.eqb v) ["0"; "f"; "F"; "false"; "FALSE"; "False"] then Some false
  else None.
(** package flag, FlagSet.parseOne: an argument that is no flag, the end of the flags, a bad flag, a flag *)
Inductive flagArg := FaStop | FaEnd | FaBad | FaName (name : string).
(** what args[0] is *)
Definition flagArgOf (s : string) : flagArg :=
  match s with
  | String "-" (String "-" EmptyString) => FaEnd
  | String "-" (String "-" name) =>
    match name with String "-" _ | String "=" _ => FaBad | _ => FaName name end
  | String "-" (String c rest) => if Ascii.eqb c "="%char then FaBad else FaName (String c rest)
  | _ => FaStop
  end.
(** package flag, FlagSet.Parse; options.go:46-53 parseArgs *)
Fixpoint parseFlags (flags : list (string * bool)) (args : list string) (acc : list (string * string))
  : option (list (string * string) * list string) :=
  match args with
  | [] => Some (acc, [])
  | s :: args' =>
    match flagArgOf s with
    | FaStop => Some (acc, args)
    | FaEnd => Some (acc, args')
    | FaBad => None
    | FaName full =>
      let (name, value) := splitName full in
      match find (fun f => String.eqb (fst f) name) flags with
      | None => None
      | Some (_, true) =>
        match value with
        | None => parseFlags flags args' ((name, "true") :: acc)
        | Some v => match parseBool v with None => None | Some _ => parseFlags flags args' ((name, v) :: acc) end
        end
      | Some (_, false) =>
        match value, args' with
        | Some v, _ => parseFlags flags args' ((name, v) :: acc)
        | None, v :: args'' => parseFlags flags args'' ((name, v) :: acc)
        | None, [] => None
        end
      end
    end
  end.
(** the value of a string flag: the last one given, empty by default *)
Definition flagValue (name : string) (values : list (string * string)) : string :=
  match find (fun f => String.eqb (fst f) name) values with Some (_, v) => v | None => EmptyString end.

(** open.go:14-21 fileOptions *)
Record fileOptions := mkFileOptions { foInline : string; foFileName : string; foPositional : list string }.
(** what getSource returns: (hasInput, fileName, inline) or the code -1 *)
Inductive source := SrcInput | SrcFile (name : string) | SrcInline (text : string).
(** open.go:53-61: the loop over the three booleans *)
Fixpoint tooMany (l : list bool) (has : bool) : bool :=
  match l with
  | [] => false
  | h :: l' => if h && has then true else tooMany l' h
  end.
(** open.go:41-84 getSource; [stdin] is [!terminal.IsTerminal(0)]; [None] is the code -1 *)
Definition getSource (stdin : bool) (o : fileOptions) : option source :=
  if Nat.ltb 1 (List.length (foPositional o)) then None
  else
    let hasPositional := Nat.eqb (List.length (foPositional o)) 1 in
    let hasFile := negb (String.eqb (foFileName o) "") in
    let hasInline := negb (String.eqb (foInline o) "") in
    if tooMany [hasPositional; hasFile; hasInline] false then None
    else if hasPositional then Some (SrcFile (hd EmptyString (foPositional o)))
    else if hasFile then Some (SrcFile (foFileName o))
    else if hasInline then Some (SrcInline (foInline o))
    else if stdin then Some SrcInput else None.

(** the world of the tool: files that can be opened with what reading them delivers, and stdin,
    [None] for a terminal *)
Record world := mkWorld { wFile : string -> option (list Z * rend); wStdin : option (list Z * rend) }.

(** open.go:86-108 open: the bytes delivered, or the code -1; an empty file name is taken for an
    inline source.  [used]: stdin was already read to its end. *)
Definition openSource (w : world) (used : bool) (o : fileOptions) : option (source * (list Z * rend)) :=
  match getSource (match wStdin w with Some _ => true | None => false end) o with
  | None => None
  | Some SrcInput => match wStdin w with
                     | Some c => Some (SrcInput, if used then ([], REof) else c)
                     | None => None
                     end
  | Some (SrcFile name) =>
    if String.eqb name "" then Some (SrcInline "", ([], REof))
    else match wFile w name with None => None | Some c => Some (SrcFile name, c) end
  | Some (SrcInline t) => Some (SrcInline t, (bytesOf t, REof))
  end.

(** open.go:110-125 openSyntax; the bool tells that stdin was used *)
Definition openSyntax (fuel : nat) (w : world) (o : fileOptions) : res (option (syntax * bool)) :=
  match openSource w false o with
  | None => Ok None
  | Some (src, (bs, e)) =>
    x <- ReadSyntax fuel emptySyntax (decodeUtf8 bs) e ;;
    match x with
    | (s, None) => Ok (Some (s, match src with SrcInput => true | _ => false end))
    | (_, Some _) => Ok None
    end
  end.

(** options.go:71-78 help *)
Definition isHelp (args : list string) : bool :=
  match args with a :: _ => String.eqb a "-help" | [] => false end.
(** check.go:15-16, checksyntax.go:13-14, show.go:49-50 *)
Definition syntaxFlags : list (string * bool) := [("syntax-string", false); ("syntax", false)].
(** check.go:18-19, show.go:52-53 *)
Definition inputFlags : list (string * bool) := [("input-string", false); ("input", false)].
(** the fileOptions of open.go for the syntax, check.go:12; with positional arguments in check-syntax and generate *)
Definition syntaxOptions (v : list (string * string)) (positional : list string) : fileOptions :=
  mkFileOptions (flagValue "syntax-string" v) (flagValue "syntax" v) positional.
(** the fileOptions of open.go for the input, check.go:13 and 34 *)
Definition inputOptions (v : list (string * string)) (positional : list string) : fileOptions :=
  mkFileOptions (flagValue "input-string" v) (flagValue "input" v) positional.

(** the common part of check.go:29-46 and show.go:66-83: the tree, or the code -1 *)
Definition parseCommand (fuel : nat) (w : world) (v : list (string * string)) (rest : list string)
  : res (option (node * list rune)) :=
  so <- openSyntax fuel w (syntaxOptions v []) ;;
  match so with
  | None => Ok None
  | Some (s, used) =>
    match openSource w used (inputOptions v rest) with
    | None => Ok None
    | Some (_, (bs, e)) =>
      x <- Parse fuel s (decodeUtf8 bs) e ;;
      match x with
      | (_, Tree n toks) => Ok (Some (n, toks))
      | (_, Failed _) => Ok None
      end
    end
  end.

(** check.go:9-49 *)
Definition check (fuel : nat) (w : world) (args : list string) : res Z :=
  if isHelp args then Ok 0%Z
  else match parseFlags (syntaxFlags ++ inputFlags) args [] with
       | None => Ok (-1)%Z
       | Some (v, rest) =>
         x <- parseCommand fuel w v rest ;;
         match x with Some _ => Ok 0%Z | None => Ok (-1)%Z end
       end.

(** checksyntax.go:8-36 *)
Definition checkSyntax (fuel : nat) (w : world) (args : list string) : res Z :=
  if isHelp args then Ok 0%Z
  else match parseFlags syntaxFlags args [] with
       | None => Ok (-1)%Z
       | Some (v, rest) =>
         so <- openSyntax fuel w (syntaxOptions v rest) ;;
         match so with
         | None => Ok (-1)%Z
         | Some (s, _) =>
           x <- Init fuel s ;;
           match x with (_, None) => Ok 0%Z | (_, Some _) => Ok (-1)%Z end
         end
       end.

(** show.go:17-23: the printed nodes; [None]: the member is left out (omitempty) *)
Inductive shown : Type := Shown (name : string) (from to : nat) (text : option string) (nodes : option (list shown)).
(** show.go:25-41 mapNode, with the omitempty rules of the json tags *)
Fixpoint mapNode (tokens : list rune) (n : node) : shown :=
  match n with
  | Node name from to nodes =>
    match nodes with
    | [] => let t := nodeText tokens n in
            Shown name from to (if String.eqb t "" then None else Some t) None
    | _ => Shown name from to None (Some (map (mapNode tokens) nodes))
    end
  end.
(** show.go:49-56 *)
Definition showFlags : list (string * bool) := syntaxFlags ++ inputFlags ++ [("pretty", true); ("indent", false)].
(** show.go:43-105: the exit code and the printed tree *)
Definition show (fuel : nat) (w : world) (args : list string) : res (Z * option shown) :=
  if isHelp args then Ok (0%Z, None)
  else match parseFlags showFlags args [] with
       | None => Ok ((-1)%Z, None)
       | Some (v, rest) =>
         x <- parseCommand fuel w v rest ;;
         match x with
         | Some (n, toks) => Ok (0%Z, Some (mapNode toks n))
         | None => Ok ((-1)%Z, None)
         end
       end.

(** main.go:13-47, without generate; [None]: another command line is meant *)
Definition mainCode (fuel : nat) (w : world) (osArgs : list string) : res (option Z) :=
  match osArgs with
  | [] | [_] => Ok (Some (-1)%Z)
  | _ :: cmd :: args =>
    if String.eqb cmd "check-syntax" then c <- checkSyntax fuel w args ;; Ok (Some c)
    else if String.eqb cmd "generate" then Ok None
    else if String.eqb cmd "check" then c <- check fuel w args ;; Ok (Some c)
    else if String.eqb cmd "show" then c <- show fuel w args ;; Ok (Some (fst c))
    else if String.eqb cmd "help" || String.eqb cmd "-help" then Ok (Some 0%Z)
    else Ok (Some (-1)%Z)
  end.

(** doc.go:73-106 wrapLines; texts are lists of characters here (the text constants of doc.go are
    valid UTF-8, the length is taken in characters) *)
Definition wrap : nat := 72.
(** strings.Split(strings.Replace(s, newline, " ", -1), " ") *)
Fixpoint splitWords (s : list rune) (word : list rune) : list (list rune) :=
  match s with
  | [] => [word]
  | c :: s' => if Z.eqb c 32 || Z.eqb c 10 then word :: splitWords s' [] else splitWords s' (word ++ [c])
  end.
(** strings.Join *)
Fixpoint joinWith (sep : rune) (l : list (list rune)) : list rune :=
  match l with
  | [] => []
  | [x] => x
  | x :: l' => x ++ sep :: joinWith sep l'
  end.
(** doc.go:80-99: the loop with its variables i, l and ll; the index may become -1 *)
Fixpoint wrapLoop (fuel : nat) (w : list (list rune)) (i : nat) (l ll : list (list rune)) : res (list (list rune) * list (list rune)) :=
  match fuel with
  | O => NoFuel
  | S fuel' =>
    match nth_error w i with
    | None => Ok (l, ll)
    | Some x =>
      let ll1 := ll ++ [x] in
      let n := List.length (joinWith 32%Z ll1) in
      if Nat.ltb n wrap then wrapLoop fuel' w (S i) l ll1
      else if Nat.ltb wrap n then
        (* ll = ll[:len(ll)-1]; i-- *)
        match ll with
        | [] => match i with
                | O => Panic PanicIndex                       (* w[-1] *)
                | S j => match nth_error w j with
                         | Some y => wrapLoop fuel' w (S i) (l ++ [y]) []
                         | None => Panic PanicIndex
                         end
                end
        | _ => wrapLoop fuel' w i (l ++ [joinWith 32%Z ll]) []
        end
      else wrapLoop fuel' w (S i) (l ++ [joinWith 32%Z ll1]) []
    end
  end.
(** doc.go:73-106 *)
Definition wrapLines (s : list rune) : res (list rune) :=
  let w := splitWords s [] in
  x <- wrapLoop (S (2 * List.length w)) w 0 [] [] ;;
  let (l, ll) := x in
  Ok (joinWith 10%Z (match ll with [] => l | _ => l ++ [joinWith 32%Z ll] end)).
