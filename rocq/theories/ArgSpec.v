(** Specification vocabulary for the arguments of a command: how options are written, from the
    documentation of the Go package flag, and what is given with them.  It refers to no definition of
    Cli.v except the options record and the sources. *)
From Verif Require Import Base Utf8 Parser Build Syntax Define ApiSpec Cli CliSpec.
Local Open Scope string_scope.
Local Open Scope list_scope.

(** the first argument asks for the help text *)
Definition asksHelp (args : list string) : Prop := exists rest, args = "-help" :: rest.

Definition trueWords : list string := ["1"; "t"; "T"; "true"; "TRUE"; "True"].
Definition falseWords : list string := ["0"; "f"; "F"; "false"; "FALSE"; "False"].

(** the arguments give these values to the options, in this order, and leave the other arguments.
    [flags]: the names of the options, with [true] for the switches *)
Inductive commandLine (flags : list (string * bool)) : list string -> list (string * string) -> list string -> Prop :=
| cl_end : commandLine flags [] [] []
| cl_word a args : a = "-" \/ (forall r, a <> ("-" ++ r)%string) -> commandLine flags (a :: args) [] (a :: args)
| cl_dashes args : commandLine flags ("--" :: args) [] args
| cl_value dash name value args vs rest : In dash ["-"; "--"] -> In (name, false) flags -> commandLine flags args vs rest ->
    commandLine flags ((dash ++ name)%string :: value :: args) ((name, value) :: vs) rest
| cl_equals dash name value args vs rest : In dash ["-"; "--"] -> In (name, false) flags -> commandLine flags args vs rest ->
    commandLine flags ((dash ++ name ++ "=" ++ value)%string :: args) ((name, value) :: vs) rest
| cl_switch dash name args vs rest : In dash ["-"; "--"] -> In (name, true) flags -> commandLine flags args vs rest ->
    commandLine flags ((dash ++ name)%string :: args) ((name, "true") :: vs) rest
| cl_switched dash name value args vs rest : In dash ["-"; "--"] -> In (name, true) flags -> In value (trueWords ++ falseWords) ->
    commandLine flags args vs rest ->
    commandLine flags ((dash ++ name ++ "=" ++ value)%string :: args) ((name, value) :: vs) rest.

(** the value of an option: the last one given, empty if none is *)
Definition lastOf (name : string) (vs : list (string * string)) : string :=
  fold_left (fun x nv => if String.eqb (fst nv) name then snd nv else x) vs "".

(** the options of the commands *)
Definition syntaxArgs : list (string * bool) := [("syntax-string", false); ("syntax", false)].
Definition checkArgs : list (string * bool) := [("syntax-string", false); ("syntax", false); ("input-string", false); ("input", false)].
Definition showArgs : list (string * bool) := checkArgs ++ [("pretty", true); ("indent", false)].
Definition generateArgs : list (string * bool) := syntaxArgs ++ [("package-name", false); ("export", true)].
(** a switch is on when the last value given means true *)
Definition switchedOn (name : string) (vs : list (string * string)) : bool := existsb (String.eqb (lastOf name vs)) trueWords.
Definition syntaxGiven (vs : list (string * string)) (positional : list string) : fileOptions :=
  mkFileOptions (lastOf "syntax-string" vs) (lastOf "syntax" vs) positional.
Definition inputGiven (vs : list (string * string)) (positional : list string) : fileOptions :=
  mkFileOptions (lastOf "input-string" vs) (lastOf "input" vs) positional.

(** the syntax is read from its source, then the input from its own, and it is parsed to this tree *)
Definition treeFrom (w : world) (vs : list (string * string)) (rest : list string) (t : node) (toks : list rune) : Prop :=
  exists src1 bs1 e1 s src2 bs2 e2 s',
    takes w (syntaxGiven vs []) src1 /\ delivers w src1 bs1 e1 /\ Reads bs1 e1 s /\
    takes w (inputGiven vs rest) src2 /\ deliversAfter w src1 src2 bs2 e2 /\
    Parses s (decodeUtf8 bs2) e2 s' (Tree t toks).

(** the files and the standard input have no invalid characters, *)
Definition cleanSources (w : world) : Prop :=
  forall src bs e, (forall t, src <> SrcInline t) -> delivers w src bs e -> ~ In runeError (decodeUtf8 bs).
(** and neither has the text given as an option *)
Definition cleanOptions (o : fileOptions) : Prop := ~ In runeError (decodeUtf8 (bytesOf (foInline o))).
