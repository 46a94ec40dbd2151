(** Model of the generate command and of main with it: cmd/treerack/generate.go, main.go.

    Not modelled: the texts printed to the standard error and by help.  The writes of Generate go to
    the standard output, [W] says which of them fail. *)
From Verif Require Import Base Utf8 Parser Build Syntax SelfData Define Cli Generate.
Local Open Scope string_scope.
Local Open Scope list_scope.

(** generate.go:17-20 *)
Definition generateFlags : list (string * bool) := [("export", true); ("package-name", false); ("syntax-string", false); ("syntax", false)].
(** package flag: the value of a boolean flag, false by default *)
Definition flagSwitch (name : string) (v : list (string * string)) : bool :=
  match parseBool (flagValue name v) with Some b => b | None => false end.
(** generate.go:12-48: the exit code and what was written *)
Definition generateCommand (gendoc headCode : string) (W : writer) (fuel : nat) (w : world) (args : list string) : res (Z * output) :=
  if isHelp args then Ok (0%Z, noOutput)
  else match parseFlags generateFlags args [] with
       | None => Ok ((-1)%Z, noOutput)
       | Some (v, rest) =>
         so <- openSyntax fuel w (syntaxOptions v rest) ;;
         match so with
         | None => Ok ((-1)%Z, noOutput)
         | Some (s, _) =>
           x <- Generate gendoc headCode (mkGenOptions (flagValue "package-name" v) (flagSwitch "export" v)) W fuel s ;;
           match x with
           | (_, o, None) => Ok (0%Z, o)
           | (_, o, Some _) => Ok ((-1)%Z, o)
           end
         end
       end.
(** main.go:13-47: the exit code *)
Definition mainExit (gendoc headCode : string) (W : writer) (fuel : nat) (w : world) (osArgs : list string) : res Z :=
  match osArgs with
  | _ :: cmd :: args =>
    if String.eqb cmd "generate" then x <- generateCommand gendoc headCode W fuel w args ;; Ok (fst x)
    else x <- mainCode fuel w osArgs ;; Ok (match x with Some c => c | None => (-1)%Z end)
  | _ => x <- mainCode fuel w osArgs ;; Ok (match x with Some c => c | None => (-1)%Z end)
  end.
