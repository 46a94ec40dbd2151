(** Specification vocabulary for the command line tool. *)
From Verif Require Import Base Utf8 Parser Build Syntax Define ApiSpec Cli.
Local Open Scope string_scope.
Local Open Scope list_scope.

(** the sources given on the command line, empty option values counting as not given *)
Definition given (o : fileOptions) : list source :=
  map SrcFile (foPositional o) ++
  (if String.eqb (foFileName o) "" then [] else [SrcFile (foFileName o)]) ++
  (if String.eqb (foInline o) "" then [] else [SrcInline (foInline o)]).

(** the source delivers these bytes and this end: a file that can be opened, stdin if it is not a
    terminal, or the inline text *)
Inductive delivers (w : world) : source -> list Z -> rend -> Prop :=
| dl_file name bs e : name <> "" -> wFile w name = Some (bs, e) -> delivers w (SrcFile name) bs e
| dl_noname : delivers w (SrcFile "") [] REof
| dl_inline t : delivers w (SrcInline t) (bytesOf t) REof
| dl_input bs e : wStdin w = Some (bs, e) -> delivers w SrcInput bs e.
(** stdin that was read to its end before delivers nothing more *)
Inductive deliversAfter (w : world) : source -> source -> list Z -> rend -> Prop :=
| da_again : wStdin w <> None -> deliversAfter w SrcInput SrcInput [] REof
| da_other src1 src2 bs e : ~ (src1 = SrcInput /\ src2 = SrcInput) -> delivers w src2 bs e -> deliversAfter w src1 src2 bs e.
Definition hasStdin (w : world) : bool := match wStdin w with Some _ => true | None => false end.

(** the source that a command takes: the only one given, or stdin if none is given; a file name
    given as a positional argument hides an inline text (C37_refuted) *)
Inductive takes (w : world) (o : fileOptions) : source -> Prop :=
| takes_given src : given o = [src] -> takes w o src
| takes_stdin : given o = [] -> wStdin w <> None -> takes w o SrcInput
| takes_positional name text : foPositional o = [name] -> given o = [SrcFile name; SrcInline text] -> takes w o (SrcFile name).

(** reading a new syntax from the bytes succeeds *)
Definition Reads (bs : list Z) (e : rend) (s : syntax) : Prop :=
  exists fuel, ReadSyntax fuel emptySyntax (decodeUtf8 bs) e = Ok (s, None).

(** exit code of a command *)
Definition Exits (cmd : nat -> res Z) (code : Z) : Prop := exists fuel, cmd fuel = Ok code.

(** the parsing commands get this tree: the flags are v, the other arguments rest; the syntax and the
    input are read from their sources *)
Definition parsesWith (w : world) (v : list (string * string)) (rest : list string) (t : node) (toks : list rune) : Prop :=
  exists src1 bs1 e1 s src2 bs2 e2 s',
    takes w (syntaxOptions v []) src1 /\ delivers w src1 bs1 e1 /\ Reads bs1 e1 s /\
    takes w (inputOptions v rest) src2 /\ deliversAfter w src1 src2 bs2 e2 /\
    Parses s (decodeUtf8 bs2) e2 s' (Tree t toks).
(** the command panics *)
Definition Crashes (cmd : nat -> res Z) : Prop := exists fuel w, cmd fuel = Panic w.

(** nodes by their place in the tree *)
Fixpoint nodeAt (path : list nat) (n : node) : option node :=
  match path with
  | [] => Some n
  | i :: path' => match nth_error (nNodes n) i with Some m => nodeAt path' m | None => None end
  end.
Definition shName (s : shown) := match s with Shown a _ _ _ _ => a end.
Definition shFrom (s : shown) := match s with Shown _ a _ _ _ => a end.
Definition shTo (s : shown) := match s with Shown _ _ a _ _ => a end.
Definition shText (s : shown) := match s with Shown _ _ _ a _ => a end.
Definition shNodes (s : shown) := match s with Shown _ _ _ _ a => a end.
Fixpoint shownAt (path : list nat) (s : shown) : option shown :=
  match path with
  | [] => Some s
  | i :: path' => match shNodes s with
                  | None => None
                  | Some l => match nth_error l i with Some m => shownAt path' m | None => None end
                  end
  end.

(** the words are divided into lines of at most 72 characters, nothing is lost or moved *)
Definition wrapped (words : list (list rune)) (lines : list (list rune)) : Prop :=
  exists groups, List.concat groups = words /\ lines = map (joinWith 32%Z) groups /\
    Forall (fun g => g <> [] /\ List.length (joinWith 32%Z g) <= 72) groups.
