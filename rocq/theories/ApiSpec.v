(** Specification vocabulary of the property files: what a user of the package can observe.

    The model functions take fuel; a call returns a value when it does so for some fuel.  More
    fuel never changes the value (InitFuel.v, [Parses_unique] below). *)
From Verif Require Import Base Utf8 Parser Build Syntax Grammar WsLang.

(** a new syntax after the given definition calls, all of them successful *)
Definition Defined (calls : list defcall) (s : syntax) : Prop := defineAll emptySyntax calls = (s, None).
(** Syntax.Init returns an error or nil *)
Definition Inits (s s' : syntax) (err : option gerr) : Prop := exists fuel, Init fuel s = Ok (s', err).
(** Syntax.Parse returns a tree with its tokens or an error; [e] says how the reader ends *)
Definition Parses (s : syntax) (input : list rune) (e : rend) (s' : syntax) (out : parseOut) : Prop :=
  exists fuel, Parse fuel s input e = Ok (s', out).
Definition ParsePanics (s : syntax) (input : list rune) (e : rend) : Prop :=
  exists fuel why, Parse fuel s input e = Panic why.

(** the nodes of a tree *)
Inductive inTree (n : node) : node -> Prop :=
| inTree_here : inTree n n
| inTree_below name from to nodes m : In m nodes -> inTree n m -> inTree n (Node name from to nodes).

(** the texts of a definition under a list of definition calls, whitespace included *)
Definition texts (calls : list defcall) (root : string) : string -> list rune -> Prop :=
  wgen (grammarOf calls) (keywordTexts calls) (whitespaceNames calls) root.

(** with whitespace definitions: every name used is defined, keywords are literals, choices or nows *)
Definition hasWhitespaceDef (calls : list defcall) : Prop := exists d, In d calls /\ hasFlag (callFlags d) CWhitespace = true.
Definition keywordsPlain (calls : list defcall) : Prop :=
  forall d, In d calls -> hasFlag (callFlags d) CKeyword = true ->
  match d with DCharSequence _ _ _ => True | DChoice _ _ _ => True | _ => hasFlag (callFlags d) CNoWhitespace = true end.
Definition wsReady (calls : list defcall) : Prop :=
  hasWhitespaceDef calls -> allDefined calls /\ keywordsPlain calls.

(** the parsers that can take part in a parse: reachable from the root and the keywords *)
Definition kidsOf (o : pobj) : list addr :=
  match o with PChar _ _ _ _ _ => [] | PSeq _ _ _ items _ _ _ => items | PChoice _ _ _ options _ => options end.
Inductive takesPart (s : syntax) : addr -> Prop :=
| tp_root a : sRoot s = Some a -> takesPart s a
| tp_keyword a : In a (sKeywords s) -> takesPart s a
| tp_kid a o x : takesPart s a -> nth_error (parsers s) a = Some o -> In x (kidsOf o) -> takesPart s x.

(** spans of children: inside the span from .. to, in order, without overlap *)
Fixpoint inOrder (from to : nat) (nodes : list node) : Prop :=
  match nodes with
  | [] => from <= to
  | n :: nodes' => from <= nFrom n /\ nFrom n <= nTo n /\ inOrder (nTo n) to nodes'
  end.
Definition wellNested (t : node) : Prop := forall n, inTree n t -> inOrder (nFrom n) (nTo n) (nNodes n).
