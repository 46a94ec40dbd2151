(** Model of the texts of nodes and errors: nodehead.go (String), syntaxhead.go (ParseError.Error),
    syntax.go (the other errors). *)
From Verif Require Import Base Utf8 Parser Build Syntax.
Local Open Scope string_scope.
Local Infix "+++" := String.append (at level 60, right associativity).

(** nodehead.go:16-18 Node.String: "%s:%d:%d:%s" *)
Definition nodeString (tokens : list rune) (n : node) : string :=
  nName n +++ ":" +++ itoaNat (nFrom n) +++ ":" +++ itoaNat (nTo n) +++ ":" +++ nodeText tokens n.

(** syntaxhead.go:75-83 ParseError.Error: "%s:%d:%d:parse failed, parsing: %s".  The Input field is
    always "<input>", syntaxhead.go:101 and context.go:97. *)
Definition parseErrorString (line column : nat) (definition : string) : string :=
  "<input>" +++ ":" +++ itoaNat (line + 1) +++ ":" +++ itoaNat (column + 1) +++ ":" +++ "parse failed, parsing: " +++ definition.

(** the texts of the errors: syntax.go:55-60 (the sentinels), 86-92 (duplicateDefinition,
    parserNotFound), 140-145 (checkCommitType, a CommitType is printed as a number),
    syntaxhead.go:73 and 75-83.  The texts of the errors that come from strconv and from the reader
    are an argument. *)
Definition errorString (foreign : gerr -> string) (e : gerr) : string :=
  match e with
  | ErrSyntaxInitialized => "syntax initialized"
  | ErrInitFailed => "init failed"
  | ErrNoParsersDefined => "no parsers defined"
  | ErrInvalidEscapeCharacter => "invalid escape character"
  | ErrMultipleRoots => "multiple roots"
  | ErrInvalidSymbolName => "invalid symbol name"
  | ErrInvalidUnicodeCharacter => "invalid unicode character"
  | ErrDuplicateDefinition name => "duplicate definition: " +++ name
  | ErrParserNotFound name => "parser not found: " +++ name
  | ErrIncompatible name a b => "incompatible commit types in " +++ name +++ ": " +++ itoa (Z.of_N a) +++ " and " +++ itoa (Z.of_N b)
  | ErrAtoi => foreign e
  | ErrReader _ => foreign e
  | ErrParse _ line column definition => parseErrorString line column definition
  end.
