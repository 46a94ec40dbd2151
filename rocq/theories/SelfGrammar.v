(** The grammar of the syntax language, written down by hand from /repo/syntax.treerack, definition
    by definition. *)
From Coq Require Import Ascii.
From Verif Require Import Base Utf8 Parser Build Syntax Grammar ReadSpec.
Local Open Scope string_scope.
Local Open Scope list_scope.

Definition runesOf (s : string) : list rune := map (fun c => Z.of_N (N_of_ascii c)) (list_ascii_of_string s).
Definition quoted (s : string) : expr := EText (runesOf s).
Definition rune1 (r : rune) : expr := EText [r].
Definition one (e : expr) : expr * (Z * Z) := (e, (0, 0)%Z).
Definition maybe (e : expr) : expr * (Z * Z) := (e, (0, 1)%Z).
Definition many (e : expr) : expr * (Z * Z) := (e, (0, -1)%Z).
Definition many1 (e : expr) : expr * (Z * Z) := (e, (1, -1)%Z).
Definition noneOf (l : list rune) : expr := EClass true l [].
Definition alias : commitType := CAlias.
Definition plain : commitType := 0%N.
Definition nows : commitType := CNoWhitespace.
Notation "f & g" := (N.lor f g) (at level 40, left associativity).
Notation sym := ESymbol.

(** control characters, the backslash and the quote *)
Definition rTab : rune := 9%Z.
Definition rNl : rune := 10%Z.
Definition rBs : rune := 8%Z.
Definition rFf : rune := 12%Z.
Definition rCr : rune := 13%Z.
Definition rVt : rune := 11%Z.
Definition rBackslash : rune := 92%Z.
Definition rQuote : rune := 34%Z.

Definition publishedDefs : list textDef := [
  mkTextDef "wschar" alias (EChoice [quoted " "; rune1 rTab; rune1 rNl; rune1 rBs; rune1 rFf; rune1 rCr; rune1 rVt]);
  mkTextDef "wsc" CWhitespace (EChoice [sym "wschar"; sym "comment"]);

  mkTextDef "block-comment" (alias & nows)
    (ESequence [one (quoted "/*");
                many (EChoice [ESequence [one (quoted "*"); one (noneOf (runesOf "/"))]; noneOf (runesOf "*")]);
                one (quoted "*/")]);
  mkTextDef "line-comment" (alias & nows) (ESequence [one (quoted "//"); many (noneOf [rNl])]);
  mkTextDef "comment-segment" (alias & nows) (EChoice [sym "line-comment"; sym "block-comment"]);
  mkTextDef "ws-no-nl" (alias & nows) (EChoice [quoted " "; rune1 rTab; rune1 rBs; rune1 rFf; rune1 rCr; rune1 rVt]);
  mkTextDef "comment" nows
    (ESequence [one (sym "comment-segment");
                many (ESequence [many (sym "ws-no-nl"); maybe (rune1 rNl); many (sym "ws-no-nl"); one (sym "comment-segment")])]);

  mkTextDef "any-char" plain (quoted ".");

  mkTextDef "class-not" plain (quoted "^");
  mkTextDef "class-char" nows
    (EChoice [noneOf (rBackslash :: runesOf "[]^-"); ESequence [one (rune1 rBackslash); one EAny]]);
  mkTextDef "char-range" nows (ESequence [one (sym "class-char"); one (quoted "-"); one (sym "class-char")]);
  mkTextDef "char-class" nows
    (ESequence [one (quoted "["); maybe (sym "class-not"); many (EChoice [sym "class-char"; sym "char-range"]); one (quoted "]")]);

  mkTextDef "sequence-char" nows
    (EChoice [noneOf [rBackslash; rQuote]; ESequence [one (rune1 rBackslash); one EAny]]);
  mkTextDef "char-sequence" nows (ESequence [one (rune1 rQuote); many (sym "sequence-char"); one (rune1 rQuote)]);

  mkTextDef "terminal" alias (EChoice [sym "any-char"; sym "char-class"; sym "char-sequence"]);

  mkTextDef "symbol" nows
    (ESequence [many1 (noneOf (rBackslash :: runesOf " " ++ [rNl; rTab; rBs; rFf; rCr; rVt] ++ runesOf "/.[]" ++ [rQuote] ++ runesOf "{}^+*?|():=;"))]);

  mkTextDef "group" alias (ESequence [one (quoted "("); one (sym "expression"); one (quoted ")")]);

  mkTextDef "number" (alias & nows) (ESequence [many1 (EClass false [] [(48, 57)%Z])]);
  mkTextDef "count" plain (sym "number");
  mkTextDef "count-quantifier" plain (ESequence [one (quoted "{"); one (sym "count"); one (quoted "}")]);
  mkTextDef "range-from" plain (sym "number");
  mkTextDef "range-to" plain (sym "number");
  mkTextDef "range-quantifier" plain
    (ESequence [one (quoted "{"); maybe (sym "range-from"); one (quoted ","); maybe (sym "range-to"); one (quoted "}")]);
  mkTextDef "one-or-more" plain (quoted "+");
  mkTextDef "zero-or-more" plain (quoted "*");
  mkTextDef "zero-or-one" plain (quoted "?");
  mkTextDef "quantity" alias
    (EChoice [sym "count-quantifier"; sym "range-quantifier"; sym "one-or-more"; sym "zero-or-more"; sym "zero-or-one"]);

  mkTextDef "item" nows (ESequence [one (EChoice [sym "terminal"; sym "symbol"; sym "group"]); maybe (sym "quantity")]);
  mkTextDef "sequence" plain (ESequence [many1 (sym "item")]);

  mkTextDef "option" alias (EChoice [sym "terminal"; sym "symbol"; sym "group"; sym "sequence"]);
  mkTextDef "choice" plain (ESequence [one (sym "option"); many1 (ESequence [one (quoted "|"); one (sym "option")])]);

  mkTextDef "expression" alias (EChoice [sym "terminal"; sym "symbol"; sym "group"; sym "sequence"; sym "choice"]);

  mkTextDef "alias" plain (quoted "alias");
  mkTextDef "ws" plain (quoted "ws");
  mkTextDef "nows" plain (quoted "nows");
  mkTextDef "kw" plain (quoted "kw");
  mkTextDef "nokw" plain (quoted "nokw");
  mkTextDef "failpass" plain (quoted "failpass");
  mkTextDef "root" plain (quoted "root");
  mkTextDef "flag" alias (EChoice [sym "alias"; sym "ws"; sym "nows"; sym "kw"; sym "nokw"; sym "failpass"; sym "root"]);
  mkTextDef "definition-name" (alias & nows) (ESequence [one (sym "symbol"); many (ESequence [one (quoted ":"); one (sym "flag")])]);
  mkTextDef "definition" plain (ESequence [one (sym "definition-name"); one (quoted "="); one (sym "expression")]);

  mkTextDef "definitions" alias (ESequence [one (sym "definition"); many (ESequence [many1 (quoted ";"); one (sym "definition")])]);
  mkTextDef "syntax" CRoot (ESequence [many (quoted ";"); maybe (sym "definitions"); many (quoted ";")])
].

(** the published grammar as definition calls *)
Definition published : list defcall := flat_map textCalls publishedDefs.
