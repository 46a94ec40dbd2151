(** Specification vocabulary for the definition calls. *)
From Verif Require Import Base Utf8 Escape Parser Build Syntax Define Grammar.

(** the pairs of flags that exclude each other *)
Definition incompatiblePairs : list (commitType * commitType) :=
  [ (CAlias, CRoot);
    (CWhitespace, CKeyword); (CWhitespace, CNoKeyword); (CWhitespace, CFailPass); (CWhitespace, CRoot);
    (CKeyword, CNoKeyword); (CKeyword, CRoot);
    (CFailPass, CRoot) ].
Definition incompatibleFlags (ct : commitType) (a b : commitType) : Prop :=
  In (a, b) incompatiblePairs /\ hasFlag ct a = true /\ hasFlag ct b = true.

(** the characters that a symbol cannot contain *)
Definition reserved (r : rune) : Prop :=
  In r [92; 32; 10; 9; 8; 12; 13; 11; 47; 46; 91; 93; 34; 123; 125; 94; 43; 42; 63; 124; 40; 41; 58; 61; 59]%Z.

(** names used for a definition and its character children *)
Definition callNames (d : defcall) : list string :=
  match d with
  | DAnyChar n _ => [childName n 0; n]
  | DClass n _ _ _ _ => [childName n 0; n]
  | DCharSequence n _ chars => map (childName n) (seq 0 (List.length chars)) ++ [n]
  | DSequence n _ _ => [n]
  | DChoice n _ _ => [n]
  end.
(** the names and identities of the registered definitions, in the order of their definition *)
Definition registered (s : syntax) : list (string * nat) :=
  match sRegistry s with
  | None => []
  | Some reg => flat_map (fun a => match nth_error (sHeap s) a with Some d => [(dName d, dId d)] | None => [] end) (gDefinitions reg)
  end.
(** the name of the root definition *)
Definition rootDefName (s : syntax) : option string :=
  match sRoot s with Some a => option_map dName (nth_error (sHeap s) a) | None => None end.
(** the definitions carrying the root mark *)
Definition rootMarks (s : syntax) : list string :=
  match sRegistry s with
  | None => []
  | Some reg => flat_map (fun a => match nth_error (sHeap s) a with Some d => if hasFlag (dCommit d) CRoot then [dName d] else [] | None => [] end) (gDefinitions reg)
  end.

(** the calls of a program on a syntax: definition calls, ReadSyntax, Init and Parse, with any
    arguments and any outcome other than a panic *)
Inductive apiStep (s s' : syntax) : Prop :=
| as_define d err : defineCall s d = (s', err) -> apiStep s s'
| as_read fuel input e err : ReadSyntax fuel s input e = Ok (s', err) -> apiStep s s'
| as_init fuel err : Init fuel s = Ok (s', err) -> apiStep s s'
| as_parse fuel input e out : Parse fuel s input e = Ok (s', out) -> apiStep s s'.
Inductive apiSteps (s : syntax) : syntax -> Prop :=
| steps_none : apiSteps s s
| steps_one s1 s2 : apiSteps s s1 -> apiStep s1 s2 -> apiSteps s s2.

(** syntaxes made by definition calls and ReadSyntax calls that all succeeded *)
Inductive made : syntax -> Prop :=
| made_new : made emptySyntax
| made_define s d s' : made s -> defineCall s d = (s', None) -> made s'
| made_read s fuel input e s' : made s -> ReadSyntax fuel s input e = Ok (s', None) -> made s'.

(** the names that a rule refers to, and the names needed by the root, the keywords and the
    whitespace definitions *)
Definition ruleRefs (r : rule) : list string :=
  match r with RChar _ _ _ => [] | RSeq _ items => map siName items | RChoice _ options => options end.
Inductive needed (calls : list defcall) : string -> Prop :=
| need_root n : rootName calls = Some n -> needed calls n
| need_keyword d : In d calls -> hasFlag (callFlags d) CKeyword = true -> needed calls (callName d)
| need_whitespace d : In d calls -> hasFlag (callFlags d) CWhitespace = true -> needed calls (callName d)
| need_ref n r x : needed calls n -> grammarOf calls n = Some r -> In x (ruleRefs r) -> needed calls x.

(** every reference is a symbol that can be defined, or defined *)
Definition symbolRefs (calls : list defcall) : Prop :=
  forall n r x, grammarOf calls n = Some r -> In x (ruleRefs r) -> grammarOf calls x <> None \/ isValidSymbol x = true.

(** text in which every banned character is behind the escape character *)
Inductive wellEscaped (esc : rune) (banned : list rune) : list rune -> Prop :=
| we_nil : wellEscaped esc banned []
| we_escaped c l : wellEscaped esc banned l -> wellEscaped esc banned (esc :: c :: l)
| we_plain c l : ~ In c banned -> wellEscaped esc banned l -> wellEscaped esc banned (c :: l).
(** the letters that stand for control characters behind an escape *)
Definition controlLetters : list rune := [98; 102; 110; 114; 116; 118]%Z.
(** chardefine.go:9-10 *)
Definition classEscape : rune := 92%Z.
Definition classBanned : list rune := [92; 91; 93; 94; 45; 8; 12; 10; 13; 9; 11]%Z.

(** the number of definitions that whitespace adds for an item of a sequence: none for an item that
    occurs at most once, one for a repeated item, two for a repeated item that can be missing *)
Definition itemHelpers (it : seqItem) : nat :=
  let it := normalizeItemRange it in
  if (siMax it =? 1)%Z then 0 else if (0 <? siMin it)%Z then 1 else 2.
Definition callHelpers (d : defcall) : nat :=
  match d with
  | DSequence _ ct items =>
    if (hasFlag ct CNoWhitespace || hasFlag ct CWhitespace)%bool then 0 else list_sum (map itemHelpers items)
  | _ => 0
  end.
(** the number of definitions after Init with whitespace: those of the calls, the added ones, the
    common whitespace definition, and the wrapper of the root *)
Definition definitionCount (calls : list defcall) : nat :=
  list_sum (map (fun d => List.length (callNames d)) calls) + list_sum (map callHelpers calls) + 2.
