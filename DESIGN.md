# A Rocq (Coq 8.16.1) model of aryszka/treerack

## Layout (rocq/theories)

Model files (definitions only, every definition cites the Go lines it models):

| file | models |
|------|--------|
| Base.v | result type for panics/fuel, runes, commit flags, list helpers |
| Utf8.v | UTF-8 decoding done by bufio.Reader.ReadRune, encoding done by string([]rune) |
| Escape.v | escape.go |
| IdSet.v | idset.go |
| Results.v | results.go |
| Parser.v | char.go, sequence.go, choice.go (parse), context.go |
| Build.v | char.go, sequence.go, choice.go (build), nodehead.go, syntaxhead.go parseInput |
| Syntax.v | registry.go, chardefine.go, sequencedefine.go, choicedefine.go, whitespace.go, syntax.go |
| Define.v | define.go, node.go, ReadSyntax |
| SelfData.v, SelfText.v, SelfGo.v | the parser tables and the text of self/self.go, the text of syntax.treerack (mechanically transcribed by tools/selfdata.py, selftext.py, selfgo.py) |
| Cap.v | results.go and idset.go with slice lengths and capacities |
| Alias.v | slices shared by the caller and the syntax |
| Conc.v | the lazily created parsers and builders, calls of Parse at the same time |
| Generate.v | the generate methods, Syntax.Generate, the writer |
| Cli.v, CliGen.v | cmd/treerack |
| Format.v | the format methods (the textual form of definitions; flags are not printed by the code and are left out; strings are concatenated directly) |

GoTests.v, FormatGo.v, Validate.v and ValidateGo.v run the model on inputs taken from the Go test files and on
the self syntax: they are tests of the model, not proofs of properties.

Spec files (small, independent of the model's helpers): Lang.v (language of a definition graph),
Grammar.v and WsLang.v (what a list of definition calls means, without and with whitespace),
ApiSpec.v and DefSpec.v (calls of the API), RefSpec.v (reference recursive-descent semantics with
trees), LeftSpec.v and GrowSpec.v (definitions that start with themselves), StoreSpec.v, TextSpec.v, JsonSpec.v (a JSON reader), CliSpec.v, GoSpec.v and GoRead.v (a reader of the generated Go
function and its meaning), GenSpec.v, ConcSpec.v, AliasSpec.v, ReadSpec.v (the
meaning of a syntax text), FormatSpec.v (texts that denote definitions), RefusedSpec.v (guarded choices, histories of calls, clean refusals), OrderSpec.v (reachable definitions) and SelfGrammar.v (the published grammar).  Proof files hold lemmas; `Prop*.v` files hold the property
theorems only, each closed by `exact`, with `Print Assumptions` under it.

## Modelling decisions

* Go `int` is unbounded here (`nat` where never negative, `Z` for failOffset and for the
  quantifier ranges); offsets and ids never approach 2^63 in memory.
* A panic is an explicit outcome (`Panic why`), so "never panics" is a statement about the
  outcome.  Non-termination is excluded through fuel: every recursive function takes fuel and
  returns `NoFuel` when exhausted; theorems say either "for every fuel with a non-NoFuel
  result" or give a sufficient fuel.
* Pointers to definitions/parsers are addresses into a list (heap); an address is the identity
  of the object, the `id` field is kept separately as in the code.
* A reader is a list of runes followed by EOF or by an error.
* The sentinel -1 in the result store is `None`.
* Slice capacities: the parser model uses slices without capacity; Cap.v models the capacity
  and proves that it is not observable.

## Plan per property

| id | modelled | proof |
|----|----------|-------|
| C01 | Parser.v, Build.v | measure: unmarked (offset,id) pairs for parse; live matches + unmarked pairs for build |
| C02 | Parser.v, Lang.v | invariant: every stored match is in the language |
| C03 | Build.v, Lang.v | same invariant, induction over the builder |
| C04 | Build.v | direct |
| C05 | Build.v, Eval.v | from C07 for non-left-recursive syntaxes; refuted in general by a witness |
| C06 | Parser.v, Eval.v | invariant: memo agrees with Eval; induction over the Eval derivation |
| C07 | Build.v, Eval.v | induction over the Eval derivation |
| C08 | Eval.v | lexicographic induction on (rest of input, rank) |
| C09 | all parse code | refuted by witnesses; positive part for accepted inputs |
| C10 | Parser.v, Utf8.v, ReaderBack.v, PropInvalid.v | refuted by witnesses; positive part: a run that has not come to the invalid character is the same with a reader that ends in front of it, so every answer other than the error is a ParseError of the text before (C10_outcomes_partial), an Init error or a panic |
| C11, C12 | Parser.v | invariant over the reader state |
| C13 | Parser.v | invariant on failOffset; induction for findLine |
| C14 | Parser.v | invariant on stored matches |
| C15 | Parser.v | refuted by witness; choices between guarded definitions: induction on the derivation of guardedness over the text languages |
| C16 | Syntax.v, WsLang.v | language equality in both directions |
| C17 | Syntax.v, WsIds.v | the definitions after whitespace are counted and have different names; identities by the registry invariant; composite keywords refuted |
| C18 | Syntax.v | depth-first search invariant |
| C19-C24 | Syntax.v | induction over operation sequences |
| C25 | Syntax.v, Define.v | arithmetic |
| C26 | Escape.v | induction |
| C27 | Parser.v | induction |
| C28, C29 | IdSet.v, Results.v, Cap.v | refinement |
| C30, C31 | Syntax.v, Conc.v | lazily created parser objects as a state machine over explicit steps |
| C32-C34 | Generate.v | interpretation of the emitted declarations |
| C35 | Format.v | printed texts are words of the published grammar: evaluation of the reference semantics on partly known texts (AbsEval.v, AbsText.v), induction over characters and items (FormatClass.v to FormatRead.v); then C46.  Groups and choices: induction over the printed tree for reading (FormatNest.v), over the expression for printing (FormatNestBack.v), with the specification in FormatNestSpec.v; what a text can hold, by inversion of its tree, in FormatAll.v.  Refuted for quotes and for nested quantifiers |
| C36 | Define.v | induction |
| C37, C38, C40, C41 | Cli.v; ArgSpec.v says how options are written and which value counts, ArgFacts.v proves that the flags are parsed so | case analysis, induction |
| C39 | Utf8.v, Build.v | induction |
| C42 | Define.v, SelfData.v, SelfGrammar.v | the built-in tables are those that the model of Init makes of syntax.treerack (SelfLang.v); then C02, C06, C07 for the published grammar |
| C43 | Parser.v, Build.v | one choice at the root: invariant of the stored matches over the passes of the choice (LeftParse.v), the nodes from the last match downwards, simulation between the objects and the definitions (LeftSim.v, LeftApi.v).  In general: the reference semantics with growing choices (GrowSpec.v), the stored matches of a growing choice are the lengths it passes through (GrowParse.v), its tree by induction over them (GrowBuild.v, GrowRun.v), the simulation keeps keys apart (GrowSim.v), totality by rank and rest of the input (GrowTotal.v).  Refuted for a root with whitespace |
| C44 | Alias.v | refuted by witness; what is written, and what can be changed without effect, by invariants over all histories |
| C45 | Syntax.v | measure; no panic after successful calls; refuted for panic by witness |
| C46 | Define.v, ReadSpec.v | the shape of syntax trees as a regular expression per node (Shape.v, SelfShape.v), the words of leaves (SelfWords.v), induction over the depth (ReadDefs.v, ReadMeans.v) |
| C47 | Define.v | the root of the published grammar takes the empty text, so that C09 for prefixes applies (RefSafe.v); refuted for invalid bytes |
| C51 | Render.v | the parts of the texts are separated by characters that they do not contain; a position determines the offset |
| C52 | Json.v | the text is read by a JSON reader (JsonSpec.v): every encoded character reads back, induction on the tree; the indented text is the same with white space between its parts |
| C53 | Parser.v, Syntax.v | invariant: the failing parser of the context is one that may be named (BlameFacts.v); Init gives the names of the user to the objects that may be named, and the root (BlameApi.v); the failure kept by the root is at or after its end (RefTail.v).  The farthest failure is refuted by witness |
| C54 | Cost.v | Cost.v counts the calls and forgets to Parser.v (CostFacts.v, parse_counts); every call is paid for by its rank or by a new pair of a choice and an offset (CostBound.v); ranks of the definitions through Init (CostApi.v).  Refuted: induction on the input (CostExp.v) |
| C55 | Cost.v | The same functions with the maximum in place of the sum; a sequence or a choice marks its id as pending before its elements are parsed, so the pairs of an offset and an id that are not pending bound the depth (DepthFacts.v); Init (DepthApi.v) |
| C56 | CostBuild.v | CostBuild.v counts the calls of the builders and forgets to Build.v (CostBuildFacts.v, build_counts); a match that is not empty is dropped before it is built, an empty one is marked (CostBuildBound.v); the parsers store every match once (OnceFacts.v), which bounds the matches (CostBuildApi.v); the tree is not deeper than the calls (TreeDepth.v) |
| C57 | Build.v | every call of a builder makes one node at most, and the others are copies (TreeSize.v), with the bound of C56.  Without left recursion all nodes: by induction on the evaluation of the reference semantics, an empty match is bounded by the rank of its definition, and every character pays for the ranks above it (TreeLinear.v).  When no minimum is above one nothing is copied, so there is one call for every node (TreeCount.v).  Refuted: what the parser stores for n letters, by rounds of the choice; the tree by induction on n (SizeExp.v) |
| C58 | Syntax.v, Parser.v, Build.v | adding the flag is a map over the heap of the definitions; every step of the definition calls and of Init commutes with the map (HideInit.v), parsing does not look at the flag, and building gives the same nodes with the hidden ones replaced by their children (HideRun.v) |
| C59 | Syntax.v, Parser.v, Build.v | the renaming of the symbols is extended to a one-to-one renaming of all strings that respects the names the library derives from them (RenameNames.v); as a map over the heap it commutes with the definition calls and with Init (RenameInit.v), and with parsing and building (RenameRun.v); the names in trees and errors are names of the user (RenameApi.v) |
| C60 | Syntax.v, Parser.v, Build.v | both lists erase to the same heap when the flag is dropped (FlagInit.v); the erased syntax initializes alike and its parsers run alike, exactly for NoWhitespace and NoKeyword, and up to the failing parser of the context for FailPass (FlagRun.v, FlagApi.v) |
| C61 | RefSpec.v | simulation of the reference semantics of the two lists: items and options as inductive relations, a sequence without a label is the same as its items in place, a choice without a label the same as its options, by associativity of the longer one (InlineSim.v); the keys of the whitespace around items are related by the item they stand for (InlineApi.v); with C06/C07 |
| C62 | RefSpec.v, WsLang.v | false in general, refuted by a sequence that takes too much and a choice that takes too much; for predictive definitions (tables of what may be empty, begin and follow, PredictSpec.v) by mutual induction on the derivation of the text: the tables bound both the texts and the matches of the reference semantics, so a wrong repetition or option cannot match (PredictFacts.v); the tables are computed and checked on the points where character classes change (PredictCheck.v); with whitespace the tables are about what comes after whitespace, except within the words, and a match may have taken whitespace early or late: the induction carries an interval (PredictSpaced.v); with C02 and C06 |
| C63 | JsonDoc.v (RFC 8259, with the character sets as parameters), JsonSyntax.v (the text of examples/json.treerack) | C62 for syntaxes read from a text, with its conditions computed; the language of the definitions is characterised rule by rule (JsonDocFacts.v, JsonDocLang.v) by induction on length one way and on the document the other way; documents over other character sets by monotonicity (JsonDocRfc.v); refuted for the characters of RFC 8259 |
| C64 | MeaningSpec.v (a compositional meaning of expressions, with the texts of the definitions as environment; with whitespace between items) | Meaning.v, MeaningWs.v: induction over expressions, with the rules of the generated definitions looked up by name (the names are distinct because the calls succeed, and none of them is the root because they have a colon); nodes of parsed trees by C48 (C48_nodes_partial); the normal form of C35 by induction and arithmetic on bounds (C35_normal, C35_texts_partial) |
| C65 | CliGen.v (generate.go and main.go; the writes of Generate are those of Generate.v) | CliGenFacts.v: case analysis; Generate stops because the done map grows at each nested call |
| C66 | the commands of Cli.v and CliGen.v | CliGenFacts.v: from the characterizations of exit code 0 (C38, C40, C65); without failing writes Generate has no other error than that of Init |
| C67 | the commands of Cli.v and CliGen.v; SourceSpec.v | SourceFacts.v: the characterizations of exit code 0, with the source taken and its content unique |
| C49, C50 | Syntax.v, Parser.v, RefSpec.v | bisimulation of the parsers of two syntaxes under a renaming of addresses and ids (SameStore.v, SameSim.v), of the Init walk (SameInit.v, SameRun.v), of the whitespace rewriting (SameWs.v, SameApi.v); for any order of the keywords: congruence of the reference semantics over the reachable definitions, with C06/C07; refuted for sequence keywords with whitespace by witness |
| C48 | Define.v, Syntax.v | C46 with C02, C03, C06, C07, C43 (PropRead.v, PropReadGrow.v); refuted for symbols that are numbers |

(The plan above was written first; Eval.v became RefSpec.v.  MANIFEST.json has the outcome.)

## Trusted base

* Coq 8.16.1's kernel, including its virtual machine: refutations and examples use `vm_compute`
  on closed terms.  No native compilation, no plugins, no flags beyond `-Q theories Verif`.
* `Print Assumptions` prints "Closed under the global context" under every theorem of the
  `Prop*.v` files: no axiom at all is used, neither own nor of the standard library.  `coqchk`
  and vcheck also list the constants of `Coq.ssr.ssrunder` (`Under_rel` and so on): these are
  module parameters of a standard library file that is loaded with `ssreflect`'s plugin files;
  no theorem depends on them.
* The transcription from Go to Gallina, which is by hand, except for the tables made by
  `tools/*.py`.  `tools/headcheck.py` compares the runtime code embedded in head.go with the files
  the model was made from, `tools/selfgo.py` and ValidateGo.v compare the text that the
  model of Generate writes for syntax.treerack with self/self.go, byte by byte, and GoTests.v has
  the model reproduce the Go tests' expectations.
* What the statements say: the spec files above.

## What is modelled, what is not

Modelled: every function of char.go, sequence.go, choice.go, context.go, idset.go, results.go,
nodehead.go, syntaxhead.go (the runtime), chardefine.go, sequencedefine.go, choicedefine.go,
registry.go, whitespace.go, syntax.go, define.go, escape.go, node.go (definition), the generate
methods, cmd/treerack.

Not modelled, or simplified:

* The texts of errors that come from strconv and from the reader (Render.v takes them as an
  argument); keyword logging and the `trace` build (not in the pinned source).
* bufio, UTF-8 decoding as the standard library documents it (Utf8.v); the flag package
  (Cli.v) and the JSON encoder (Json.v) are modelled from their documentation and source, for the
  values that occur here.
* The preamble of generated code (head.go) is a string parameter; the meaning of the generated
  function is given for the runtime modelled here, and headcheck.py ties the two.
* Go integers are unbounded; allocation does not fail; stack overflow is not modelled (C55 and C56 bound the depth of the calls).
* Map iteration order: where it matters (duplicate detection in init) theorems quantify over it.
* Alias.v: a method runs on the contents of the slices and writes them back at its end; a field
  originalItems, used by `format` only, is not linked.
* Conc.v: memory is sequentially consistent and a step is one read, one write or one append; the Go
  memory model allows more behaviours for racy programs, so refutations carry over, and the
  positive theorem is about executions in which the shared memory is not written (there is no
  race then).

## Findings (each with a machine-checked witness)

| property | what happens |
|----------|--------------|
| C05 | with left recursion a child can end behind its parent |
| C09 | `a = a` and similar: nil or index panics while parsing or building, on rejected and accepted input |
| C10 | invalid UTF-8 in the first byte panics; a legitimate U+FFFD is rejected |
| C15 | nokw is ignored on choices |
| C21 | a class or literal refused for its flags leaves its character definitions registered: the corrected definition is refused as a duplicate |
| C18 | with whitespace, a reference to the undefinable name `:ws` is accepted by Init |
| C17 | a composite keyword is looked up with a stale id when there is whitespace |
| C21, C45 | a refused duplicate definition becomes the root; Init can panic afterwards |
| C25 | `{5,3}` and `{0}` are accepted and mean something else |
| C31 | first calls of Parse at the same time: wrong results, and lasting index panics |
| C32 | a reference to `a:0` makes generated code that declares a variable twice |
| C33 | errors when writing the preamble or the end are not reported |
| C34 | the generated parser does not name the root in errors when there is whitespace |
| C35 | quotes in literals are not escaped by format; `(a*){3}` is printed as `a*{3}`, which is not a syntax text |
| C37, C38, C40, C41 | command line: two inputs accepted, panic instead of an exit code, empty leaves, words longer than 72 characters |
| C47 | ReadSyntax panics when the text begins with an invalid byte |
| C48 | with whitespace and symbols that are numbers, generated names collide: `0 = "x" ("y" "z")*; 1 = ("q" 0*) "r"` accepts qyzr and rejects qxr |
| C44 | Init writes to the item slices of the caller; later changes of the caller's slices change the syntax |
| C43 | a left recursive root definition rejects every repetition when there is whitespace |
| C49, C50 | with whitespace, whether a keyword that is a sequence is recognized depends on the order of the definitions, and on definitions that are not used |
| C65 | generate panics when the syntax text has an invalid character |
| C66 | a failing write makes generate fail for a syntax that check-syntax accepts |
| C67 | an empty text on the command line counts as none, unlike an empty file |
| C52 | an indentation that is not white space makes show print text that is not JSON |
| C53 | the Definition of a ParseError can be empty; the Offset can be before the place that rules the input out |
| C54 | `s = t? u?; t = "a" s "b"; u = "a" s "c"`: n letters a take at least 2^n calls of the parsers |
| C57 | `b:alias = "b"; a:root = y \| x \| b; x = a; y = x{2}`: the tree of n letters b has at least 2^n nodes |
