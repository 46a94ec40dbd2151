#!/usr/bin/env python3
# Writes /verif/properties.jsonl.  One entry per property.
import json, os
P = []
def p(id, title, statement, quantifier, why, anchors):
    P.append(dict(id=id, title=title, statement=statement, quantifier=quantifier,
                  why_tests_cant=why, anchors=anchors))

p("C01", "Parse terminates",
  "For every syntax that Init accepts (left-recursive, cyclic and self-referencing definitions included) and every finite input, Syntax.Parse stops: it does not loop or recurse forever, neither while matching nor while building the tree.",
  "every definition graph, every keyword list, every finite rune stream ending in EOF or a read error",
  "termination on all (possibly left-recursive) grammars and all inputs is a well-foundedness argument; a test that ends shows one run only",
  ["sequence.go:sequenceParser.parse", "choice.go:choiceParser.parse", "sequence.go:sequenceBuilder.build", "choice.go:choiceBuilder.build", "results.go:pending", "results.go:dropMatchTo"])
p("C02", "An accepted document is in the language of the syntax",
  "If Parse returns a tree, the whole input (every rune up to EOF) is generated by the root definition, reading sequences, quantifiers, choices and character classes as an ordinary context free grammar with bounded repetition.",
  "every syntax whose quantifier ranges satisfy min <= max, every input, left recursion included",
  "the memo table, the pending marks and the generalization shortcuts interact across offsets; only an invariant over all reachable table states excludes a false accept",
  ["sequence.go:sequenceParser.parse", "choice.go:choiceParser.parse", "context.go:finalizeParse", "results.go:setMatch"])
p("C03", "Every node covers text that its definition generates",
  "In every returned tree, each node has 0 <= From <= To <= number of runes, carries the name of a non-alias definition of the syntax, and its Text() is generated by that definition.",
  "every syntax, every accepted input, every node at any depth",
  "there are infinitely many trees; the claim is about each node of each",
  ["choice.go:choiceBuilder.build", "sequence.go:sequenceBuilder.build", "nodehead.go:Node"])
p("C04", "The root node is the root definition over the whole input",
  "If Parse returns a tree, its top node has the name of the root definition, From = 0 and To = the number of runes in the input.",
  "every syntax, every accepted input",
  "must hold for all accepted documents",
  ["syntaxhead.go:parseInput", "context.go:finalizeParse"])
p("C05", "Children are nested, ordered and do not overlap",
  "In a returned tree the spans of the children of a node lie inside the span of the node, in input order, without overlap.",
  "every syntax, every accepted input, every node",
  "the builder re-derives child spans from the memo table; whether it picks the spans the matcher used depends on the whole parse history",
  ["sequence.go:sequenceBuilder.build", "choice.go:choiceBuilder.build", "results.go:longestMatch", "results.go:dropMatchTo"])
p("C06", "Parse decides the reference semantics (greedy sequences, longest choice)",
  "For a syntax without left recursion, Parse accepts an input exactly when the memo-free recursive-descent semantics does: a sequence takes its items greedily within the quantifier bounds without backtracking, a choice takes the longest matching option. Memoization, repeated passes, pending marks and generalization shortcuts never change the outcome.",
  "every such syntax, every input, every offset and every reachable memo state",
  "equivalence of a stateful memoizing parser with a stateless specification over all grammars and inputs",
  ["sequence.go:sequenceParser.parse", "choice.go:choiceParser.parse", "context.go:fromResults"])
p("C07", "The returned tree is the reference tree",
  "For a syntax without left recursion the returned tree is exactly the one of the reference semantics: aliases contribute their children only, a choice contributes the first of its longest options, repeated items appear in order.",
  "every such syntax, every accepted input",
  "same as C06, for the tree builder, which runs against the leftover memo table",
  ["sequence.go:sequenceBuilder.build", "choice.go:choiceBuilder.build"])
p("C08", "Syntaxes without left recursion decide every input",
  "If the definitions can be ranked so that no definition reaches itself without consuming a rune first, then the reference semantics gives one and only one outcome for every definition, offset and input, so Parse of such a syntax is a total function of the text.",
  "every rankable syntax, every definition, every offset of every input",
  "totality and uniqueness over an infinite domain",
  ["sequence.go:sequenceParser.parse", "choice.go:choiceParser.parse"])
p("C09", "Parse never panics",
  "Syntax.Parse returns a tree or an error for every input; it does not panic.",
  "every syntax accepted by Init, every input",
  "requires excluding every out-of-range index, nil dereference and bad slice bound in every reachable parser state",
  ["context.go:parseError", "context.go:findLine", "context.go:token", "choice.go:choiceBuilder.build", "syntaxhead.go:parseInput"])
p("C10", "Invalid UTF-8 is reported as ErrInvalidUnicodeCharacter",
  "If the parser reaches a byte sequence that is not valid UTF-8, Parse returns ErrInvalidUnicodeCharacter; input that is valid UTF-8 never produces this error.",
  "every syntax, every byte sequence",
  "depends on which parser looks at the broken position again and in which order",
  ["context.go:read", "context.go:token"])
p("C11", "Read errors are never swallowed",
  "If the reader fails with an error instead of EOF, Parse never returns a tree; when the parser reached the failing position, Parse returns that very error and not a ParseError.",
  "every syntax, every reader that delivers any runes and then fails",
  "all positions of failure times all grammars",
  ["context.go:read", "context.go:finalizeParse", "syntaxhead.go:parseInput"])
p("C12", "Success means the input was read to EOF",
  "If Parse returns a tree, the reader was read up to EOF and every delivered rune was consumed by the match.",
  "every syntax, every reader",
  "all inputs",
  ["context.go:finalizeParse", "context.go:read"])
p("C13", "ParseError positions are consistent",
  "The Offset of a returned ParseError is between 0 and the number of runes read, Line is the number of newlines before Offset and Column is the distance of Offset from the start of that line.",
  "every syntax, every rejected input",
  "offset bookkeeping has several reset paths; all of them must keep the bound on every input",
  ["context.go:findLine", "context.go:parseError", "char.go:charParser.parse", "choice.go:choiceParser.parse"])
p("C14", "A nokw sequence definition never matches a keyword",
  "When all keyword definitions are literals, no match of a sequence definition carrying NoKeyword, and no node built for one, spans exactly the text of a keyword.",
  "every syntax with literal keywords, every input, every offset",
  "all inputs and all memo states",
  ["context.go:isKeyword", "sequence.go:sequenceParser.parse"])
p("C15", "A nokw choice definition never matches a keyword",
  "The same as C14 for choice definitions carrying NoKeyword.",
  "every syntax with literal keywords, every input",
  "the failure only shows when the same definition is tried twice at the same offset",
  ["context.go:isKeyword", "choice.go:choiceParser.parse", "results.go:setMatch"])
p("C16", "Whitespace rewriting inserts whitespace exactly between the items",
  "With a whitespace definition, a sequence without nows accepts precisely the texts obtained by putting any number of whitespace matches between consecutive item occurrences (and before a missing optional single item that is not the first), a nows sequence and a literal accept none, and the root accepts whitespace around it; nothing else of the language of any definition changes.",
  "every set of definitions, every text",
  "language equality over all texts",
  ["whitespace.go:applyWhitespaceToSeq", "whitespace.go:applyWhitespaceToDefs", "whitespace.go:applyWhitespaceToRoot", "whitespace.go:applyWhitespace"])
p("C17", "Whitespace rewriting keeps definitions and parser identities apart",
  "After Init of a syntax with whitespace, every definition of the user is still present under its name, no helper definition collides with another definition, and all parsers taking part in a parse, keyword parsers included, have different identities in the memo table.",
  "every syntax with a whitespace definition",
  "collisions depend on the spelling and position of names in arbitrary syntaxes",
  ["whitespace.go:patchName", "registry.go:newRegistry", "registry.go:setDefinition", "syntax.go:Syntax.Init"])
p("C18", "Init reports every undefined reference",
  "Init succeeds only if every definition reachable from the root, from the keywords and from the whitespace definitions refers to defined names only; if a reachable name is missing Init fails with an error naming an undefined name.",
  "every definition graph, cyclic ones included, in which the references are defined or symbols that can be defined",
  "reachability over arbitrary graphs",
  ["sequencedefine.go:sequenceDefinition.validate", "choicedefine.go:choiceDefinition.validate", "syntax.go:Syntax.Init"])
p("C19", "Init life cycle",
  "Init is idempotent after success; after success every definition call and ReadSyntax returns ErrSyntaxInitialized and leaves the syntax unchanged; after a failed validation every later Init, Parse and Generate fails with ErrInitFailed.",
  "every history of API calls",
  "all call sequences",
  ["syntax.go:Syntax.Init", "syntax.go:Syntax.register", "syntax.go:Syntax.ReadSyntax"])
p("C20", "Root selection",
  "After any sequence of successful definition calls the root is the definition carrying the explicit Root flag if there is one, otherwise the last one defined; a second explicit root is refused with ErrMultipleRoots; exactly one definition carries the root mark.",
  "every history of successful definition calls",
  "all call sequences",
  ["syntax.go:Syntax.applyRoot", "syntax.go:Syntax.register"])
p("C21", "A refused definition has no effect",
  "If a definition call returns an error, the syntax behaves as if the call had not been made.",
  "every history of definition calls",
  "all call sequences and error causes",
  ["syntax.go:Syntax.register", "syntax.go:Syntax.applyRoot", "registry.go:setDefinition"])
p("C22", "Names are unique, identities are sequential",
  "A second definition with an existing name is refused with a duplicate definition error; at any time registered definitions have pairwise different names and the identities 1..n in definition order.",
  "every history of definition calls",
  "all call sequences",
  ["registry.go:setDefinition", "syntax.go:Syntax.register"])
p("C23", "Incompatible flags are refused, and only those",
  "A definition call fails with an incompatible-commit-types error exactly when its flags contain one of the pairs alias+root, ws+{kw,nokw,failpass,root}, kw+{nokw,root}, failpass+root; the error names a pair that is really present.",
  "every flag combination, every map iteration order",
  "Go map iteration order is a schedule; the claim is about all of them",
  ["syntax.go:incompatibleCommitTypes", "syntax.go:Syntax.checkCommitType"])
p("C24", "Symbol names",
  "AnyChar, Class, CharSequence, Sequence and Choice accept a name exactly when it has none of the reserved characters; therefore accepted names can be embedded in the Go string literals of the generated code and never clash with the internal names of child definitions.",
  "every string",
  "all strings",
  ["syntax.go:isValidSymbol", "syntax.go:childName", "sequencedefine.go:sequenceParser.generate"])
p("C25", "Quantifier ranges",
  "Item ranges are normalized as documented (0,0 is exactly one; max <= 0 otherwise unbounded; min <= 0 is none), normalization is idempotent, and a sequence accepts a repetition count exactly when it is in the normalized range. The quantifiers of the syntax language denote the documented ranges.",
  "every pair of integers, every numeral",
  "all integers",
  ["sequencedefine.go:normalizeItemRange", "define.go:getQuantity"])
p("C26", "Escaping round trip",
  "Unescaping an escaped character list gives back the list, for every list, whenever the escape character is itself banned and no banned character is one of the letters b f n r t v; in particular for the character class escapes. Escaped text contains no unescaped banned character.",
  "every rune list, every admissible banned set and escape character",
  "all strings",
  ["escape.go:escape", "escape.go:unescape", "escape.go:escapeChar", "escape.go:unescapeChar"])
p("C27", "Character class membership",
  "A class matches a rune exactly when the rune is listed or lies within a listed range, negated for a not-class; AnyChar matches every rune; a literal matches exactly its text.",
  "every class, every rune, every text",
  "all runes",
  ["char.go:matchChar", "char.go:charParser.parse", "syntax.go:charSequence"])
p("C28", "The no-match memo is an exact set",
  "The bit set that records failed definitions answers membership exactly: an id is reported after it was set and not unset since, for any sequence of operations, any ids, and any capacity growth of the underlying slice.",
  "every operation sequence, every id, every growth policy",
  "all histories",
  ["idset.go:idSet.set", "idset.go:idSet.unset", "idset.go:idSet.has"])
p("C29", "The memo store does not depend on slice capacity",
  "The answers of the result store (matches, failures, pending marks) are those of an abstract map for any sequence of operations, whatever capacity the Go runtime gives to the growing slices.",
  "every operation sequence, every growth policy of append",
  "append growth is a runtime choice",
  ["results.go:ensureOffsetInts", "results.go:ensureOffsetIDs", "results.go:setMatch", "results.go:setNoMatch", "results.go:markPending", "results.go:unmarkPending"])
p("C30", "Parsing leaves no trace in the syntax",
  "The result of Parse depends only on the definitions and the input: parsing any documents before, successful or not, does not change the result of a later Parse of the same Syntax.",
  "every history of Parse calls on one Syntax",
  "all histories",
  ["syntax.go:Syntax.Parse", "sequencedefine.go:sequenceDefinition.parser", "choicedefine.go:choiceDefinition.parser"])
p("C31", "Concurrent Parse calls on an initialized Syntax",
  "Parse calls running concurrently on the same initialized Syntax each return what they would return alone.",
  "every interleaving of parse calls",
  "depends on the schedule",
  ["sequencedefine.go:sequenceDefinition.parser", "choicedefine.go:choiceDefinition.parser", "syntax.go:Syntax.Parse"])
p("C32", "Generated code contains the same parser",
  "The code written by Generate declares every parser and builder reachable from the root and the keywords exactly once and before its use, and the tables it sets up are those that Syntax.Parse uses.",
  "every initialized syntax",
  "all grammars, cyclic ones included",
  ["sequencedefine.go:sequenceParser.generate", "choicedefine.go:choiceParser.generate", "chardefine.go:charParser.generate", "syntax.go:Syntax.Generate"])
p("C33", "Generate reports write errors",
  "If any write to the output fails, Generate returns an error.",
  "every initialized syntax, every failing writer",
  "all positions of failure",
  ["syntax.go:Syntax.Generate", "sequencedefine.go:sequenceParser.generate"])
p("C34", "Generated parsers report the same errors",
  "The generated parser reports the same ParseError (Offset, Line, Column, Definition) as Syntax.Parse.",
  "every syntax, every rejected input",
  "all grammars and inputs",
  ["sequencedefine.go:sequenceParser.generate", "whitespace.go:applyWhitespaceToRoot", "context.go:parseError"])
p("C35", "Formatting and reading a definition are inverse",
  "The textual form of a character class, literal or quantifier, when read back as syntax, denotes the same class, literal or range.",
  "every class, literal and range",
  "all character lists",
  ["chardefine.go:charParser.format", "sequencedefine.go:sequenceDefinition.format", "define.go:nodeChar", "define.go:getQuantity"])
p("C36", "Comments do not change a syntax",
  "Reading a syntax text defines the same thing whether or not comment nodes are attached anywhere in its tree.",
  "every syntax tree, every placement of comments",
  "all trees",
  ["define.go:dropComments", "define.go:define", "node.go:filterNodes", "node.go:mapNodes"])
p("C37", "The command line accepts one source only",
  "For a syntax or input, at most one of positional file, file option and inline option may be given; otherwise the command stops with an error; with none of them, standard input is used if it is not a terminal.",
  "every combination of options",
  "three options, arbitrary strings",
  ["cmd/treerack/open.go:fileOptions.getSource"])
p("C38", "Exit codes of the commands",
  "check exits with 0 exactly when the syntax can be read and initialized and the input parses; check-syntax exactly when the syntax can be read and initialized; otherwise -1.",
  "every syntax text, every input, every option combination without -help",
  "all inputs",
  ["cmd/treerack/check.go:check", "cmd/treerack/checksyntax.go:checkSyntax", "cmd/treerack/main.go:main"])
p("C39", "Text() reproduces the document bytes",
  "For valid UTF-8 input the Text() of the returned root node is byte for byte the input, and the Text() of any node is the corresponding byte substring.",
  "every valid UTF-8 input, every node",
  "all byte strings",
  ["nodehead.go:Node.Text", "context.go:read"])
p("C40", "show prints the tree unchanged",
  "The JSON node tree printed by show has the same names, spans and shape as the parsed tree, and the text of a node is present exactly for leaves.",
  "every tree",
  "all trees",
  ["cmd/treerack/show.go:mapNode"])
p("C41", "Help text wrapping keeps the words",
  "wrapLines keeps the words of the text in order and no produced line is longer than 72 columns.",
  "every text",
  "all texts",
  ["cmd/treerack/doc.go:wrapLines"])
p("C42", "Reading a syntax text is reading it with the published grammar",
  "ReadSyntax accepts only texts of the language described by syntax.treerack, and the parser tables built into the package are those that the package itself generates from syntax.treerack.",
  "every syntax text",
  "all texts",
  ["self/self.go:Parse", "syntax.go:Syntax.ReadSyntax", "syntax.treerack"])
p("C43", "Direct left recursion builds left-nested trees",
  "A definition of the form e = e op t | t parses every text t (op t)* and returns the left-nested tree.",
  "every number of repetitions",
  "all lengths",
  ["choice.go:choiceParser.parse", "choice.go:choiceBuilder.build", "results.go:dropMatchTo"])
p("C44", "Caller memory is not modified",
  "Definition calls and Init neither modify slices passed by the caller nor change when the caller modifies them later.",
  "every call, every later modification",
  "aliasing histories",
  ["sequencedefine.go:newSequence", "sequencedefine.go:initRanges", "syntax.go:Syntax.Sequence"])
p("C45", "Init terminates and never panics",
  "Init returns for every set of definitions, cyclic ones included, and does not panic.",
  "every history of definition calls",
  "all graphs",
  ["sequencedefine.go:init", "choicedefine.go:addGeneralization", "whitespace.go:applyWhitespace", "syntax.go:Syntax.Init"])
p("C46", "A syntax text means the definitions it spells",
  "Reading a syntax text makes the definitions that the text spells and nothing else: for a text with symbols only inside sequences and choices it does the same as the calls of AnyChar, Class, CharSequence, Sequence and Choice; expressions inside others become alias definitions of their own. It succeeds exactly when the text is a list of definitions and all of them can be made.",
  "every text, every state of the syntax before",
  "all texts",
  ["syntax.go:Syntax.ReadSyntax", "define.go:define", "define.go:defineExpression", "define.go:getQuantity"])
p("C47", "ReadSyntax returns and never panics",
  "ReadSyntax returns success or an error for every input, it does not panic.",
  "every input and every reader",
  "all inputs",
  ["syntax.go:Syntax.ReadSyntax", "self/self.go:Parse", "define.go:define"])
p("C48", "A syntax read from a text parses what the text says",
  "After reading a syntax text and Init, Parse accepts exactly the texts of the definitions in it, and the tree is the one that the definitions mean.",
  "every syntax text, every input",
  "all pairs of texts",
  ["syntax.go:Syntax.ReadSyntax", "syntax.go:Syntax.Init", "syntax.go:Syntax.Parse", "whitespace.go:applyWhitespaceToSeq"])
p("C49", "The order of definitions does not matter",
  "Definitions made in a different order, with the same root, give a syntax that answers alike: Init has the same error or none, and Parse gives the same tree, the same error or panics, on every input.",
  "every set of definitions, every order of them, every input",
  "all permutations and inputs",
  ["registry.go:setDefinition", "syntax.go:Syntax.Init", "choicedefine.go:initOptions", "context.go:isKeyword"])
p("C50", "Definitions that are not used do not matter",
  "Adding definitions that the root, the whitespace definitions and the keywords do not refer to, directly or through others, and that are neither whitespace nor keywords, changes no answer: neither the error of Init nor the tree, the error or the panic of Parse.",
  "every set of definitions, every set of further ones, every input",
  "all additions and inputs",
  ["registry.go:setDefinition", "syntax.go:Syntax.Init", "sequence.go:parse", "choice.go:parse"])
p("C51", "The texts of nodes and errors tell what they stand for",
  "Node.String of two nodes is the same only if name, span and text are the same; the Error text of two errors of Parse on the same input is the same only if the errors are the same, position and definition included; a ParseError prints its line and column counted from one.",
  "every tree, every node, every input and error",
  "all pairs of nodes and errors",
  ["nodehead.go:Node.String", "syntaxhead.go:ParseError.Error", "syntax.go:duplicateDefinition", "syntax.go:parserNotFound", "syntax.go:checkCommitType"])
p("C52", "show prints the tree as JSON",
  "What the show command prints for an input that is parsed is a JSON document, whatever the indentation, and reading it gives the tree: the names, the spans, the structure, and the texts of the leaves, whatever characters they contain.",
  "every syntax, every input, every tree, every option of the command",
  "all texts, names and trees",
  ["cmd/treerack/show.go:show", "cmd/treerack/show.go:mapNode", "cmd/treerack/show.go:node", "cmd/treerack/io.go:stdout"])
p("C53", "A ParseError names a definition of the user, and its Offset is where the input goes wrong",
  "The Definition of a ParseError is one of the definitions that the user made, with the methods or with a syntax text, and not one of whitespace, not one with the failpass flag and not one made by the implementation. Its Offset is not before the end of what the root definition takes of the input, and no input with the same characters up to and including the one at the Offset is accepted.",
  "every set of definitions or syntax text, every input that is not parsed",
  "all definitions and inputs",
  ["context.go:parseError", "context.go:finalizeParse", "sequence.go:parse", "choice.go:parse", "whitespace.go:applyWhitespaceToRoot"])
p("C54", "Parsing takes a number of steps that is polynomial in the length of the input",
  "For an initialized syntax there is a polynomial such that Parse calls the parsers of the definitions at most as many times as the polynomial of the number of characters in the input says.",
  "every set of definitions or syntax text, every input",
  "all inputs of all lengths",
  ["syntaxhead.go:parser", "sequence.go:sequenceParser.parse", "choice.go:choiceParser.parse", "context.go:isKeyword", "context.go:fromResults"])
p("C55", "The calls of the parsers are nested at most linearly deep",
  "For an initialized syntax there is a number C such that Parse never has more than C * (n + 1) calls of the parsers of the definitions active at the same time for an input of n characters, with left recursion and with any nesting in the input.",
  "every set of definitions or syntax text, every input",
  "all inputs of all lengths and nestings",
  ["syntaxhead.go:parser", "sequence.go:sequenceParser.parse", "choice.go:choiceParser.parse", "results.go:pending", "results.go:markPending"])
p("C56", "Building the tree takes polynomially many calls, and the tree is at most quadratically deep",
  "For an initialized syntax there is a number C such that, for an accepted input of n characters, Parse makes at most C * (n + 1)^3 calls of the builders of the definitions, at most C * (n + 1)^2 of them active at the same time, and the tree it returns is at most C * (n + 1)^2 deep.",
  "every syntax that Init accepts, every input",
  "all syntaxes, all inputs of all lengths and nestings",
  ["syntaxhead.go:builder", "sequence.go:sequenceBuilder.build", "choice.go:choiceBuilder.build", "results.go:dropMatchTo", "results.go:resetPending", "syntax.go:Parse"])
p("C57", "The number of the nodes of a tree is polynomial in the length of the input",
  "For an initialized syntax there is a polynomial such that the tree that Parse returns for an accepted input of n characters has at most as many nodes as the polynomial of n says, so that walking the tree or printing it takes polynomial time.",
  "every syntax that Init accepts, every input",
  "all syntaxes, all inputs of all lengths",
  ["sequence.go:sequenceBuilder.build", "choice.go:choiceBuilder.build", "nodehead.go:Node", "syntax.go:Parse"])
p("C58", "The alias flag removes the nodes of a definition from the tree and changes nothing else",
  "Adding the Alias flag to any number of definitions, the root not among them, gives a syntax for which Init has the same error or none, the same inputs are accepted with the same tokens, and rejected inputs have the same error. The tree of an accepted input is the tree without the flag in which every node of these definitions is replaced by its children.",
  "every list of accepted definitions, every subset of them without the root, every input",
  "all definitions, subsets and inputs",
  ["syntax.go:Alias", "sequence.go:sequenceBuilder.build", "choice.go:choiceBuilder.build", "whitespace.go:applyWhitespace", "syntax.go:checkCommitType"])
p("C59", "Renaming the definitions renames the nodes and changes nothing else",
  "When the definitions of a syntax get other names, different ones for different ones, and the references follow, the definitions are accepted again, Init has the same error or none, the same inputs are accepted with the same tokens, and the trees, the errors of Init and the ParseErrors are the same but for the names.",
  "every list of accepted definitions whose names and references are non-empty symbols, every one-to-one renaming of them to non-empty symbols, every input",
  "all definitions, renamings and inputs: the library derives names of its own from those of the user",
  ["syntax.go:register", "registry.go:setDefinition", "whitespace.go:patchName", "whitespace.go:applyWhitespace", "syntax.go:childName", "context.go:parseError", "syntax.go:Parse"])
p("C60", "A flag has no effect beyond its purpose",
  "When no definition has the Whitespace flag, adding or removing the NoWhitespace flag anywhere leaves Init and Parse as they are. When no definition has the Keyword flag, the same holds for the NoKeyword flag. The FailPass flag never changes a tree or an error of the reader, and never the set of accepted inputs: only the ParseError of a rejected input can be another one.",
  "every two lists of accepted definitions that differ in one of these flags only, every input",
  "all definitions, flags on any of them and inputs",
  ["syntax.go:NoWhitespace", "syntax.go:NoKeyword", "syntax.go:FailPass", "whitespace.go:applyWhitespaceToDefs", "sequence.go:sequenceParser.parse", "choice.go:choiceParser.parse", "context.go:parseError"])
p("C61", "Giving a name to a part of a definition changes nothing",
  "When references to alias definitions are replaced by what these definitions consist of, an item that occurs once by the items of the alias sequence, an option by the options of the alias choice, or the other way around items or options get a name of their own, the same inputs are accepted and the trees are the same.",
  "every list of accepted definitions without left recursion, with literal keywords and nokw on sequences only, every selection of the alias definitions but the root, every input without U+FFFD; with whitespace definitions, parts that take whitespace like the sequence they are in and do not begin with an item that may be missing and may be repeated",
  "all definitions, selections and inputs: the whitespace of a nested sequence is patched separately and its results are stored under an identity of its own",
  ["syntax.go:Alias", "sequence.go:sequenceParser.parse", "choice.go:choiceParser.parse", "sequence.go:sequenceBuilder.build", "choice.go:choiceBuilder.build", "whitespace.go:applyWhitespaceToSeq", "results.go:pending"])
p("C62", "Every text of the language is accepted",
  "Parse accepts an input exactly when it is a text of the root definition, with the definitions read as a context-free grammar: sequences of items with their quantities, choices between options, nokw excluding the keywords.",
  "every list of accepted definitions, every input; proved without left recursion and U+FFFD, for definitions of which one character ahead (after whitespace, if there are whitespace definitions) decides whether an item is repeated and which option applies",
  "all definitions and all texts of their languages: sequences and choices never give back what they have taken",
  ["sequence.go:sequenceParser.parse", "choice.go:choiceParser.parse", "char.go:charParser.parse", "context.go:parse", "syntax.go:Parse"])
p("C63", "The JSON example accepts exactly the JSON documents",
  "The syntax read from examples/json.treerack accepts an input exactly when it is a JSON document as defined by RFC 8259.",
  "every input; proved for inputs without U+FFFD, for the characters that the example chooses as whitespace, in strings and after backslash and u",
  "all documents and all inputs that are none, of any length and depth",
  ["examples/json.treerack", "syntax.go:ReadSyntax", "syntax.go:Init", "syntax.go:Parse", "sequence.go:sequenceParser.parse", "choice.go:choiceParser.parse"])
p("C64", "Definitions of a syntax text stand for the texts that their expressions denote",
  "In a syntax read from a text, each definition has exactly the texts that its expression denotes: characters, classes and literals themselves, symbols the texts of the definition they name, sequences texts of their items one after the other and as often as the quantifiers allow, choices the texts of their options. Whitespace is accepted between the items, also of groups inside, unless the definition is flagged nows, and around the root; whitespace definitions have none between their own items; nokw takes the keywords away.",
  "every syntax text, every definition in it, expressions of any depth, and every text",
  "expressions nest without bound and quantifiers have any bounds, so the sets of texts cannot be enumerated",
  ["define.go", "syntax.go:ReadSyntax", "syntax.go:Init", "whitespace.go", "sequencedefine.go", "choicedefine.go", "chardefine.go"])
p("C65", "The generate command writes the parser of the given syntax, and main runs the named command",
  "treerack generate exits with 0 exactly when its arguments are well formed, the syntax can be read and Generate succeeds for it, with the package name and the export option given, and writes what Generate writes; otherwise it exits with -1. The first argument of the program names the command, which gets the other arguments, and the exit code is its own; without a command, or with an unknown one, it is -1. Generate always stops.",
  "every list of arguments, every content of files and standard input, every syntax, and every pattern of failing writes",
  "the arguments, syntaxes and write failures cannot be enumerated, and stopping is a claim about all syntaxes with their cycles of references",
  ["cmd/treerack/generate.go:generate", "cmd/treerack/main.go:main", "cmd/treerack/options.go", "syntax.go:Generate", "sequencedefine.go", "choicedefine.go", "chardefine.go"])
p("C66", "The commands agree about which syntaxes and inputs are right",
  "With the same arguments, treerack generate and check-syntax end with the same exit code, as long as no write fails, and so do show and check; show prints a tree exactly when check exits with 0. When check accepts an input, check-syntax accepts the syntax it was checked with.",
  "every list of arguments of the commands, every content of files and standard input, every syntax and input",
  "the commands take different paths through the code for the same arguments, and neither the syntaxes nor the inputs can be enumerated",
  ["cmd/treerack/generate.go:generate", "cmd/treerack/checksyntax.go:checkSyntax", "cmd/treerack/check.go:check", "cmd/treerack/show.go:show", "syntax.go:Generate", "syntax.go:Init", "syntax.go:Parse"])
p("C67", "The place where a syntax or an input comes from does not matter",
  "The commands treat the bytes of a syntax or of an input in the same way whether they come from a file, from the standard input or from the command line: two command lines that name sources with the same content end with the same exit code, show prints the same tree and generate writes the same code. An empty option counts as not given.",
  "every two command lines and worlds of files and standard input, every content of them",
  "the combinations of sources and their contents cannot be enumerated",
  ["cmd/treerack/open.go:open", "cmd/treerack/open.go:getSource", "cmd/treerack/check.go:check", "cmd/treerack/checksyntax.go:checkSyntax", "cmd/treerack/show.go:show", "cmd/treerack/generate.go:generate"])
with open(os.path.join(os.path.dirname(__file__), "..", "properties.jsonl"), "w") as f:
    for x in P: f.write(json.dumps(x) + "\n")
print(len(P))
