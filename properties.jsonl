{"id": "C01", "title": "Parse terminates", "statement": "For every syntax that Init accepts (left-recursive, cyclic and self-referencing definitions included) and every finite input, Syntax.Parse stops: it does not loop or recurse forever, neither while matching nor while building the tree.", "quantifier": "every definition graph, every keyword list, every finite rune stream ending in EOF or a read error", "why_tests_cant": "termination on all (possibly left-recursive) grammars and all inputs is a well-foundedness argument; a test that ends shows one run only", "anchors": ["sequence.go:sequenceParser.parse", "choice.go:choiceParser.parse", "sequence.go:sequenceBuilder.build", "choice.go:choiceBuilder.build", "results.go:pending", "results.go:dropMatchTo"]}
{"id": "C02", "title": "An accepted document is in the language of the syntax", "statement": "If Parse returns a tree, the whole input (every rune up to EOF) is generated by the root definition, reading sequences, quantifiers, choices and character classes as an ordinary context free grammar with bounded repetition.", "quantifier": "every syntax whose quantifier ranges satisfy min <= max, every input, left recursion included", "why_tests_cant": "the memo table, the pending marks and the generalization shortcuts interact across offsets; only an invariant over all reachable table states excludes a false accept", "anchors": ["sequence.go:sequenceParser.parse", "choice.go:choiceParser.parse", "context.go:finalizeParse", "results.go:setMatch"]}
{"id": "C03", "title": "Every node covers text that its definition generates", "statement": "In every returned tree, each node has 0 <= From <= To <= number of runes, carries the name of a non-alias definition of the syntax, and its Text() is generated by that definition.", "quantifier": "every syntax, every accepted input, every node at any depth", "why_tests_cant": "there are infinitely many trees; the claim is about each node of each", "anchors": ["choice.go:choiceBuilder.build", "sequence.go:sequenceBuilder.build", "nodehead.go:Node"]}
{"id": "C04", "title": "The root node is the root definition over the whole input", "statement": "If Parse returns a tree, its top node has the name of the root definition, From = 0 and To = the number of runes in the input.", "quantifier": "every syntax, every accepted input", "why_tests_cant": "must hold for all accepted documents", "anchors": ["syntaxhead.go:parseInput", "context.go:finalizeParse"]}
{"id": "C05", "title": "Children are nested, ordered and do not overlap", "statement": "In a returned tree the spans of the children of a node lie inside the span of the node, in input order, without overlap.", "quantifier": "every syntax, every accepted input, every node", "why_tests_cant": "the builder re-derives child spans from the memo table; whether it picks the spans the matcher used depends on the whole parse history", "anchors": ["sequence.go:sequenceBuilder.build", "choice.go:choiceBuilder.build", "results.go:longestMatch", "results.go:dropMatchTo"]}
{"id": "C06", "title": "Parse decides the reference semantics (greedy sequences, longest choice)", "statement": "For a syntax without left recursion, Parse accepts an input exactly when the memo-free recursive-descent semantics does: a sequence takes its items greedily within the quantifier bounds without backtracking, a choice takes the longest matching option. Memoization, repeated passes, pending marks and generalization shortcuts never change the outcome.", "quantifier": "every such syntax, every input, every offset and every reachable memo state", "why_tests_cant": "equivalence of a stateful memoizing parser with a stateless specification over all grammars and inputs", "anchors": ["sequence.go:sequenceParser.parse", "choice.go:choiceParser.parse", "context.go:fromResults"]}
{"id": "C07", "title": "The returned tree is the reference tree", "statement": "For a syntax without left recursion the returned tree is exactly the one of the reference semantics: aliases contribute their children only, a choice contributes the first of its longest options, repeated items appear in order.", "quantifier": "every such syntax, every accepted input", "why_tests_cant": "same as C06, for the tree builder, which runs against the leftover memo table", "anchors": ["sequence.go:sequenceBuilder.build", "choice.go:choiceBuilder.build"]}
{"id": "C08", "title": "Syntaxes without left recursion decide every input", "statement": "If the definitions can be ranked so that no definition reaches itself without consuming a rune first, then the reference semantics gives one and only one outcome for every definition, offset and input, so Parse of such a syntax is a total function of the text.", "quantifier": "every rankable syntax, every definition, every offset of every input", "why_tests_cant": "totality and uniqueness over an infinite domain", "anchors": ["sequence.go:sequenceParser.parse", "choice.go:choiceParser.parse"]}
{"id": "C09", "title": "Parse never panics", "statement": "Syntax.Parse returns a tree or an error for every input; it does not panic.", "quantifier": "every syntax accepted by Init, every input", "why_tests_cant": "requires excluding every out-of-range index, nil dereference and bad slice bound in every reachable parser state", "anchors": ["context.go:parseError", "context.go:findLine", "context.go:token", "choice.go:choiceBuilder.build", "syntaxhead.go:parseInput"]}
{"id": "C10", "title": "Invalid UTF-8 is reported as ErrInvalidUnicodeCharacter", "statement": "If the parser reaches a byte sequence that is not valid UTF-8, Parse returns ErrInvalidUnicodeCharacter; input that is valid UTF-8 never produces this error.", "quantifier": "every syntax, every byte sequence", "why_tests_cant": "depends on which parser looks at the broken position again and in which order", "anchors": ["context.go:read", "context.go:token"]}
{"id": "C11", "title": "Read errors are never swallowed", "statement": "If the reader fails with an error instead of EOF, Parse never returns a tree; when the parser reached the failing position, Parse returns that very error and not a ParseError.", "quantifier": "every syntax, every reader that delivers any runes and then fails", "why_tests_cant": "all positions of failure times all grammars", "anchors": ["context.go:read", "context.go:finalizeParse", "syntaxhead.go:parseInput"]}
{"id": "C12", "title": "Success means the input was read to EOF", "statement": "If Parse returns a tree, the reader was read up to EOF and every delivered rune was consumed by the match.", "quantifier": "every syntax, every reader", "why_tests_cant": "all inputs", "anchors": ["context.go:finalizeParse", "context.go:read"]}
{"id": "C13", "title": "ParseError positions are consistent", "statement": "The Offset of a returned ParseError is between 0 and the number of runes read, Line is the number of newlines before Offset and Column is the distance of Offset from the start of that line.", "quantifier": "every syntax, every rejected input", "why_tests_cant": "offset bookkeeping has several reset paths; all of them must keep the bound on every input", "anchors": ["context.go:findLine", "context.go:parseError", "char.go:charParser.parse", "choice.go:choiceParser.parse"]}
{"id": "C14", "title": "A nokw sequence definition never matches a keyword", "statement": "When all keyword definitions are literals, no match of a sequence definition carrying NoKeyword, and no node built for one, spans exactly the text of a keyword.", "quantifier": "every syntax with literal keywords, every input, every offset", "why_tests_cant": "all inputs and all memo states", "anchors": ["context.go:isKeyword", "sequence.go:sequenceParser.parse"]}
{"id": "C15", "title": "A nokw choice definition never matches a keyword", "statement": "The same as C14 for choice definitions carrying NoKeyword.", "quantifier": "every syntax with literal keywords, every input", "why_tests_cant": "the failure only shows when the same definition is tried twice at the same offset", "anchors": ["context.go:isKeyword", "choice.go:choiceParser.parse", "results.go:setMatch"]}
{"id": "C16", "title": "Whitespace rewriting inserts whitespace exactly between the items", "statement": "With a whitespace definition, a sequence without nows accepts precisely the texts obtained by putting any number of whitespace matches between consecutive item occurrences (and before a missing optional single item that is not the first), a nows sequence and a literal accept none, and the root accepts whitespace around it; nothing else of the language of any definition changes.", "quantifier": "every set of definitions, every text", "why_tests_cant": "language equality over all texts", "anchors": ["whitespace.go:applyWhitespaceToSeq", "whitespace.go:applyWhitespaceToDefs", "whitespace.go:applyWhitespaceToRoot", "whitespace.go:applyWhitespace"]}
{"id": "C17", "title": "Whitespace rewriting keeps definitions and parser identities apart", "statement": "After Init of a syntax with whitespace, every definition of the user is still present under its name, no helper definition collides with another definition, and all parsers taking part in a parse, keyword parsers included, have different identities in the memo table.", "quantifier": "every syntax with a whitespace definition", "why_tests_cant": "collisions depend on the spelling and position of names in arbitrary syntaxes", "anchors": ["whitespace.go:patchName", "registry.go:newRegistry", "registry.go:setDefinition", "syntax.go:Syntax.Init"]}
{"id": "C18", "title": "Init reports every undefined reference", "statement": "Init succeeds only if every definition reachable from the root, from the keywords and from the whitespace definitions refers to defined names only; if a reachable name is missing Init fails with an error naming an undefined name.", "quantifier": "every definition graph, cyclic ones included, in which the references are defined or symbols that can be defined", "why_tests_cant": "reachability over arbitrary graphs", "anchors": ["sequencedefine.go:sequenceDefinition.validate", "choicedefine.go:choiceDefinition.validate", "syntax.go:Syntax.Init"]}
{"id": "C19", "title": "Init life cycle", "statement": "Init is idempotent after success; after success every definition call and ReadSyntax returns ErrSyntaxInitialized and leaves the syntax unchanged; after a failed validation every later Init, Parse and Generate fails with ErrInitFailed.", "quantifier": "every history of API calls", "why_tests_cant": "all call sequences", "anchors": ["syntax.go:Syntax.Init", "syntax.go:Syntax.register", "syntax.go:Syntax.ReadSyntax"]}
{"id": "C20", "title": "Root selection", "statement": "After any sequence of successful definition calls the root is the definition carrying the explicit Root flag if there is one, otherwise the last one defined; a second explicit root is refused with ErrMultipleRoots; exactly one definition carries the root mark.", "quantifier": "every history of successful definition calls", "why_tests_cant": "all call sequences", "anchors": ["syntax.go:Syntax.applyRoot", "syntax.go:Syntax.register"]}
{"id": "C21", "title": "A refused definition has no effect", "statement": "If a definition call returns an error, the syntax behaves as if the call had not been made.", "quantifier": "every history of definition calls", "why_tests_cant": "all call sequences and error causes", "anchors": ["syntax.go:Syntax.register", "syntax.go:Syntax.applyRoot", "registry.go:setDefinition"]}
{"id": "C22", "title": "Names are unique, identities are sequential", "statement": "A second definition with an existing name is refused with a duplicate definition error; at any time registered definitions have pairwise different names and the identities 1..n in definition order.", "quantifier": "every history of definition calls", "why_tests_cant": "all call sequences", "anchors": ["registry.go:setDefinition", "syntax.go:Syntax.register"]}
{"id": "C23", "title": "Incompatible flags are refused, and only those", "statement": "A definition call fails with an incompatible-commit-types error exactly when its flags contain one of the pairs alias+root, ws+{kw,nokw,failpass,root}, kw+{nokw,root}, failpass+root; the error names a pair that is really present.", "quantifier": "every flag combination, every map iteration order", "why_tests_cant": "Go map iteration order is a schedule; the claim is about all of them", "anchors": ["syntax.go:incompatibleCommitTypes", "syntax.go:Syntax.checkCommitType"]}
{"id": "C24", "title": "Symbol names", "statement": "AnyChar, Class, CharSequence, Sequence and Choice accept a name exactly when it has none of the reserved characters; therefore accepted names can be embedded in the Go string literals of the generated code and never clash with the internal names of child definitions.", "quantifier": "every string", "why_tests_cant": "all strings", "anchors": ["syntax.go:isValidSymbol", "syntax.go:childName", "sequencedefine.go:sequenceParser.generate"]}
{"id": "C25", "title": "Quantifier ranges", "statement": "Item ranges are normalized as documented (0,0 is exactly one; max <= 0 otherwise unbounded; min <= 0 is none), normalization is idempotent, and a sequence accepts a repetition count exactly when it is in the normalized range. The quantifiers of the syntax language denote the documented ranges.", "quantifier": "every pair of integers, every numeral", "why_tests_cant": "all integers", "anchors": ["sequencedefine.go:normalizeItemRange", "define.go:getQuantity"]}
{"id": "C26", "title": "Escaping round trip", "statement": "Unescaping an escaped character list gives back the list, for every list, whenever the escape character is itself banned and no banned character is one of the letters b f n r t v; in particular for the character class escapes. Escaped text contains no unescaped banned character.", "quantifier": "every rune list, every admissible banned set and escape character", "why_tests_cant": "all strings", "anchors": ["escape.go:escape", "escape.go:unescape", "escape.go:escapeChar", "escape.go:unescapeChar"]}
{"id": "C27", "title": "Character class membership", "statement": "A class matches a rune exactly when the rune is listed or lies within a listed range, negated for a not-class; AnyChar matches every rune; a literal matches exactly its text.", "quantifier": "every class, every rune, every text", "why_tests_cant": "all runes", "anchors": ["char.go:matchChar", "char.go:charParser.parse", "syntax.go:charSequence"]}
{"id": "C28", "title": "The no-match memo is an exact set", "statement": "The bit set that records failed definitions answers membership exactly: an id is reported after it was set and not unset since, for any sequence of operations, any ids, and any capacity growth of the underlying slice.", "quantifier": "every operation sequence, every id, every growth policy", "why_tests_cant": "all histories", "anchors": ["idset.go:idSet.set", "idset.go:idSet.unset", "idset.go:idSet.has"]}
{"id": "C29", "title": "The memo store does not depend on slice capacity", "statement": "The answers of the result store (matches, failures, pending marks) are those of an abstract map for any sequence of operations, whatever capacity the Go runtime gives to the growing slices.", "quantifier": "every operation sequence, every growth policy of append", "why_tests_cant": "append growth is a runtime choice", "anchors": ["results.go:ensureOffsetInts", "results.go:ensureOffsetIDs", "results.go:setMatch", "results.go:setNoMatch", "results.go:markPending", "results.go:unmarkPending"]}
{"id": "C30", "title": "Parsing leaves no trace in the syntax", "statement": "The result of Parse depends only on the definitions and the input: parsing any documents before, successful or not, does not change the result of a later Parse of the same Syntax.", "quantifier": "every history of Parse calls on one Syntax", "why_tests_cant": "all histories", "anchors": ["syntax.go:Syntax.Parse", "sequencedefine.go:sequenceDefinition.parser", "choicedefine.go:choiceDefinition.parser"]}
{"id": "C31", "title": "Concurrent Parse calls on an initialized Syntax", "statement": "Parse calls running concurrently on the same initialized Syntax each return what they would return alone.", "quantifier": "every interleaving of parse calls", "why_tests_cant": "depends on the schedule", "anchors": ["sequencedefine.go:sequenceDefinition.parser", "choicedefine.go:choiceDefinition.parser", "syntax.go:Syntax.Parse"]}
{"id": "C32", "title": "Generated code contains the same parser", "statement": "The code written by Generate declares every parser and builder reachable from the root and the keywords exactly once and before its use, and the tables it sets up are those that Syntax.Parse uses.", "quantifier": "every initialized syntax", "why_tests_cant": "all grammars, cyclic ones included", "anchors": ["sequencedefine.go:sequenceParser.generate", "choicedefine.go:choiceParser.generate", "chardefine.go:charParser.generate", "syntax.go:Syntax.Generate"]}
{"id": "C33", "title": "Generate reports write errors", "statement": "If any write to the output fails, Generate returns an error.", "quantifier": "every initialized syntax, every failing writer", "why_tests_cant": "all positions of failure", "anchors": ["syntax.go:Syntax.Generate", "sequencedefine.go:sequenceParser.generate"]}
{"id": "C34", "title": "Generated parsers report the same errors", "statement": "The generated parser reports the same ParseError (Offset, Line, Column, Definition) as Syntax.Parse.", "quantifier": "every syntax, every rejected input", "why_tests_cant": "all grammars and inputs", "anchors": ["sequencedefine.go:sequenceParser.generate", "whitespace.go:applyWhitespaceToRoot", "context.go:parseError"]}
{"id": "C35", "title": "Formatting and reading a definition are inverse", "statement": "The textual form of a character class, literal or quantifier, when read back as syntax, denotes the same class, literal or range.", "quantifier": "every class, literal and range", "why_tests_cant": "all character lists", "anchors": ["chardefine.go:charParser.format", "sequencedefine.go:sequenceDefinition.format", "define.go:nodeChar", "define.go:getQuantity"]}
{"id": "C36", "title": "Comments do not change a syntax", "statement": "Reading a syntax text defines the same thing whether or not comment nodes are attached anywhere in its tree.", "quantifier": "every syntax tree, every placement of comments", "why_tests_cant": "all trees", "anchors": ["define.go:dropComments", "define.go:define", "node.go:filterNodes", "node.go:mapNodes"]}
{"id": "C37", "title": "The command line accepts one source only", "statement": "For a syntax or input, at most one of positional file, file option and inline option may be given; otherwise the command stops with an error; with none of them, standard input is used if it is not a terminal.", "quantifier": "every combination of options", "why_tests_cant": "three options, arbitrary strings", "anchors": ["cmd/treerack/open.go:fileOptions.getSource"]}
{"id": "C38", "title": "Exit codes of the commands", "statement": "check exits with 0 exactly when the syntax can be read and initialized and the input parses; check-syntax exactly when the syntax can be read and initialized; otherwise -1.", "quantifier": "every syntax text, every input, every option combination without -help", "why_tests_cant": "all inputs", "anchors": ["cmd/treerack/check.go:check", "cmd/treerack/checksyntax.go:checkSyntax", "cmd/treerack/main.go:main"]}
{"id": "C39", "title": "Text() reproduces the document bytes", "statement": "For valid UTF-8 input the Text() of the returned root node is byte for byte the input, and the Text() of any node is the corresponding byte substring.", "quantifier": "every valid UTF-8 input, every node", "why_tests_cant": "all byte strings", "anchors": ["nodehead.go:Node.Text", "context.go:read"]}
{"id": "C40", "title": "show prints the tree unchanged", "statement": "The JSON node tree printed by show has the same names, spans and shape as the parsed tree, and the text of a node is present exactly for leaves.", "quantifier": "every tree", "why_tests_cant": "all trees", "anchors": ["cmd/treerack/show.go:mapNode"]}
{"id": "C41", "title": "Help text wrapping keeps the words", "statement": "wrapLines keeps the words of the text in order and no produced line is longer than 72 columns.", "quantifier": "every text", "why_tests_cant": "all texts", "anchors": ["cmd/treerack/doc.go:wrapLines"]}
{"id": "C42", "title": "Reading a syntax text is reading it with the published grammar", "statement": "ReadSyntax accepts only texts of the language described by syntax.treerack, and the parser tables built into the package are those that the package itself generates from syntax.treerack.", "quantifier": "every syntax text", "why_tests_cant": "all texts", "anchors": ["self/self.go:Parse", "syntax.go:Syntax.ReadSyntax", "syntax.treerack"]}
{"id": "C43", "title": "Direct left recursion builds left-nested trees", "statement": "A definition of the form e = e op t | t parses every text t (op t)* and returns the left-nested tree.", "quantifier": "every number of repetitions", "why_tests_cant": "all lengths", "anchors": ["choice.go:choiceParser.parse", "choice.go:choiceBuilder.build", "results.go:dropMatchTo"]}
{"id": "C44", "title": "Caller memory is not modified", "statement": "Definition calls and Init neither modify slices passed by the caller nor change when the caller modifies them later.", "quantifier": "every call, every later modification", "why_tests_cant": "aliasing histories", "anchors": ["sequencedefine.go:newSequence", "sequencedefine.go:initRanges", "syntax.go:Syntax.Sequence"]}
{"id": "C45", "title": "Init terminates and never panics", "statement": "Init returns for every set of definitions, cyclic ones included, and does not panic.", "quantifier": "every history of definition calls", "why_tests_cant": "all graphs", "anchors": ["sequencedefine.go:init", "choicedefine.go:addGeneralization", "whitespace.go:applyWhitespace", "syntax.go:Syntax.Init"]}
{"id": "C46", "title": "A syntax text means the definitions it spells", "statement": "Reading a syntax text makes the definitions that the text spells and nothing else: for a text with symbols only inside sequences and choices it does the same as the calls of AnyChar, Class, CharSequence, Sequence and Choice; expressions inside others become alias definitions of their own. It succeeds exactly when the text is a list of definitions and all of them can be made.", "quantifier": "every text, every state of the syntax before", "why_tests_cant": "all texts", "anchors": ["syntax.go:Syntax.ReadSyntax", "define.go:define", "define.go:defineExpression", "define.go:getQuantity"]}
{"id": "C47", "title": "ReadSyntax returns and never panics", "statement": "ReadSyntax returns success or an error for every input, it does not panic.", "quantifier": "every input and every reader", "why_tests_cant": "all inputs", "anchors": ["syntax.go:Syntax.ReadSyntax", "self/self.go:Parse", "define.go:define"]}
{"id": "C48", "title": "A syntax read from a text parses what the text says", "statement": "After reading a syntax text and Init, Parse accepts exactly the texts of the definitions in it, and the tree is the one that the definitions mean.", "quantifier": "every syntax text, every input", "why_tests_cant": "all pairs of texts", "anchors": ["syntax.go:Syntax.ReadSyntax", "syntax.go:Syntax.Init", "syntax.go:Syntax.Parse", "whitespace.go:applyWhitespaceToSeq"]}
{"id": "C49", "title": "The order of definitions does not matter", "statement": "Definitions made in a different order, with the same root, give a syntax that answers alike: Init has the same error or none, and Parse gives the same tree, the same error or panics, on every input.", "quantifier": "every set of definitions, every order of them, every input", "why_tests_cant": "all permutations and inputs", "anchors": ["registry.go:setDefinition", "syntax.go:Syntax.Init", "choicedefine.go:initOptions", "context.go:isKeyword"]}
{"id": "C50", "title": "Definitions that are not used do not matter", "statement": "Adding definitions that the root, the whitespace definitions and the keywords do not refer to, directly or through others, and that are neither whitespace nor keywords, changes no answer: neither the error of Init nor the tree, the error or the panic of Parse.", "quantifier": "every set of definitions, every set of further ones, every input", "why_tests_cant": "all additions and inputs", "anchors": ["registry.go:setDefinition", "syntax.go:Syntax.Init", "sequence.go:parse", "choice.go:parse"]}
{"id": "C51", "title": "The texts of nodes and errors tell what they stand for", "statement": "Node.String of two nodes is the same only if name, span and text are the same; the Error text of two errors of Parse on the same input is the same only if the errors are the same, position and definition included; a ParseError prints its line and column counted from one.", "quantifier": "every tree, every node, every input and error", "why_tests_cant": "all pairs of nodes and errors", "anchors": ["nodehead.go:Node.String", "syntaxhead.go:ParseError.Error", "syntax.go:duplicateDefinition", "syntax.go:parserNotFound", "syntax.go:checkCommitType"]}
{"id": "C52", "title": "show prints the tree as JSON", "statement": "What the show command prints for an input that is parsed is a JSON document, whatever the indentation, and reading it gives the tree: the names, the spans, the structure, and the texts of the leaves, whatever characters they contain.", "quantifier": "every syntax, every input, every tree, every option of the command", "why_tests_cant": "all texts, names and trees", "anchors": ["cmd/treerack/show.go:show", "cmd/treerack/show.go:mapNode", "cmd/treerack/show.go:node", "cmd/treerack/io.go:stdout"]}
{"id": "C53", "title": "A ParseError names a definition of the user, and its Offset is where the input goes wrong", "statement": "The Definition of a ParseError is one of the definitions that the user made, with the methods or with a syntax text, and not one of whitespace, not one with the failpass flag and not one made by the implementation. Its Offset is not before the end of what the root definition takes of the input, and no input with the same characters up to and including the one at the Offset is accepted.", "quantifier": "every set of definitions or syntax text, every input that is not parsed", "why_tests_cant": "all definitions and inputs", "anchors": ["context.go:parseError", "context.go:finalizeParse", "sequence.go:parse", "choice.go:parse", "whitespace.go:applyWhitespaceToRoot"]}
{"id": "C54", "title": "Parsing takes a number of steps that is polynomial in the length of the input", "statement": "For an initialized syntax there is a polynomial such that Parse calls the parsers of the definitions at most as many times as the polynomial of the number of characters in the input says.", "quantifier": "every set of definitions or syntax text, every input", "why_tests_cant": "all inputs of all lengths", "anchors": ["syntaxhead.go:parser", "sequence.go:sequenceParser.parse", "choice.go:choiceParser.parse", "context.go:isKeyword", "context.go:fromResults"]}
{"id": "C55", "title": "The calls of the parsers are nested at most linearly deep", "statement": "For an initialized syntax there is a number C such that Parse never has more than C * (n + 1) calls of the parsers of the definitions active at the same time for an input of n characters, with left recursion and with any nesting in the input.", "quantifier": "every set of definitions or syntax text, every input", "why_tests_cant": "all inputs of all lengths and nestings", "anchors": ["syntaxhead.go:parser", "sequence.go:sequenceParser.parse", "choice.go:choiceParser.parse", "results.go:pending", "results.go:markPending"]}
{"id": "C56", "title": "Building the tree takes polynomially many calls, and the tree is at most quadratically deep", "statement": "For an initialized syntax there is a number C such that, for an accepted input of n characters, Parse makes at most C * (n + 1)^3 calls of the builders of the definitions, at most C * (n + 1)^2 of them active at the same time, and the tree it returns is at most C * (n + 1)^2 deep.", "quantifier": "every syntax that Init accepts, every input", "why_tests_cant": "all syntaxes, all inputs of all lengths and nestings", "anchors": ["syntaxhead.go:builder", "sequence.go:sequenceBuilder.build", "choice.go:choiceBuilder.build", "results.go:dropMatchTo", "results.go:resetPending", "syntax.go:Parse"]}
{"id": "C57", "title": "The number of the nodes of a tree is polynomial in the length of the input", "statement": "For an initialized syntax there is a polynomial such that the tree that Parse returns for an accepted input of n characters has at most as many nodes as the polynomial of n says, so that walking the tree or printing it takes polynomial time.", "quantifier": "every syntax that Init accepts, every input", "why_tests_cant": "all syntaxes, all inputs of all lengths", "anchors": ["sequence.go:sequenceBuilder.build", "choice.go:choiceBuilder.build", "nodehead.go:Node", "syntax.go:Parse"]}
{"id": "C58", "title": "The alias flag removes the nodes of a definition from the tree and changes nothing else", "statement": "Adding the Alias flag to any number of definitions, the root not among them, gives a syntax for which Init has the same error or none, the same inputs are accepted with the same tokens, and rejected inputs have the same error. The tree of an accepted input is the tree without the flag in which every node of these definitions is replaced by its children.", "quantifier": "every list of accepted definitions, every subset of them without the root, every input", "why_tests_cant": "all definitions, subsets and inputs", "anchors": ["syntax.go:Alias", "sequence.go:sequenceBuilder.build", "choice.go:choiceBuilder.build", "whitespace.go:applyWhitespace", "syntax.go:checkCommitType"]}
{"id": "C59", "title": "Renaming the definitions renames the nodes and changes nothing else", "statement": "When the definitions of a syntax get other names, different ones for different ones, and the references follow, the definitions are accepted again, Init has the same error or none, the same inputs are accepted with the same tokens, and the trees, the errors of Init and the ParseErrors are the same but for the names.", "quantifier": "every list of accepted definitions whose names and references are non-empty symbols, every one-to-one renaming of them to non-empty symbols, every input", "why_tests_cant": "all definitions, renamings and inputs: the library derives names of its own from those of the user", "anchors": ["syntax.go:register", "registry.go:setDefinition", "whitespace.go:patchName", "whitespace.go:applyWhitespace", "syntax.go:childName", "context.go:parseError", "syntax.go:Parse"]}
{"id": "C60", "title": "A flag has no effect beyond its purpose", "statement": "When no definition has the Whitespace flag, adding or removing the NoWhitespace flag anywhere leaves Init and Parse as they are. When no definition has the Keyword flag, the same holds for the NoKeyword flag. The FailPass flag never changes a tree or an error of the reader, and never the set of accepted inputs: only the ParseError of a rejected input can be another one.", "quantifier": "every two lists of accepted definitions that differ in one of these flags only, every input", "why_tests_cant": "all definitions, flags on any of them and inputs", "anchors": ["syntax.go:NoWhitespace", "syntax.go:NoKeyword", "syntax.go:FailPass", "whitespace.go:applyWhitespaceToDefs", "sequence.go:sequenceParser.parse", "choice.go:choiceParser.parse", "context.go:parseError"]}
{"id": "C61", "title": "Giving a name to a part of a definition changes nothing", "statement": "When references to alias definitions are replaced by what these definitions consist of, an item that occurs once by the items of the alias sequence, an option by the options of the alias choice, or the other way around items or options get a name of their own, the same inputs are accepted and the trees are the same.", "quantifier": "every list of accepted definitions without left recursion, with literal keywords and nokw on sequences only, every selection of the alias definitions but the root, every input without U+FFFD; with whitespace definitions, parts that take whitespace like the sequence they are in and do not begin with an item that may be missing and may be repeated", "why_tests_cant": "all definitions, selections and inputs: the whitespace of a nested sequence is patched separately and its results are stored under an identity of its own", "anchors": ["syntax.go:Alias", "sequence.go:sequenceParser.parse", "choice.go:choiceParser.parse", "sequence.go:sequenceBuilder.build", "choice.go:choiceBuilder.build", "whitespace.go:applyWhitespaceToSeq", "results.go:pending"]}
{"id": "C62", "title": "Every text of the language is accepted", "statement": "Parse accepts an input exactly when it is a text of the root definition, with the definitions read as a context-free grammar: sequences of items with their quantities, choices between options, nokw excluding the keywords.", "quantifier": "every list of accepted definitions, every input; proved without left recursion and U+FFFD, for definitions of which one character ahead (after whitespace, if there are whitespace definitions) decides whether an item is repeated and which option applies", "why_tests_cant": "all definitions and all texts of their languages: sequences and choices never give back what they have taken", "anchors": ["sequence.go:sequenceParser.parse", "choice.go:choiceParser.parse", "char.go:charParser.parse", "context.go:parse", "syntax.go:Parse"]}
{"id": "C63", "title": "The JSON example accepts exactly the JSON documents", "statement": "The syntax read from examples/json.treerack accepts an input exactly when it is a JSON document as defined by RFC 8259.", "quantifier": "every input; proved for inputs without U+FFFD, for the characters that the example chooses as whitespace, in strings and after backslash and u", "why_tests_cant": "all documents and all inputs that are none, of any length and depth", "anchors": ["examples/json.treerack", "syntax.go:ReadSyntax", "syntax.go:Init", "syntax.go:Parse", "sequence.go:sequenceParser.parse", "choice.go:choiceParser.parse"]}
{"id": "C64", "title": "Definitions of a syntax text stand for the texts that their expressions denote", "statement": "In a syntax read from a text, each definition has exactly the texts that its expression denotes: characters, classes and literals themselves, symbols the texts of the definition they name, sequences texts of their items one after the other and as often as the quantifiers allow, choices the texts of their options. Whitespace is accepted between the items, also of groups inside, unless the definition is flagged nows, and around the root; whitespace definitions have none between their own items; nokw takes the keywords away.", "quantifier": "every syntax text, every definition in it, expressions of any depth, and every text", "why_tests_cant": "expressions nest without bound and quantifiers have any bounds, so the sets of texts cannot be enumerated", "anchors": ["define.go", "syntax.go:ReadSyntax", "syntax.go:Init", "whitespace.go", "sequencedefine.go", "choicedefine.go", "chardefine.go"]}
{"id": "C65", "title": "The generate command writes the parser of the given syntax, and main runs the named command", "statement": "treerack generate exits with 0 exactly when its arguments are well formed, the syntax can be read and Generate succeeds for it, with the package name and the export option given, and writes what Generate writes; otherwise it exits with -1. The first argument of the program names the command, which gets the other arguments, and the exit code is its own; without a command, or with an unknown one, it is -1. Generate always stops.", "quantifier": "every list of arguments, every content of files and standard input, every syntax, and every pattern of failing writes", "why_tests_cant": "the arguments, syntaxes and write failures cannot be enumerated, and stopping is a claim about all syntaxes with their cycles of references", "anchors": ["cmd/treerack/generate.go:generate", "cmd/treerack/main.go:main", "cmd/treerack/options.go", "syntax.go:Generate", "sequencedefine.go", "choicedefine.go", "chardefine.go"]}
{"id": "C66", "title": "The commands agree about which syntaxes and inputs are right", "statement": "With the same arguments, treerack generate and check-syntax end with the same exit code, as long as no write fails, and so do show and check; show prints a tree exactly when check exits with 0. When check accepts an input, check-syntax accepts the syntax it was checked with.", "quantifier": "every list of arguments of the commands, every content of files and standard input, every syntax and input", "why_tests_cant": "the commands take different paths through the code for the same arguments, and neither the syntaxes nor the inputs can be enumerated", "anchors": ["cmd/treerack/generate.go:generate", "cmd/treerack/checksyntax.go:checkSyntax", "cmd/treerack/check.go:check", "cmd/treerack/show.go:show", "syntax.go:Generate", "syntax.go:Init", "syntax.go:Parse"]}
{"id": "C67", "title": "The place where a syntax or an input comes from does not matter", "statement": "The commands treat the bytes of a syntax or of an input in the same way whether they come from a file, from the standard input or from the command line: two command lines that name sources with the same content end with the same exit code, show prints the same tree and generate writes the same code. An empty option counts as not given.", "quantifier": "every two command lines and worlds of files and standard input, every content of them", "why_tests_cant": "the combinations of sources and their contents cannot be enumerated", "anchors": ["cmd/treerack/open.go:open", "cmd/treerack/open.go:getSource", "cmd/treerack/check.go:check", "cmd/treerack/checksyntax.go:checkSyntax", "cmd/treerack/show.go:show", "cmd/treerack/generate.go:generate"]}
