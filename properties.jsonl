{"id": "C01", "title": "Eating splits the visible text", "statement": "Eat(i) on a scanner whose window lies inside its source, with 0<=i<=length, yields an eaten scanner and a rest whose texts concatenate to the old text; the eaten part starts at the old offset, the rest starts exactly where it ends, and both keep the source.", "quantifier": "every source text, every in-range window, every i between 0 and the window length", "why_tests_cant": "Tests try a handful of strings; the law has to hold at every split point of every window, including the empty ones at both ends.", "anchors": ["parser/scanner.go: (*Scanner).Eat, Skip, Slice, stringSource.slice"]}
{"id": "C02", "title": "EatString is exact prefix matching", "statement": "EatString(str) returns true iff the visible text starts with str; then the eaten scanner's text is exactly str and the rest follows it; otherwise the scanner is left untouched.", "quantifier": "every in-range scanner and every str", "why_tests_cant": "Needs both directions for all strings, and the no-change guarantee on failure.", "anchors": ["parser/scanner.go: (*Scanner).EatString"]}
{"id": "C03", "title": "Position is the line/column of the offset and is faithful", "statement": "Position() of a scanner in range returns 1 + the number of newlines before its offset, and the 1-based byte distance from the last newline; on one source two scanners have the same Position iff they have the same Offset, and Position order (line, then column) is Offset order.", "quantifier": "every source text, every pair of offsets inside it", "why_tests_cant": "Injectivity and monotonicity speak about all pairs of offsets of all texts.", "anchors": ["parser/scanner.go: Scanner.Position, lineColumn"]}
{"id": "C04", "title": "MergeScanners is the least covering range", "statement": "MergeScanners succeeds iff it gets at least one scanner and all have the same source; the result then spans from the smallest start to the largest end, i.e. it Contains every argument and any scanner of that source containing all arguments contains it; the result does not depend on argument order.", "quantifier": "every list of scanners and every permutation of it", "why_tests_cant": "Quantifies over permutations and over all competing covers.", "anchors": ["parser/scanner.go: MergeScanners, Scanner.Contains"]}
{"id": "C05", "title": "Contains is a partial order on ranges", "statement": "Scanner.Contains is reflexive, transitive and antisymmetric (same source, same range), and for scanners of the same source it is exactly inclusion of the byte ranges.", "quantifier": "all triples of scanners that have a source", "why_tests_cant": "Order laws over all triples.", "anchors": ["parser/scanner.go: Scanner.Contains"]}
{"id": "C06", "title": "StripSource keeps the text", "statement": "For an in-range scanner StripSource() keeps String(), Offset() and Filename(), the new source holds only that text, and stripping twice equals stripping once. Position() is NOT preserved and may panic.", "quantifier": "every source and every in-range window; the negative part exhibits a scanner", "why_tests_cant": "The text survives only thanks to the out-of-range fallback in slice; every start/length pair takes one of several branches.", "anchors": ["parser/scanner.go: Scanner.StripSource, stringSource.slice, stringSource.stripSource, Scanner.Position"]}
{"id": "C07", "title": "Context with NoLimit shows the whole source once", "statement": "For an in-range scanner the text Context(NoLimit) prints before, inside and after the highlight concatenates to the complete source; with a limit n>=0 it prints a suffix of the text before and a prefix of the text after, at most n+1 and n lines (all if there are no more than n).", "quantifier": "every source, window and non-negative limit", "why_tests_cant": "Line splitting and slicing for all texts and limits.", "anchors": ["parser/scanner.go: Scanner.Context"]}
{"id": "C08", "title": "Parse succeeds only on fully consumed input", "statement": "ParseWithExternals returns a tree with nil error only if the remaining input is empty; if the rule matches but text remains the error is UnconsumedInputError whose Residue is exactly that remaining suffix and whose Result is the tree of the match.", "quantifier": "every compiled grammar, rule, input text, and set of well-behaved externals", "why_tests_cant": "All grammars times all inputs.", "anchors": ["parser/terms.go: Parsers.ParseWithExternals", "parser/error.go: UnconsumedInput"]}
{"id": "C09", "title": "Parsing only moves forward inside the input", "statement": "Whatever a parser returns (match, ordinary failure or fatal failure), the input scanner it leaves behind has the same source, ends where it ended before and does not start before the old start.", "quantifier": "every compiled parser, scope, input, random stream, and externals obeying the same law", "why_tests_cant": "Backtracking code paths cannot be enumerated by tests.", "anchors": ["parser/parser.go: all Parse methods", "parser/scanner.go: EatRegexp"]}
{"id": "C10", "title": "Leaves are ordered, disjoint slices of the input", "statement": "On success every leaf of the tree is a slice of the input source within the consumed range, and the leaves read left to right do not overlap and do not go backwards (for grammars without look-ahead, whose captured groups all take part in the match).", "quantifier": "every compiled grammar without look-ahead and externals, every input, every regexp engine meeting the capture contract", "why_tests_cant": "A structural invariant of all parse trees.", "anchors": ["parser/parser.go: seqParser.Parse, quantParser.Parse, delimParser.Parse, oneofParser.Parse, eatRegexp"]}
{"id": "C11", "title": "Parse trees are lossless without wrapRE", "statement": "In a grammar without .wrapRE, look-ahead, externals and user capture groups, the texts of the leaves of the resulting tree concatenate to exactly the consumed input.", "quantifier": "every such grammar, rule and input", "why_tests_cant": "All grammars times all inputs; includes associativity re-folding and optional separators.", "anchors": ["parser/parser.go: all Parse methods"]}
{"id": "C12", "title": "Successful parses are derivations of the grammar", "statement": "If a rule parses a span of input into a tree then that span, with that tree, is derivable from the rule in the declarative reading of the grammar (any alternative of a choice, any admissible repetition count, look-ahead needs a derivation at the same place, back references repeat the bound text).", "quantifier": "every compiled grammar, rule, input, random stream", "why_tests_cant": "The declarative reading is an independent specification; agreement needs an induction over all parses.", "anchors": ["parser/parser.go: Compile, all Parser and Parse methods"]}
{"id": "C13", "title": "Without cut points the engine is standard PEG", "statement": "For grammars without cut points the engine's accept/reject/span results agree with the textbook PEG semantics: ordered choice takes the first succeeding alternative and reports its index, repetition is greedy, a failure has no effect on later alternatives.", "quantifier": "every cut-free grammar without back references and externals, every input, both directions", "why_tests_cant": "Equivalence with a relational semantics for all grammars and inputs.", "anchors": ["parser/parser.go: seqParser, oneofParser, quantParser, delimParser, lookaheadParser"]}
{"id": "C14", "title": "Repetition counts respect the bounds and are greedy", "statement": "A successful quantifier node has at least Min and, when Max>0, at most Max children; it stopped either at Max or because one more match of the body was impossible at that point.", "quantifier": "every Quant, body, input and scope", "why_tests_cant": "All bounds, bodies and inputs.", "anchors": ["parser/parser.go: quantParser.Parse", "parser/terms.go: Quant.Contains"]}
{"id": "C15", "title": "Look-ahead consumes nothing", "statement": "A look-ahead term succeeds iff its body would succeed at the same place, and leaves the input exactly where it was in both cases.", "quantifier": "every body, scope, input without escapes", "why_tests_cant": "All bodies and inputs.", "anchors": ["parser/parser.go: lookaheadParser.Parse"]}
{"id": "C16", "title": "Delimited lists keep their items in order under every associativity", "statement": "For t:s, t:>s and t<:s the parsed items and separators, read left to right, are the same flat alternating sequence term sep term ... ; :> nests to the left, <: nests to the right, every nested node has exactly three children; a leading (trailing) separator is represented by an Empty first (last) item and occurs only when the grammar allows it.", "quantifier": "every list length, every items/separators, all three associativities, all four leading/trailing options", "why_tests_cant": "Induction over list length.", "anchors": ["parser/parser.go: delimParser.Parse, Delim.Parser"]}
{"id": "C17", "title": "Back references match exactly the bound text", "statement": "%name succeeds at a position iff the concatenated leaf text of the value bound to name occurs there, consumes exactly that text, and yields a tree with the same shape and leaf texts.", "quantifier": "every bound value made of nodes and in-range leaves, every input, grammar without escapes", "why_tests_cant": "All bound values and inputs.", "anchors": ["parser/parser.go: (*REF).Parse, termFromRefVal, nodesEqual"]}
{"id": "C18", "title": "Cut points only prune", "statement": "If a parse succeeds with cut points then the same grammar with all CutPoint wrappers removed succeeds with the same tree and the same remaining input; if it fails without passing a cut, so does the cut-free grammar.", "quantifier": "every compiled grammar, input, and every stream of pairwise distinct random cut identifiers", "why_tests_cant": "A simulation between two runs over all grammars and random streams.", "anchors": ["parser/parser.go: cutPointParser, seqParser.Parse, oneofParser.Parse, quantParser.Parse", "parser/scope.go: ReplaceCutPoint", "parser/error.go: isFatal, isNotMyFatalError"]}
{"id": "C19", "title": "A cut commits the whole parse", "statement": "Once a sequence element that is a cut point has matched, an ordinary failure of a later element of the same sequence makes the enclosing parse fail: no enclosing choice tries another alternative and no enclosing repetition settles for fewer items.", "quantifier": "every context of choices, repetitions, sequences around the committed sequence, every stream of distinct cut identifiers", "why_tests_cant": "All nesting contexts.", "anchors": ["parser/parser.go: seqParser.Parse, oneofParser.Parse, quantParser.Parse", "parser/error.go: isNotMyFatalError"]}
{"id": "C20", "title": "Results do not depend on the random cut identifiers", "statement": "As long as the random numbers drawn during a parse are pairwise distinct (and none is the reserved 1), the outcome, tree and remaining input do not depend on them; with colliding numbers the outcome can change.", "quantifier": "every grammar and input, all pairs of collision-free random streams; the negative part exhibits a colliding stream", "why_tests_cant": "Quantifies over random streams; rand is not seedable per parse in a test.", "anchors": ["parser/scope.go: ReplaceCutPoint", "parser/error.go: isNotMyFatalError"]}
{"id": "C21", "title": "Automatic cut points preserve the language", "statement": "Expected: marking literals that occur once in the grammar as cut points does not change which inputs a grammar accepts. This is false of the code: a uniquely spelled literal that is a whole rule, or that a regexp also matches, or that separates a list which may end with the separator, commits too early. What holds is that marking never adds accepted inputs or changes trees. And for predictive grammars, where the next byte decides every choice, option and repetition, marking changes neither the accepted inputs nor the trees.", "quantifier": "the negative part exhibits grammars and inputs; the positive part is for every grammar and input", "why_tests_cant": "Tests compare a few grammars; the claim is about all of them.", "anchors": ["wbnf/cutpoints.go: insertCutPoints, findUniqueStrings", "wbnf/compile.go"]}
{"id": "C22", "title": "Literal terms match exactly their text", "statement": "Without .wrapRE, a literal S matches at a position iff the remaining text starts with it, consumes exactly its length, and yields a leaf whose text is the literal, whatever bytes it contains.", "quantifier": "every literal and input, any regexp engine with the documented QuoteMeta behaviour", "why_tests_cant": "All byte strings including regexp metacharacters.", "anchors": ["parser/parser.go: S.Parser, sParser.Parse, eatRegexp"]}
{"id": "C23", "title": "Regexp terms with capture groups", "statement": "Expected (README): the first capturing group populates the node, or the whole match if there is none. Proved for none; with exactly one group that takes part in the match the group's text is used; false in general: two or more groups panic, and a group that does not take part yields a leaf outside the match.", "quantifier": "every pattern by its number of groups, every input", "why_tests_cant": "Depends on the number of groups of an arbitrary pattern.", "anchors": ["parser/parser.go: eatRegexp", "parser/scanner.go: EatRegexp"]}
{"id": "C24", "title": "Parsing terminates on well-founded grammars", "statement": "If no rule can reach itself without consuming input and no unbounded repetition has a body that can match empty, every parse terminates, on every input. wbnf's own grammar is an instance: parsing any grammar text terminates.", "quantifier": "every grammar with a rank witnessing this, every input and random stream", "why_tests_cant": "Non-termination cannot be observed by a finite test; termination is for all inputs.", "anchors": ["parser/parser.go: quantParser.Parse, Compile"]}
{"id": "C25", "title": "Unbounded repetition of an empty match hangs", "statement": "Expected: parsing always terminates for grammars that pass validation. False: (\"x\"?)* never terminates on an input where its body matches empty. In general, a rule that is an unbounded repetition never terminates on an input where repeating its body comes to a place where the body matches empty.", "quantifier": "every such grammar and input, all amounts of execution steps; exhibited grammar on every input", "why_tests_cant": "A test can only time out; the theorem says that no number of steps suffices.", "anchors": ["parser/parser.go: quantParser.Parse", "wbnf/recursion.go: checkForRecursion"]}
{"id": "C26", "title": "Stacks resolve into a precedence chain", "statement": "Compiling r -> l0 > l1 > ... > ln produces rules r, r@1, ..., r@n where @ in layer i is the rule of layer i+1 and @ in the last layer is r; no @ and no Stack remains, all other rules are unchanged, and the grammar compiles and parses exactly like the chain written out by hand.", "quantifier": "every stack length, every layer without nested stacks or scoped grammars, every map iteration order", "why_tests_cant": "All lengths, layers and iteration orders.", "anchors": ["parser/parser.go: resolveStacks, Compile, clone", "parser/resolve.go"]}
{"id": "C27", "title": "Compilation does not depend on map order", "statement": "Compile gives equivalent parsers for every iteration order of the grammar map: each rule gets the same parser.", "quantifier": "all permutations of the rules of every grammar with distinct names", "why_tests_cant": "Go randomises map order; a test sees one order.", "anchors": ["parser/parser.go: Compile, resolveStacks, ScopedGrammar.Parser"]}
{"id": "C28", "title": "Every defined rule can be parsed", "statement": "Expected: a rule whose definition mentions only defined rules never panics when parsed. False for r -> name=other (and a top-level cut point of a rule): the reference is never hooked up. Holds when no rule's definition is a named, scoped or cut reference after following aliases. wbnf's own grammar is an instance: parsing any grammar text never panics.", "quantifier": "exhibited grammar; all grammars in the restricted class, all inputs", "why_tests_cant": "Panic freedom for all grammars and inputs.", "anchors": ["parser/parser.go: Compile, registerRule, Named.Parser, ruleParser.Parse"]}
{"id": "C29", "title": "AST conversion keeps every leaf", "statement": "FromParserNode keeps exactly the leaves of the parse tree: each leaf of the tree appears exactly once in the AST, the leaves below one child stay together, and for each child name the children keep their order: reading the children of every branch in a suitable order of names gives the leaves of the tree in their order.", "quantifier": "every grammar in the supported class and every conforming tree", "why_tests_cant": "All grammars and trees.", "anchors": ["ast/from_parsernode.go", "ast/node.go: add"]}
{"id": "C30", "title": "One/Many decisions are sound", "statement": "A child name that FromParserNode records as a single child occurs at most once in every tree of that rule, so the conversion never hits the duplicate-child panic when rule names that differ only in their stack level are not mixed.", "quantifier": "every term and every tree conforming to it", "why_tests_cant": "The counter analysis is a static analysis; its soundness is over all trees.", "anchors": ["ast/counter.go", "ast/from_parsernode.go: add, one, many"]}
{"id": "C31", "title": "AST conversion of associative lists", "statement": "Expected: FromParserNode converts every tree produced by the same grammar. False: lists with :> or <: whose items are nodes, or whose item is a sequence or choice, panic; so do rules whose definition is a named group and stacks that mention both @ and the rule itself.", "quantifier": "exhibited grammars and inputs", "why_tests_cant": "Tests cover only token items.", "anchors": ["ast/from_parsernode.go", "parser/parser.go: LRTerms"]}
{"id": "C32", "title": "AST conversion leaves the grammar alone", "statement": "Expected: FromParserNode does not modify the grammar it is given. False for scoped grammars, whose rules are written into the caller's map; true for grammars without scoped grammars.", "quantifier": "exhibited grammar; every grammar without scoped grammars", "why_tests_cant": "Aliasing effect that shows up only on later conversions.", "anchors": ["ast/from_parsernode.go: fromParserNode ScopedGrammar case", "ast/to_parsernode.go"]}
{"id": "C33", "title": "AST to parse tree round trip", "statement": "ToParserNode(g, FromParserNode(g, tree)) gives back the tree (up to leaf source stripping) for grammars whose repetitions are driven by child names of their own.", "quantifier": "every grammar in the class and every conforming tree", "why_tests_cant": "All trees.", "anchors": ["ast/to_parsernode.go", "ast/from_parsernode.go"]}
{"id": "C34", "title": "The scanner of an AST node is its covering range", "statement": "Node.Scanner() of a branch is the least range covering all its leaves, independent of map iteration order, when all leaves share the source.", "quantifier": "every AST, every iteration order of every branch", "why_tests_cant": "Map order is random.", "anchors": ["ast/node_string.go: Scanner", "parser/scanner.go: MergeScanners"]}
{"id": "C35", "title": "ContentEquals is an equivalence", "statement": "On ASTs without empty Many lists ContentEquals is reflexive, symmetric and transitive and ignores offsets; with empty Many lists symmetry fails.", "quantifier": "all pairs/triples of ASTs", "why_tests_cant": "Equivalence laws over all pairs and triples.", "anchors": ["ast/node.go: ContentEquals"]}
{"id": "C36", "title": "The recursion check decides cycles, ignoring slice aliasing", "statement": "checkForRecursion reports an error only if the left-reference graph it builds has a cycle, and always reports when there is a cycle whose length is a power of two; ignoring backing-array sharing it reports iff there is a cycle.", "quantifier": "every finite reference graph and every map iteration order", "why_tests_cant": "All graphs times all iteration orders.", "anchors": ["wbnf/recursion.go: checkForRecursion, findPaths, walkRule"]}
{"id": "C37", "title": "The recursion check can miss a cycle", "statement": "Expected: a cyclic left-reference graph is always rejected. False: for a -> b|d; b -> c|d; c -> a|d some map iteration orders make append overwrite the recorded path and the grammar is accepted.", "quantifier": "exhibited graph and iteration order", "why_tests_cant": "Shows up only for some random iteration orders (1 in 8).", "anchors": ["wbnf/recursion.go: findPaths"]}
{"id": "C38", "title": "Accepted grammars are free of left recursion", "statement": "Expected: every grammar accepted by validation is free of left recursion. False: a -> a+; a -> a:\",\"; a -> \"\" a are accepted and parsing them never terminates. True instead: in a text without macros, nested grammars and stacks in which whatever a match may enter before consuming input is a reference the check looks at (plain or optional references, groups and choices of them, optional literals), a graph of first references without a cycle means that every parse with the built grammar ends; so when slices never share their array, acceptance by validation means that every parse ends.", "quantifier": "refuted with exhibited grammars for all amounts of execution steps; the positive part for all texts of the class, all engines, all inputs", "why_tests_cant": "Non-termination for every number of steps, and termination on every input of every text of a class.", "anchors": ["wbnf/recursion.go: getSequenceDangerTerms", "wbnf/validation.go", "wbnf/compile.go: NewFromAst"]}
{"id": "C39", "title": "Back-quoted and quoted literals round-trip", "statement": "Every byte string can be written as a literal and read back: doubling back quotes inside `...`, or escaping the backslash and the quote inside \"...\" or '...', and parsing the literal gives the original bytes. The text between quotes is read exactly as the table of escapes says, and everything outside that table panics.", "quantifier": "every byte string, all three quote styles", "why_tests_cant": "All byte strings.", "anchors": ["wbnf/compile.go: parseString"]}
{"id": "C40", "title": "Numeric escapes in literals", "statement": "Expected: \\xHH, \\uHHHH, \\UHHHHHHHH and octal escapes denote the named character. False: every \\x, \\u, \\U escape panics and \\ooo leaves its last digit behind.", "quantifier": "all digits after \\x, \\u, \\U; all octal triples", "why_tests_cant": "All values of the escape.", "anchors": ["wbnf/compile.go: parseString"]}
{"id": "C41", "title": "Cut point insertion only adds CutPoint wrappers", "statement": "Removing CutPoint wrappers from the grammar with inserted cut points gives the original grammar without its own cut points; only literals get wrapped; a literal is wrapped only if its count as computed over the grammar is one, independent of map order. A literal used twice inside a nested grammar and once outside is nevertheless wrapped everywhere (false uniqueness).", "quantifier": "every grammar, every iteration order; exhibited grammar for the negative part", "why_tests_cant": "All grammars.", "anchors": ["wbnf/cutpoints.go: insertCutPoints, findUniqueStrings, fixTerm"]}
{"id": "C42", "title": "Unparse inverts Parse on the core fragment", "statement": "For grammars whose compiled form has only literals, regexps, sequences, choices, repetitions, non-associative lists without optional separators, names, cut points and rule references, without .wrapRE, capture groups and look-ahead, unparsing a successful parse writes exactly the consumed text and reports its length (stacks are fine: the compiled grammar is used); with groups, .wrapRE and look-ahead it writes the leaves of the tree. False outside: associative lists and optional separators panic, and so do rules that are a bare token or have a name of their own and nested grammars; look-ahead duplicates text, back-references get a backslash, and text removed by .wrapRE is lost.", "quantifier": "every grammar in the fragment, every input; exhibited grammars for the negative part", "why_tests_cant": "All grammars times all inputs.", "anchors": ["parser/unparse.go", "parser/terms.go: Grammar.Unparse"]}
{"id": "C43", "title": "diff.Grammars decides equality", "statement": "For grammars without external references and without REF defaults present on one side only, the diff is empty iff the grammars are equal. False for external references: two different ones compare equal at term level.", "quantifier": "all pairs of grammars in the class; exhibited pair for the negative part", "why_tests_cant": "All pairs.", "anchors": ["parser/diff/terms.go"]}
{"id": "C44", "title": "diff.Nodes misses leaf differences", "statement": "Expected: an empty node diff means equal trees. False: leaf texts are never compared, and a leaf of the first tree may even stand against a node of the second. What an empty diff means is that every node of the first tree has a counterpart with the same tag, extra and number of children; it does not panic when no node of the first tree faces a non-node.", "quantifier": "exhibited pair; all pairs of trees", "why_tests_cant": "All pairs.", "anchors": ["parser/diff/nodes.go"]}
{"id": "C45", "title": "Generated Go code denotes the compiled grammar", "statement": "The Go expression written for a compiled grammar is valid Go and evaluates to a grammar that compiles to parsers with the same results, for grammars whose quantifiers are ?, * and +, whose literals are UTF-8 without carriage returns and zero bytes, whose names fit between quotes, and in which .wrapRE is a token (or a choice of tokens) that no rule refers to. The grammar that is read has the same rules: unchanged but for the order of nested grammars and the wrappers they inherit, and stacks put together again without cut points. With any other quantifier, anywhere in the grammar, the code is not Go: {m,n} yields a literal mixing positional and keyed fields. False outside as well: carriage returns are dropped by raw strings, and other bytes are not Go source.", "quantifier": "every compiled grammar in the class; exhibited grammars for the negative part", "why_tests_cant": "All grammars.", "anchors": ["cmd/codegen/grammar.go"]}
{"id": "C46", "title": "Walker visits and aborts", "statement": "The walker visits nodes depth first; the children of a node are visited in the alphabetical order of the names under which the wbnf grammar lists them, and every child the grammar names is visited exactly once. Returning an exit request from an enter callback skips that subtree only. Expected: an abort request stops the walk. False: it only skips the subtree.", "quantifier": "every tree and callback set; exhibited walk for the negative part", "why_tests_cant": "All trees and callbacks.", "anchors": ["wbnf/wbnfgrammar.go: WalkerOps.Walk*"]}
{"id": "C47", "title": "Nested grammars are lexically scoped", "statement": "Expected: a rule name inside a nested grammar (term { ... }) means the rule of the innermost enclosing grammar that defines it, and the rule bodies of a nested grammar see that nested grammar. Holds for grammars whose nested rules are aliases or do not end in a bare rule reference. False otherwise: in a -> x { x -> n=y; y -> \"1\"; } \"!\"; y -> \"2\"; the nested y is taken from the outer grammar.", "quantifier": "every grammar in the class, every rule, input and random stream; exhibited grammar for the negative part", "why_tests_cant": "Tests try a few nestings; the claim is about every nesting depth, shadowing pattern and shape of rule body.", "anchors": ["parser/parser.go: ScopedGrammar.Parser, registerRule, Named.Parser"]}
{"id": "C48", "title": "Regexp literals: layout and escaped spaces", "statement": "A regexp literal means its text with white space removed and every \\_ whose backslash is not itself escaped turned into a space, however many of them are adjacent; /{...} additionally loses its delimiters. Underscores after an escaped backslash are left alone.", "quantifier": "every byte string, read as characters and backslash pairs", "why_tests_cant": "the replacement is done by running a non-overlapping regexp replacement twice; that two runs are enough for any number of adjacent escapes is a statement about all lengths", "anchors": ["wbnf/compile.go: buildAtom RE case, whitespaceRE, escapedSpaceRE"]}
{"id": "C49", "title": "The grammar of wbnf describes itself", "statement": "The text of the wbnf grammar, read with the hand-written grammar, is accepted by validation under every behaviour of the Go runtime, and the grammar built from it passes the comparison at start-up, so that Core does not panic. More generally, whenever that comparison passes, the compiled result parses every input exactly as the hand-written grammar does.", "quantifier": "every runtime behaviour (slice growth, map order); for the comparison every grammar text's grammar; every rule, input and fuel", "why_tests_cant": "Tests see one map order and a handful of inputs; equality of the behaviour of two grammars is about all inputs.", "anchors": ["wbnf/grammar.go: core", "parser/diff/terms.go", "wbnf/compile.go: Compile"]}
{"id": "C50", "title": "Validation rejects no grammar that is free of left recursion", "statement": "Expected: a grammar whose rules cannot reach themselves without consuming input is accepted by validation. False: the possible-cycle check follows references without looking at what precedes them, so that ordinary right-recursive grammars such as a -> b a?; b -> 'x'; are rejected although every parse of theirs ends.", "quantifier": "refuted for every behaviour of the runtime under which slices have room; exhibited grammar, all inputs", "why_tests_cant": "That every parse with the rejected grammar ends is a statement about all inputs.", "anchors": ["wbnf/validation.go", "wbnf/recursion.go"]}
{"id": "C51", "title": "An accepted grammar has no dangling references and loses no definitions", "statement": "When a grammar text without macros and nested grammars passes validation and a grammar is built from it, every rule that is mentioned in it is defined (or is @), its productions have pairwise different names, and the rules of the grammar are exactly these productions in order. Expected also for texts with macros and nested grammars; there it is false: validation never looks into macro bodies and nested grammars, so accepted texts produce parsers that panic.", "quantifier": "every text's AST without macros and nested grammars, every behaviour of the runtime, every regexp engine", "why_tests_cant": "Whether a name is left undefined depends on every place where a name can occur in a term, at any depth; tests try a few.", "anchors": ["wbnf/validation.go", "wbnf/compile.go: NewFromAst, buildGrammar, buildTerm"]}
{"id": "C52", "title": "Compile reports bad grammars as errors instead of panicking", "statement": "Compile returns a grammar or an error for every grammar text. False: texts with an invalid regexp, an unknown escape, @ outside a stack, a stack below the top of a rule, a nested grammar in a stack, a bound that does not fit into an int, or a .wrapRE that is no regexp pass validation and make Compile panic, under every behaviour of the runtime. True instead: Grammar.Compile succeeds exactly when stacks are at the top of rules, do not contain stacks or nested grammars, aliases lead to terms and all literals and patterns, wrapped as .wrapRE says, are regexps.", "quantifier": "refuted with eight texts, each for every behaviour of the runtime", "why_tests_cant": "The behaviour under every map order and slice growth cannot be tried; the repository has no tests for such texts.", "anchors": ["wbnf/compile.go: Compile", "wbnf/validation.go", "parser/parser.go: Grammar.Compile", "parser/parser.go: resolveStacks"]}
{"id": "C53", "title": "Only texts whose macros do not lead back to themselves are built", "statement": "Whenever NewFromAst returns a grammar, no chain of macro calls starting from a production is infinite; where the first call a term leads to always leads to another one, the builder recurses without end. Expected: validation rejects texts with recursive macros. False: `.macro m(x) { %!m(x) } a -> %!m('1');` passes validation under every behaviour of the runtime, and building its grammar never ends.", "quantifier": "every AST and amount of fuel; the refutation is for every runtime behaviour and every amount of fuel", "why_tests_cant": "Non-termination is not observable in a test, and the chain of calls can be arbitrarily long.", "anchors": ["wbnf/compile.go: NewFromAst, expandMacro, buildTerm", "wbnf/validation.go: validateMacro, validateMacroCall"]}
{"id": "C54", "title": "Imports add the statements of the imported files", "statement": "Compiling a text with imports works on the statements of the text followed by those of the imported files, in order, and so on; this list is definite, and it is loaded whenever every file can be read and parsed and the imports are not cyclic. A text whose imports reach a cycle has no result at all: neither a grammar nor an error, whatever else is wrong with the files (the recursion in loadGrammarFile never ends, so the Go stack overflows). Expected and false: cyclic imports are reported, a missing file stops the loading, a file imported by two files is used once (its rules are reported as duplicates), an import in a nested grammar adds rules to this grammar only (it adds them to the whole one).", "quantifier": "every set of files, resolver, text and depth; exhibited files for the negative part", "why_tests_cant": "Every file system and import graph; the cyclic case never returns.", "anchors": ["wbnf/compile.go: makeGrammar", "wbnf/compile.go: loadGrammarFile", "wbnf/compile.go: mergeGrammarNodes"]}
{"id": "C55", "title": "The grammar built from a text is the one the text says", "statement": "For every AST of a grammar text without macros and nested grammars, read as productions with literals, patterns, references, groups, look-aheads, choices, sequences, stacks, names and quantifiers, NewFromAst returns exactly the grammar these productions stand for, in order, with cut points inserted: quantifiers apply from the innermost, a group stands for its content, one element alone stands for itself, names wrap the atom and not its quantifiers. Productions must have different names, which validation ensures.", "quantifier": "every AST and its reading, every amount of fuel for which the builder returns", "why_tests_cant": "Tests compare a few built grammars; the claim is about every nesting of every construct.", "anchors": ["wbnf/compile.go: NewFromAst, buildGrammar, buildProd, buildTerm, buildNamed, buildQuant, buildAtom", "wbnf/validation.go"]}
{"id": "C56", "title": "A macro call stands for the body with the arguments in place of the parameters", "statement": "The term built for a macro call is the term built for the body of the macro with every parameter replaced by the term built for the argument at its position, all at once, so names inside arguments are not captured. Expected for every body; proved for bodies without look-aheads and nested grammars. False for the others: parameters inside look-aheads and nested grammars are left as references to rules that do not exist, and the accepted text gives a parser that panics.", "quantifier": "every set of macros, call and amount of fuel; the refutations for every behaviour of the runtime", "why_tests_cant": "Bodies nest every construct of the grammar language at any depth.", "anchors": ["wbnf/compile.go: expandMacro", "wbnf/cutpoints.go: rebuildGrammar, fixTerm"]}
{"id": "C57", "title": "Cut points in stack layers commit", "statement": "A cut point written in a layer of a precedence stack has the same effect as in the rules that the stack stands for: after it, the alternatives are not tried. In fact compiling a grammar drops the cut points in the layers of its stacks (CutPoint.Resolve returns the term inside): the parsers behave exactly as if they had not been written, so an input that the chain of rules rejects is accepted.", "quantifier": "every grammar, rule, input and configuration for the dropping; an exhibited grammar for the difference", "why_tests_cant": "Every grammar with stacks, and every input; the lost cut points show only on inputs that fail after one.", "anchors": ["parser/resolve.go: CutPoint.Resolve", "parser/parser.go: resolveStacks"]}
{"id": "C58", "title": "Validation reports exactly the faults", "statement": "Validating a grammar text reports DuplicatedRule, and nothing else, if and only if two of its productions or macros have the same name. Otherwise an error of a kind is reported if and only if some node outside nested grammars and macro bodies has that fault (an identifier that is no definition and not @, a regexp that does not compile, a name that is also a definition, a maximum below the minimum, two terms of a sequence with one name, a macro argument that is taken, a call of something that is no macro, a call with the wrong number of arguments), or the check for left recursion objects. So a text is accepted if and only if there is none of these.", "quantifier": "every syntax tree for which validation returns, every regexp engine and every order of map iteration", "why_tests_cant": "There are infinitely many texts, and faults may hide anywhere in them; tests show examples of each fault, not that no node is missed and that nothing else is reported.", "anchors": ["wbnf/validation.go: validate, findDefinedRules, validator.validate*", "wbnf/wbnfgrammar.go: WalkerOps.Walk"]}
{"id": "C59", "title": "Generated getters reach every child", "statement": "For a rule without stacks and external references whose separators are named or literals, every child that the AST of a parsed text has under a name can be read with a method of the Go type that wbnf gen writes for the rule (except nameless tokens in rules with a literal as separator). False outside: a separator that is a rule or a group is put into a type of its own that no getter returns, and a rule named Token hides the tokens.", "quantifier": "every grammar in the class with names other than Token, every rule, input, regexp engine, camel-casing function and random stream; exhibited accepted texts for the negative part", "why_tests_cant": "All grammars times all inputs; the generated code is only compiled for a few grammars.", "anchors": ["cmd/codegen/typebuilder.go", "cmd/codegen/pushtype.go", "cmd/codegen/types.go", "ast/from_parsernode.go"]}
{"id": "C60", "title": "Several children of a name have an All getter", "statement": "If the AST of a parsed text has two or more children under a name, the generated type of the rule has a method that returns all of them. Proved when the repetition is one the generator notices (in a repetition or list, by a back reference, or by occurring twice in a sequence or alternative by itself). False in general: for a name given again inside a group, a reference beside a choice with the same reference, and two tokens of which one starts the rule; the shipped RefNode of wbnf itself has only OneToken although a reference with a default has two tokens.", "quantifier": "every grammar in the class, every rule, input, regexp engine, camel-casing function and random stream; exhibited accepted texts and the shipped types for the negative part", "why_tests_cant": "All grammars times all inputs.", "anchors": ["cmd/codegen/typebuilder.go: handleSeq, handleOneof, handleQuant, handleDelim", "cmd/codegen/pushtype.go", "wbnf/wbnfgrammar.go: RefNode"]}
{"id": "C61", "title": "Making the types never panics", "statement": "The type generator returns types for every grammar whose references lead to rules and whose rules show at least one child. Expected for every accepted grammar; false: a rule that is only an external reference passes validation and makes the generator panic as soon as it is referred to.", "quantifier": "every grammar in the class, every camel-casing function and random stream; an exhibited accepted text for the negative part", "why_tests_cant": "All grammars.", "anchors": ["cmd/codegen/typebuilder.go", "cmd/codegen/types.go"]}
{"id": "C62", "title": "Generated code refers only to declared types", "statement": "Every type that a generated getter returns is declared in the generated code, if references with a name are to rules of the outermost grammar whose Go name is a fixed point of the naming. False otherwise: for a named reference to a rule of a nested grammar, to a rule with single letters between underscores (BCNode instead of BcNode), and for a name given to an external reference; the generated file does not compile.", "quantifier": "every grammar in the class, every camel-casing function and random stream; exhibited accepted texts for the negative part", "why_tests_cant": "All grammars.", "anchors": ["cmd/codegen/typebuilder.go", "cmd/codegen/types.go", "cmd/codegen/pushtype.go"]}
{"id": "C63", "title": "Generated code declares everything once", "statement": "The generated code declares no type twice and no method of a type twice, for every grammar without back references and stack references whose part names stay different as Go names (and are not Token). False otherwise: a part named token beside an unnamed token, left_arm beside leftArm, two back references to one name, and two named layers of a stack each give a method declared twice, so that the generated file does not compile.", "quantifier": "every grammar in the class, every camel-casing function and random stream; exhibited accepted texts for the negative part", "why_tests_cant": "All grammars.", "anchors": ["cmd/codegen/typebuilder.go", "cmd/codegen/types.go", "cmd/codegen/pushtype.go"]}
{"id": "C64", "title": "The generated walker visits the nodes", "statement": "For a grammar without stack references and with proper names, the walk function of a type only calls declared methods, calls every getter that gives nodes (the one for all of them if there is one), and walks exactly the types that have a walk function. The children of a parsed text are visited, all of them when the generator notices that there can be several, unless a token has their name. False otherwise: for a stack with named layers the walk functions call methods that no type has; a node whose name a token has in another alternative is never visited; of two nodes only the first is visited when the second is in a choice.", "quantifier": "every grammar in the class, every camel-casing function and random stream, every parse; exhibited accepted texts for the negative part", "why_tests_cant": "All grammars and inputs.", "anchors": ["cmd/codegen/walkerinterface.go", "cmd/codegen/types.go", "cmd/codegen/typebuilder.go"]}
{"id": "C65", "title": "The AST holds exactly the parts of the tree", "statement": "The AST of a parse tree has, under each name, the tokens, references and named parts that the tree has at its own level under that name, in the order of the text, and nothing else but the name of the rule; nested nodes likewise. Two such ASTs of one tree are alike but for the order of the entries and for whether a single child is in a list.", "quantifier": "every compiled grammar whose references and names are read alike by parser and conversion, every rule, every input, every parse", "why_tests_cant": "All grammars and inputs.", "anchors": ["ast/from_parsernode.go: FromParserNode, fromParserNode", "ast/node.go: add", "ast/counter.go"]}
{"id": "C66", "title": "Generated getters give the texts and nodes of the parts", "statement": "On the AST of a parsed text the generated All and One methods give all and the first of the parts of that name: the nodes, or, where only tokens have the name, their texts as in the input; String gives the text of a rule that is one token; Choice gives the first choice made. False otherwise: OneToken of a node without tokens gives the text of another rule, or panics if its only entry is a list; a name used for a token and for a rule makes the getter panic.", "quantifier": "every compiled grammar in the class, every name, every input and parse; exhibited accepted texts for the negative part", "why_tests_cant": "All grammars and inputs.", "anchors": ["cmd/codegen/types.go", "ast/helpers.go: First, All, Which, Choice", "ast/node.go"]}
{"id": "C67", "title": "What a getter returns is a node of the type it names", "statement": "What a generated getter returns for references to a rule is a node holding the parts of that rule's definition. False for a reference with a name: the getter returns a node whose only child is the node of the rule, though it has that rule's type, so that the getters of the type find nothing in it.", "quantifier": "every grammar, every tree of it, every name; exhibited accepted text for the negative part", "why_tests_cant": "All grammars and trees.", "anchors": ["cmd/codegen/types.go", "cmd/codegen/typebuilder.go", "ast/from_parsernode.go"]}
{"id": "C68", "title": "A compiled text parses what the text says", "statement": "A parser compiled from an accepted grammar text says nothing that the text, read as a parsing expression grammar, does not say: it accepts only inputs the text matches, an UnconsumedInput error leaves what the text leaves, and an ordinary parse error means that the text does not match. If in addition the next byte decides every choice, option and repetition of the text, the inputs accepted are exactly those the text matches, in spite of the cut points put in by the compiler; and if the text is one for which the check for left recursion is complete, every input is decided.", "quantifier": "every accepted grammar text in the class (no stacks, back references, externals, nested grammars or .wrapRE), every rule, every input", "why_tests_cant": "All grammar texts and all inputs; tests compare a few parses of a few grammars.", "anchors": ["wbnf/compile.go: NewFromAst", "wbnf/cutpoints.go", "wbnf/validation.go", "parser/parser.go", "parser/terms.go: Parsers.Parse"]}
{"id": "C69", "title": "A printed tree shows the tree", "statement": "Print of a gotree gives the lines of the tree's drawing: the lines of its text, then each item's drawing as a block hung on a branch mark, the last one on the closing mark. The slices that printItems appends to and shares between items never disturb each other. Two trees none of whose texts has a later line that starts like an item are printed alike only if they are the same tree. (Refuted without that condition: a text with a line that looks like an item prints like a tree with that item.)", "quantifier": "every tree, every growth policy of append", "why_tests_cant": "All shapes and texts, and aliasing between slices depends on capacities.", "anchors": ["gotree/gotree.go: Print, printItems, printText"]}
{"id": "C70", "title": "A tree view shows every leaf once", "statement": "The items without items in a tree view are, as a multiset, the labels of the leaves of the AST that are not hidden, the data and the names of branches with nothing to show; collapsing chains and sorting lose and repeat none. The label of a leaf determines its offset and its text.", "quantifier": "every AST, every order of map iteration, every sorting algorithm", "why_tests_cant": "All ASTs; map order and ties in sorting vary from run to run.", "anchors": ["ast/treeview.go", "ast/node_string.go: Leaf.String", "gotree/gotree.go: SortItems, Rank"]}
{"id": "C71", "title": "A tree view is in text order and reproducible", "statement": "If every shown branch has something to show, no shown name starts with a digit and the leaves are at increasing offsets, the tree view without @-names is the same whatever the order of maps and the sorting, and shows the leaves in the order of the text; so for the AST of every parsed text without empty leaves. Refuted with @-names (the view then depends on the order of the map), with branches that have nothing to show (leaves out of order) and with empty leaves.", "quantifier": "every AST and every parse, every order of map iteration, every sorting algorithm", "why_tests_cant": "Map order varies from run to run.", "anchors": ["ast/treeview.go", "gotree/gotree.go: SortItems, Rank"]}
{"id": "C72", "title": "The names of externals give the escape", "statement": "ParseWithExternals uses as escape the one external whose name starts with a star: the opening pattern is the part of the rest up to the first \"()\", the closing pattern the part up to the next one; it panics if two names start with a star, if such a name has no \"()\", or if a pattern is not a valid regexp, and only then. The iteration order of the map has no influence. Expected: everything after the first \"()\" is the closing pattern; false, it is cut at the next \"()\" and the rest is silently dropped.", "quantifier": "all regexp engines, streams of random numbers, maps of externals in every order, compiled grammars, rules and inputs", "why_tests_cant": "The tests use two well formed names; order independence needs all iteration orders, and the rule for names is about all strings.", "anchors": ["parser/scope.go:99-118", "parser/terms.go:51-63"]}
{"id": "C73", "title": "An escape takes over wherever it opens", "statement": "Wherever the opening pattern matches, the answer of any parser is what comes of the escape: the tree of the external, with the text from the opening to the closing pattern consumed (a residue the external leaves is used), an error if the closing pattern does not match, or the error of the external. So at the start of the input the escape stands for the whole rule. If the opening pattern matches nowhere in the input the parse is the same as without the escape. Expected: an escape stands for one item of a list or repetition, and look-aheads consume nothing; false: an escape at the first item stands for the whole list or repetition, so that {:x:}+1 is rejected where 1+{:x:} is accepted, and look-aheads consume escapes.", "quantifier": "all configurations whose externals only move forward, escapes, fuel, parsers, scopes and inputs in range", "why_tests_cant": "The tests escape two terms; that an answer is independent of the term to be read is a statement about all parsers, and that nothing changes without an opening is about all inputs.", "anchors": ["parser/parser.go:139-165", "parser/parser.go:235", "parser/parser.go:265", "parser/parser.go:339", "parser/parser.go:393", "parser/parser.go:523", "parser/parser.go:560", "parser/parser.go:614", "parser/parser.go:686", "parser/parser.go:723"]}
{"id": "C74", "title": "The printed form of an AST tells the AST", "statement": "String of an AST node does not depend on the iteration order of maps, and two nodes with the same printed form are the same tree: the same names in any order, the same lists, leaves with the same text and offset, data with the same text; so indentation, line breaks and the choice between one line and many lose nothing. This holds for names without line breaks, spaces, colons, quotes and closing parentheses, and data without separators and brackets. Expected without these conditions: false; the empty name is printed like the name '', and data may look like a tree.", "quantifier": "all pairs of AST nodes, all orders of their maps, and all ways of quoting that are on one line and can be undone", "why_tests_cant": "The tests compare a few printed forms; injectivity is about all pairs of trees.", "anchors": ["ast/node_string.go:13-106", "ast/node.go:153-179"]}
{"id": "C75", "title": "A grammar text means its rules, whatever its layout", "statement": "Parse accepts every text that writes productions and comments (references, strings, regular expressions, back references, externals, look-aheads, groups, names, repetitions, lists, choices and stacks as README.md describes them), with white space anywhere between tokens and comments between productions: the AST says exactly the productions that are written, in order. When Compile accepts the text, the grammar it builds is the one these productions denote, with its cut points. Two texts that write the same productions give the same grammar.", "quantifier": "all texts of the grammar language without macros, imports and nested grammars, all layouts and comments, all regexp engines that find the tokens of wbnf as regular expressions do, all streams of distinct random numbers and all amounts of fuel", "why_tests_cant": "The tests parse a few dozen grammar texts, each in one layout; the property is about every text and every layout.", "anchors": ["wbnf/wbnfgrammar.go:10-40", "wbnf/wbnfgrammar.go:1449-1456", "wbnf/compile.go:304-348", "parser/parser.go:86-140", "README.md:9-130"]}
{"id": "C76", "title": "Block comments are ignored", "statement": "A grammar text may have comments between slash-star and star-slash anywhere between productions (README.md:14-15) and means what it means without them. Expected to hold; false: the regular expression for comments has no repetition, so a text that begins with such a comment is a syntax error, unless the comment has exactly one character, or stars and exactly one more character; these few are ignored as said.", "quantifier": "all comments at the beginning of a text, all texts after them, all engines, random numbers and amounts of fuel", "why_tests_cant": "No test has a comment between slash-star and star-slash, and a single test could only show one comment.", "anchors": ["wbnf/wbnfgrammar.go:12", "README.md:14-15"]}
{"id": "C77", "title": "A printed grammar can be read back", "statement": "What Grammar.String prints is a grammar text, and Compile reads it as the grammar that was printed (the order of rules aside), so that different grammars print differently. Expected to hold; true for grammars of more than one rule made of references, strings of printable ASCII, back references with default, sequences, look-aheads, names, single repetitions and lists, and choices and stacks outside sequences, names and repetitions. False otherwise: a grammar of one rule is printed without its semicolon and is never read; cut points (which Compile puts into almost every grammar), regular expressions, back references without default, bounds {1,1} and control characters print in ways the grammar language does not know; choices in sequences or names lose their parentheses, repetitions of repetitions change places and externals turn into rules.", "quantifier": "all grammars of the described shapes, all ways to quote strings that parseString undoes, all engines, random numbers and amounts of fuel; witnesses for the rest", "why_tests_cant": "The tests never parse what String prints, and a test would show single grammars; the property needs every nesting of terms.", "anchors": ["parser/terms.go:107-115", "parser/terms.go:173-263", "wbnf/compile.go:22-90", "wbnf/compile.go:304-348"]}
{"id": "C78", "title": "Every production ends with a semicolon", "statement": "A grammar text whose last production has no semicolon is rejected with a parse error, whatever productions and comments stand before it; with a semicolon at its end it is a text of the grammar language.", "quantifier": "all texts of productions and comments in all layouts, all engines, random numbers and amounts of fuel", "why_tests_cant": "A test can try single texts; that no prefix of a text without its last semicolon is silently taken for the whole needs all of them.", "anchors": ["wbnf/wbnfgrammar.go:10-40", "parser/parser.go:86-140"]}
{"id": "C79", "title": "Imports name files relative to the importing file", "statement": "With the resolver of the command (makeResolver), an import names the file at its path relative to the file it is in. Expected to hold; true for imports in the grammar file itself with a relative path, and the cleaned paths by which loaded files are remembered lead to the same place and are equal for paths that lead to the same places from everywhere; joined paths lead below each other, empty ones left out. False for imports in imported files: the importing file is taken for a directory below the directory of the grammar file, so that a file further down is never found, when the grammar file is given without directory and no file lies below another; only going up first (../name) works, and with a directory even this leads elsewhere. Paths from the root are taken for paths below the directory.", "quantifier": "all paths, working directories, grammar files, file systems without files below files, grammar texts and fuels; witnesses for the false parts", "why_tests_cant": "The tests use their own resolvers and one level of imports; the property is about all paths and nestings.", "anchors": ["cmd/test.go:71-84", "wbnf/compile.go:304-357"]}
{"id": "C80", "title": "Names for Go", "statement": "DropCaps makes every capital directly after a capital of an ASCII name small and keeps all else in place; its result never has two capitals together, and names without such capitals are kept. GoTypeName applied to the name of a type gives this name. Expected also: any name without runs of capitals is kept, and type names are exported and belong to one rule; false for names that are not ASCII, and for names that end with Node.", "quantifier": "all names, all camel casings", "why_tests_cant": "The tests try a table of names; a position-wise claim needs all of them.", "anchors": ["cmd/codegen/types.go:15-50"]}
{"id": "C81", "title": "Compiling leaves the grammar alone", "statement": "Grammar.Compile, documented to work on a copy, leaves the grammar it is called on as it was, and calling it again gives parsers that parse the same. The second part holds for grammars whose .wrapRE rules are regexps or choices of literals and regexps and are not referred to. The first is false: a nested grammar without .wrapRE and without stacks gets the .wrapRE it stands under written into its map, and keeps it when it is then used in another grammar. It is true exactly when there is no such nested grammar; only .wrapRE rules of nested grammars ever change, and a second compilation changes nothing more.", "quantifier": "all grammars that compile, all inputs, all regexp engines", "why_tests_cant": "The tests compile each grammar once and look at the parse trees only; what was written into shared maps shows in later uses of the same terms.", "anchors": ["parser/parser.go:96-136", "parser/parser.go:743-755"]}
{"id": "C82", "title": "Printed parse trees", "statement": "Node.Format with %q tells the tree: two trees printed the same have the same tags, extras and leaf texts, whatever the positions and sources of the leaves. This holds for all trees whose tags have none of [ ] , { \" and the mark before extras, so for all trees parsed with grammars whose names have none of these. With %v and %s (Node.String) it holds if moreover the leaf texts are not empty and have none of [ ] , { and the byte 226. Trees that look alike are printed alike. Expected also: the printed form that the project's own tests compare, %v, tells trees of one grammar apart; false for texts with commas and for empty texts. Node.Normalize gives an equal tree.", "quantifier": "all trees, all pairs of parses, all ways of quoting that can be told where they end", "why_tests_cant": "The tests compare %v of a few trees with fixed strings; that no other tree prints the same is a claim about all pairs of trees.", "anchors": ["parser/parsernodes.go:32-45", "parser/parsernodes.go:67-85", "parser/scanner.go:63-69", "parser/terms.go:87-115", "wbnf/grammar_test.go:150-155"]}
{"id": "C83", "title": "Errors print what was expected and where", "statement": "The Error method of every error a parse returns gives a text that names the rules that failed, what was expected and the text found in its place. A parse has a report exactly if it returns an error. The report prints exactly if none of its errors is its own cause, so for all grammars whose repetitions may all be empty; the printed text has a line ending with each failed rule and its message and with each line of each expectation. Each error of a report has another error as its cause, or names the token looked for and not found (a regular expression, or a literal that has it), or is one of a few others; a plain error of a rule that is a choice has one error for each option, that of a sequence the error of one part. Expected to hold for all errors; false: the error of a repetition that found too little returns itself as its cause (the closure returns the result variable out), so that printing it never ends. This is so for every plain error of a rule that is a repetition, as is the first rule of wbnf's own grammar: the error for an empty grammar text never prints. The actual text shown starts where the expected one was looked for or before, never after; that it is what was found there is false for sequences within sequences, which put the input back before the text is made.", "quantifier": "all grammars, texts, engines, fuels, ways to show contexts, calls and foreign errors; witnesses for the false parts", "why_tests_cant": "Tests that expect a parse to fail check that there is an error; that printing ends, and what a report leaves out, are claims about all grammars and texts.", "anchors": ["parser/error.go:43-95", "parser/parser.go:187-194", "parser/parser.go:238-244", "parser/parser.go:352-356", "parser/parser.go:570-588", "parser/parser.go:617-641"]}
{"id": "C84", "title": "Validation messages say what is wrong and where", "statement": "The text of the error that Compile gives for a grammar that fails validation lists exactly its faults: for each identifier that is no rule, regular expression that does not compile, name that clashes with a rule or is used twice in a term, macro argument that clashes and call of something that is no macro, a message that quotes the token and gives its offset in the text; for each impossible quantifier and each call with the wrong number of arguments one that gives the numbers; for rules defined again their names in order, and nothing else; and one that lists the routes of the check for left recursion. Expected also: each route leads through rules that can start with the next one, and each message tells the place. Both are false: findPaths appends to slices that share arrays, so that later names overwrite those of routes found before (e -> f | g; f -> a; with a > b > c > d > e before it is reported as ... e > g > a); messages about quantifiers and argument counts give no place. If every append copied, each route would end with a cycle.", "quantifier": "all trees of grammar texts, engines, texts of regexp errors, orders of maps and growths of slices (for the routes: growth that always copies); names without %", "why_tests_cant": "The tests compare the kinds of the errors of a few texts and never their messages; that each message quotes the right token for every grammar is a claim about all trees, and routes go wrong only at certain lengths of slices and orders of maps.", "anchors": ["wbnf/validation.go:36-42", "wbnf/validation.go:80-121", "wbnf/validation.go:123-236", "wbnf/recursion.go:42-75"]}
{"id": "C85", "title": "The commands tell whether they succeeded", "statement": "wbnf test exits with code 0 exactly if the input (the file named, or standard input for - or no name) is a text of the start rule of the grammar file: for grammars in which one byte decides, without left recursion, whose trees can be turned into ASTs, it always ends and its code is 0 exactly if the grammar text, read as a PEG, matches the whole input. Whatever the grammar, on success exactly one AST is shown, which reads the leaves of a tree for the whole input, and their texts are the input if the grammar has neither look-ahead nor groups in regular expressions; when something is shown and the code is not 0, it is the AST of a proper part of the input. Without a grammar file the code is 0 exactly if the input is a grammar without faults that compiles, and nothing is shown otherwise. Both commands look for the files that a grammar file imports beside it. wbnf gen exits with 0 exactly if the grammar builds and compiles, its types can be made and the code renders; it then prints or writes just that code, and otherwise nothing. Expected also: the code is 0 for every text of the grammar; a grammar that does not parse gets a message; wbnf gen exits with 0 only if the code was written and its start rule exists. These are false: lists such as e -> n:>'+' parse and then panic in the conversion; printing the error of an empty grammar file never ends; gen ignores errors of WriteFile and does not look up the start rule, so that the code names a type it does not declare.", "quantifier": "all grammar files, inputs, flags, engines and worlds of files", "why_tests_cant": "The commands are not tested at all; that the exit code is right is a claim about every grammar and input.", "anchors": ["cmd/test.go:86-164", "cmd/gen.go:54-88", "cmd/main.go:18-33"]}
{"id": "C86", "title": "Comparisons of parse trees tell the differences", "statement": "AssertEqualNodes returns true exactly if the two nodes are equal in tags, extras, leaves (with their sources) and children, and if so it reports nothing to the test; every failure that it reports is a difference at the path it names: other tags, extras, numbers of children, types or leaves, or a child that the other node lacks. The report of NodeDiff lists exactly the tags, extras and numbers of children that differ between nodes at the same place, with the tags and indices on the way there, and is empty exactly if Equal holds. Expected also: a tree is always equal to itself. This is false: trees of lists that start or end with a separator contain the value Empty, which AssertEqualNodes does not know and always fails on.", "quantifier": "all pairs of nodes and orders of maps (for the report: nodes without attached ASTs, where each node of the first faces a node)", "why_tests_cant": "These functions are the tools of the tests; a tool that overlooks a difference or points at a wrong place goes unnoticed unless all pairs of trees are considered.", "anchors": ["parser/testutil.go:9-53", "parser/diff/nodes.go:18-55", "parser/diff/nodes.go:57-82"]}
{"id": "C87", "title": "The generated types are Go that does what the getters promise", "statement": "The text that wbnf gen writes for the types of a grammar is Go source with one struct type per type of the grammar, marked as walkable, and one method per getter, in order. Run on any node, each method returns what the getter promises (the text of the token, the node in its type, nil, all of them in order, the number of the choice), and panics exactly where the promise does. For wbnf's own grammar the text declares what the shipped source declares. Expected also: this holds for every accepted grammar. This is false: a rule may be called _1, and its type name 1Node is not Go.", "quantifier": "all grammars whose types can be made, with Go names made of letters, digits and underscores that do not start with a digit, and all nodes", "why_tests_cant": "Tests compare the generated source of a few grammars with stored copies; that the source means the same as the promised getters for every set of children and names, on every node, is beyond examples.", "anchors": ["cmd/codegen/types.go:146-332", "cmd/codegen/types.go:334-372", "cmd/codegen/idents.go:15-17", "wbnf/wbnfgrammar.go:132-696"]}
{"id": "C88", "title": "The generated types compile", "statement": "The Go declarations in the text that wbnf gen writes for the types of a grammar are accepted by Go (every expression has the type asked for, types that are named are declared, variables are used, methods end with a return, and no type or method is declared twice) exactly if every type that a getter returns is declared and no type or method of a type is written twice. So they are for settled grammars whose names stay different in Go, and for the shipped source. Expected also: they compile for every accepted grammar. This is false: a named reference to a rule b_c returns a type BCNode that is not declared, and a rule named token gives a second OneToken.", "quantifier": "all grammars whose types can be made, with Go names made of letters, digits and underscores that do not start with a digit", "why_tests_cant": "Tests compile the generated source of the few grammars that are checked in; whether that of another grammar compiles shows only when a user tries.", "anchors": ["cmd/codegen/types.go:146-332", "cmd/codegen/types.go:334-372", "cmd/codegen/typebuilder.go:111-212", "wbnf/wbnfgrammar.go:132-696"]}
{"id": "C89", "title": "The generated walk functions walk", "statement": "The text that wbnf gen writes for walking is Go source with one walk function for each type that has children, and each of them does one level of a walk, whatever the callbacks, getters and other walk functions are: it calls the enter callback if there is one and leaves the node if that asks to exit it or to abort; then for each reference in order it takes the children from the getter (all of them, or one that may be nil) and walks each, or only enters it if its type has no children, leaving in the same way; then it calls the exit callback and returns its stopper only if that aborts. The functions shipped in wbnfgrammar.go are those of wbnf's own grammar, and with its getters they do what the model of the walker does.", "quantifier": "all grammars whose types can be made, with Go names made of letters, digits and underscores that do not start with a digit; all callbacks with state, nodes, getters and walk functions of children", "why_tests_cant": "Tests walk a few trees with a few callbacks; a template that forgets a stopper, shadows a variable or swaps branches for some combination of getter and type shows only with the right callbacks on the right node.", "anchors": ["cmd/codegen/walkerinterface.go:39-103", "wbnf/wbnfgrammar.go:818-1443"]}
{"id": "C90", "title": "The generated Walk sends each node to the walk function of its type", "statement": "The text that wbnf gen writes for walking is Go source with a struct WalkerOps that has an enter and an exit callback for every type of the grammar, a method Walk and the walk functions. Walk gives a node of a type with children to the walk function of the type and returns what that returns, gives a node of another type of the grammar to its enter callback if there is one and returns its stopper, and does nothing with nodes of other types. No type has two cases, and the walk functions that Walk calls are exactly those that are written. The walker shipped in wbnfgrammar.go is that of wbnf's own grammar.", "quantifier": "all grammars whose types can be made, with Go names made of letters, digits and underscores that do not start with a digit; all callbacks with state, walk functions and nodes", "why_tests_cant": "Tests walk trees of the grammars that are checked in; a missing or doubled case, or one that skips the walk function, shows only for the type it concerns.", "anchors": ["cmd/codegen/walkerinterface.go:14-47", "wbnf/wbnfgrammar.go:698-1443"]}
{"id": "C91", "title": "The list of constants holds the names of the grammar", "statement": "The text of IdentsWriter for a grammar has one line for each name of a rule and each name of a named term except @, at any depth, each once and in the order of the names in quotes, and no other lines. Expected also: the text declares these names as constants in Go. This is false for every grammar with a name: the names to declare are in quotes, and Go has no such declaration.", "quantifier": "all syntax trees of grammars for which the names can be read, of any depth", "why_tests_cant": "Nothing tests the writer, and its use in the generator is commented out; a few examples would not show that no grammar at all gives text that Go accepts, nor that no name is lost or doubled.", "anchors": ["cmd/codegen/idents.go:15-46", "cmd/gen.go:67", "wbnf/wbnfgrammar.go:741-1443"]}
