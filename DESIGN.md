# Model of arr-ai/wbnf in Rocq

Source read: `/repo` (Go). Nothing is executed; the model is written by hand from the text,
function by function, and every model definition cites file and lines.

## Conventions

| Go | Model |
|---|---|
| `string` holding text, `S`, `RE` | `list ascii` (bytes) |
| rule names, tags, identifiers | Coq `string` (bytes) |
| `int` | `Z` (offsets) or `nat` (counts); overflow is not modelled |
| slice | `list`; where backing-array sharing is observable (recursion.go) an explicit heap of arrays |
| `map` | association list; a theorem about a map-driven loop quantifies over all orders (permutations) |
| `nil` interface, failed type assertion, index out of range, explicit `panic` | an explicit `Panic` result |
| unbounded recursion or loop | fuel; running out of fuel is a separate result, never a success or an error |
| `regexp` package | a record of functions over pattern text and input text (the engine), with a contract stating what Go documents; a concrete engine written in Gallina is proved to meet the contract, so the contract is not vacuous, and is used to run examples |
| `math/rand` | a stream `nat -> Z`; theorems quantify over streams |
| externals (`ExternalRef`) | a pure function argument |
| `frozen.Map` | association list with replacement |

## Files (`rocq/theories`)

Models (every definition cites file and lines):

| File | Code |
|---|---|
| `Scanner` | parser/scanner.go |
| `Syntax` | the types of parser/terms.go, parser/parsernodes.go, ast/node.go |
| `Engine` | contract for Go's regexp package; `Regex` is a concrete engine meeting it (`RegexProofs`) |
| `Resolve`, `Compile` | parser/resolve.go, the compile half of parser/parser.go, `applyWrap`, `resolveStacks` |
| `Parse` | the run half of parser/parser.go, parser/scope.go, parser/error.go, parser/externals.go |
| `Externals` | `WithExternals` of parser/scope.go, `ParseWithExternals` of parser/terms.go |
| `Unparse` | parser/unparse.go |
| `Diff` | parser/diff |
| `Ast` | ast/counter.go, from_parsernode.go, to_parsernode.go, node.go, `Scanner` of node_string.go |
| `WbnfGrammar`, `WbnfSource` | the grammar of wbnf (wbnfgrammar.go) and its text |
| `WbnfAst`, `Walker` | ast/helpers.go, the generated node types and walker of wbnfgrammar.go |
| `StrLit`, `Build` | wbnf/compile.go up to `NewFromAst` |
| `CutPoints` | wbnf/cutpoints.go |
| `Recursion`, `Validate` | wbnf/recursion.go, wbnf/validation.go |
| `Front` | wbnf/compile.go from `mergeGrammarNodes`, `Parse` of wbnfgrammar.go |
| `Boot` | wbnf/grammar.go |
| `Codegen`, `WbnfCode` | cmd/codegen/grammar.go, and the text of wbnfgrammar.go that it wrote |
| `Getters` | the bodies of the methods that cmd/codegen/types.go writes |
| `GenText` | the text that cmd/codegen/types.go writes for types and getters, before it is formatted |
| `WalkText` | the text that cmd/codegen/walkerinterface.go writes for walking (the struct WalkerOps, its method Walk and the walk functions of types), before it is formatted |
| `Idents` | cmd/codegen/idents.go, whose use in cmd/gen.go is commented out; the set of names is a list without repetitions |
| `Types`, `WbnfTypes` | cmd/codegen/typebuilder.go, pushtype.go, types.go, the walked types of walkerinterface.go (camel-casing is a parameter); the types and getters declared in wbnfgrammar.go |
| `Gotree`, `Treeview` | gotree/gotree.go; the tree view of ast (tree labels, collapsing, ordering of children) |
| `NodeString` | the `String` methods of ast/node_string.go (`%q` is a parameter), `narrow` of ast/node.go |
| `TermString` | the `String` methods of terms and grammars (parser/terms.go:107-115, 173-263); `%q` is a parameter, with strconv.Quote for ASCII as an instance |
| `TreeString` | `Node.Format`, `Node.String`, `Node.Normalize` (parser/parsernodes.go:32-45, 67-85) and `Scanner.Format` (parser/scanner.go:63-69) for the verbs `%v`, `%s`, `%q`; what fmt makes of a string and of an integer for `%q` are parameters |
| `Report` | the errors of a parse with their causes and what they print (parser/error.go, the closures in parser/parser.go); the causes are found by a second run beside `Parse`; `Context`, `strings.TrimSpace`, what the stack of calls and the errors of externals print are parameters |
| `Messages` | the texts of the errors of validation (wbnf/validation.go, wbnf/recursion.go:42-59) beside their kinds in `Validate`; `fmt.Sprintf` with %s, %d and %% only; the text of a regexp error is a parameter |
| `Command` | what the commands test and gen (cmd/test.go:86-164, cmd/gen.go:54-88, cmd/main.go:29-32) show and how they end; files, standard input and the text that gen renders are parameters |
| `NodeCheck` | `AssertEqualNodes` (parser/testutil.go) and `NodeDiff.report` (parser/diff/nodes.go:25-47), with messages as values; `reflect.DeepEqual` on attached ASTs is a parameter |
| `Paths` | the import resolver of the command (cmd/test.go:71-84) with `filepath.Clean`, `Join` and `Dir` for Unix, by their documentation |

The rest: `Base` (bytes, association lists); `*Spec` – specifications that do not use the helpers of
the model; `*Proofs` (and `PegComplete`, `StackCut`, `AstCount`, `AstConvert`, `AstFits`, `AstLists`,
`AstBack`, `AstParse`, `CodegenTop`, `TypesTop`, `TypesRun`, `TypesKeep`, `TypesOnce`, `TypesWalk`, `TreeviewOrder`, `LayoutAst`, `LayoutTop`, `PegText`, `FrontFuel`, `ReportMade`, `ReportLines`, `MessagesText`, `MessagesRoutes`) – lemmas; `*Check`, `Demo`, `AstDemo`, `FrontDemo`, `TreeviewDemo` – checkers and concrete
inputs for the examples; `Prop_*` – the property theorems, each followed by `Print Assumptions`, with
concrete `Example`s beside them.

## Per property plan

| Id | Modelled | How proved |
|---|---|---|
| C01–C07 | Scanner record, `slice` with its out-of-range fallback, all methods | list/`Z` reasoning; spec is a half-open byte range of the source text |
| C08–C09 | compiled parsers, fuelled `parse` returning result, scanner and random counter | induction on fuel |
| C10–C11 | same | induction on fuel with a tree-leaf invariant |
| C12 | declarative derivation relation on terms and spans (`Derives`), no engine notion in it | induction on fuel, compile correctness lemma |
| C13 | relational PEG semantics on terms | both directions; the converse builds fuel from the derivation |
| C14–C17 | quantifier, look-ahead, list and back reference parsers | direct from the step lemmas, list induction |
| C18–C20 | erasure of cut points; random stream injectivity | simulation by induction on fuel |
| C21 | `insertCutPoints` and both semantics | refutation by computation; positive half from C18 and C41 |
| C22–C23 | engine contract | contract unfolding; refutation with the concrete engine |
| C24–C25 | rank condition on grammars | well-founded induction on (remaining input, rank); divergence by induction on fuel |
| C26–C28 | `resolveStacks`, `Compile` | list induction, permutation invariance |
| C29–C35 | ast/ package | induction on trees/ASTs |
| C36–C38 | recursion.go with a heap of arrays and an oracle for map orders | path/cycle combinatorics; refutation by computation |
| C39–C40 | `parseString` byte loop | list induction; case analysis on escapes |
| C41 | cutpoints.go | term induction |
| C42–C44 | unparse.go, diff/ | induction on derivations and trees; refutations by computation |
| C45 | codegen/grammar.go | a separate reader for Go expressions (`GoSpec`: tokens, expressions, values); what is printed is read back, induction on terms; inherited wrappers by simulation (`FillProofs`) |
| C46 | the generated walker, as one function driven by a table | induction on fuel; the table is compared with the grammar of wbnf |
| C47–C49 | regexp literals, bootstrapping | computation and list induction |
| C50–C52, C55 | validation and the builder on the AST of a text | a separate syntax of texts (`TextSpec`), induction on it |
| C53, C56 | macro expansion | expansion order well founded; substitution spec |
| C54 | imports | inductive `contents` relation, well-foundedness of imports |
| C57 | `CutPoint.Resolve` | from C26 |
| C58 | validation | walks with stoppers as tours; one step of the validator adds the faults of a node |
| C59–C64 | the type builder and the walker writer of codegen | walks of the builder as a list of pushed children, counts by term induction; from C12 and C30 for parsed texts |
| C68, C21 for predictive grammars | NewFromAst, insertCutPoints, Compile and Parse together | induction over the cut-free derivation with first and follow sets (`PredictSpec`); a cut point only turns into an abort what was bound to fail or to leave a byte that cannot follow |
| C65–C67 | ast/from_parsernode.go, the generated getters | the parts of a tree as a relation on terms and trees (`PartsSpec`), mutual induction with the conformance of C12/C31 |
| C69 | gotree/gotree.go, slices of `printItems` with a heap of arrays | the drawing by indented blocks (`GotreeSpec`); frame conditions on the heap; reading a drawing back |
| C70–C71 | ast/treeview.go, `Leaf.String`; map order and `sort.Slice` as parameters | multisets of ends by induction on the AST; strictly increasing ranks make the sorted order unique |
| C72–C73 | `WithExternals`, `parseEscape` before every parser | splitting at "()" and induction on the externals; induction on fuel, with the forward lemma of C09 for the parse without opening |
| C74 | `Node.String` | the text without line breaks and indentation is a bracketed form; induction on trees with the text that follows it |
| C75–C76 | the wbnf grammar, `Parse`, FromParserNode, the loader and the builder together, from bytes to grammar | texts as laid out token sequences (`LayoutSpec`); the regular expressions of tokens match exactly these (`LexProofs`); forward derivations by induction on how a term is written (`LayoutProofs`), then soundness and completeness of the parser |
| C77–C78 | `Grammar.String` and all that C75 uses | printed terms are laid out token sequences, by induction on plain terms; AST readings are unique (`ReadsOnce`), so texts are unambiguous; a missing semicolon aborts after the cut of `->` |
| C79 | `Paths`, the loader of C54 | paths are read letter by letter as ways through a tree of names (`PathSpec`, no links); cleaned paths are runs of `..` before names |
| C80 | `DropCaps`, `GoName`, `GoTypeName` of `Types` | position by position (`NameSpec`) |
| C81 | `left_behind` of `Boot` (the writes of `ScopedGrammar.Parser` into shared maps), `Compile` | where nested grammars stand and under which `.wrapRE` is a relation on terms (`WrapSpec`); C81_again also shows that leaving the written `.wrapRE` rules out of the model of `Compile` loses nothing |
| C82 | `Node.Format`, `Scanner.Format`, `Node.Normalize` | texts are split at the characters the form uses for itself; induction on trees with the text that follows; that parsed trees qualify is an induction over derivations (`DerivSpec`) |
| C83 | `Report`, `Gotree` | a closure that returns the result variable it is stored in is a cause of its own (`CSelf`); a scanner shown later is open until the frame that owns it ends (`settle`); reports are spoken of by their parts (`ReportSpec`), printed ones by their lines, as in C69 |
| C84 | `Messages`, `Validate`, `Recursion` | `complaint` (`MessagesSpec`) gives the text of each fault from the labelled tokens of a node; routes are compared with `edge` and `chain` of `RecursionSpec` |
| C85 | `Command`, `Front`, `Parse`, `Ast` | inputs are those of `given` (`CommandSpec`); acceptance is that of `ford` (`FordSpec`) on the grammar read from the text (`TextSpec`), ASTs are compared by `reads` (`AstSpec`) |
| C86 | `NodeCheck`, `Diff` | equal trees are those of `same_tree`, places those of `leads` and `across` (`NodeCheckSpec`); `rightly` and `truly` say when a message is right |
| C87 | `GenText`, `Types`, `Getters` | a reader for the part of Go that is used and what its statements do (`GoText`: tokens, declarations, evaluation), with what a declaration has to be (`GenTextSpec`); texts are read piece by piece with unknown names; `ShippedText` is the source shipped for wbnf's grammar |
| C88 | the same | typing rules for the part of Go that is used (`GoTyping`: types of expressions, declared types, unused variables, missing returns, repeated declarations); each method is typed once, for unknown names; the rest follows from C62 and C63 |
| C89 | `WalkText`, `Types`, `Walker` | a reader for walk functions and what they do with any callbacks, getters and other walk functions (`GoWalk`), against one level of a walk (`WalkTextSpec`); `WalkLevel` joins that with `Walker.walk` for the functions shipped in wbnfgrammar.go (`ShippedWalk`) |
| C90 | the same | the reader goes on to the struct and the type switch (`GoWalk`); fields and cases are read piece by piece with unknown names (`WalkerText`); no type has two cases because types are kept under their Go names |
| C91 | `Idents`, `Walker` | the callbacks are compared with ones that never fail, for which C46 tells the calls; names and groups of constants are described apart (`IdentsSpec`) |

False expectations are kept as properties: the theorem is named `..._refuted` and exhibits a witness,
and a `..._partial` theorem states what does hold. Their MANIFEST status is `partial`.

## Trusted base

* The Coq 8.16.1 kernel (with its virtual machine: `vm_compute` is used for concrete computations).
* `Print Assumptions` says "Closed under the global context" for every theorem listed in
  `MANIFEST.json`: none of them depends on an axiom. The standard library modules that are loaded
  contain, in the module type `Coq.ssr.ssrunder.Under_rel`, seven parameters that a global search
  lists as axioms (`Under_rel`, `Under_rel_from_rel`, `Under_relE`, `Over_rel`, `over_rel`,
  `over_rel_done`, `under_rel_done`); nothing here uses them.
* The hand translation from Go to Gallina; modelled parts are those in the table above.

Assumptions of the theorems, all explicit in the statements: the engine contract (`engine_ok`, met by
the concrete engine), distinctness of the random cut identifiers that a parse draws (`drawn_ok`), and
what Go promises about slices and maps (`runtime_ok`).

Not modelled:

* integer overflow; memory exhaustion and stack overflow (unbounded recursion appears as divergence);
* UTF-8 decoding in the concrete regexp engine (bytes only) – theorems about parsing quantify over engines;
* texts of errors other than those of parses (`Report`) and validation (`Messages`), logs, ast/logging.go, parser/logging.go, cmd/ except the import resolver, the commands of `Command` and the parts of codegen/ in the table (the parsing of the command line; the template
  around types and walkers); `go/format`;
* the file system, `filepath.Join` and `filepath.Clean` (parameters of the model of the loader; for C79 those of `Paths`);
* the scope entries an escape passes to its external (parser/parser.go:143-146).
