# Formal model of awalterschulze/gographviz in Coq 8.16.1

Everything is under `rocq/theories` (logical name `Verif`). The code in `/repo` is read as text only; nothing of it is run.
`properties.jsonl` states the properties in English, `MANIFEST.json` (written by `tools/manifest.py`) says which theorems prove which
property, `seeded/LOG.jsonl` records the tests of the theorems against wrong programs.

## Layers of the model

| file | models |
|---|---|
| `Base.v` | Go strings (`gostr := list ascii`, i.e. byte strings), byte order, `strings.HasPrefix/TrimSpace/TrimSuffix/Split/Replace/Join`, `utf8.DecodeRune/DecodeLastRune`, `unicode.IsSpace`, `sort.Strings`, `%d` |
| `LexTables.v` (generated) | `internal/lexer/transitiontable.go`, `acttab.go` |
| `ParseTables.v` (generated) | `internal/parser/actiontable.go`, `gototable.go` (gzip+gob decoded by `tools/decode_tables.py`), `productionstable.go` |
| `TokNames.v` (generated) | `internal/token/token.go: TokMap`, the canRecover column of `actiontable.go` |
| `AttrNames.v` (generated) | `validAttrs` of `attr.go` |
| `Ast.v` | `ast/ast.go`: types, constructors, `String`/`indentString`, `MakeNodeID`, `GetID`, `GetPort`, `IsNode` |
| `Lexer.v` | `internal/lexer/lexer.go: Scan`, `internal/token/token.go: Token, Pos` |
| `Parser.v` | `internal/parser/parser.go: Parse, newError`, `main.go: ParseBytes`, reduce functions of `productionstable.go` with the constructors of `ast/ast.go` |
| `Cost.v` | `Scan` and `Parse` again, counting calls and rounds; proved to return the same |
| `RecParser.v` | the same driver with `Error, popNonRecoveryStates, firstRecoveryState` and with errors of the reduce functions; proved to behave as `Parser.v` (`RecProofs.v`) |
| `ErrText.v` | `internal/errors/errors.go: Error.Error, DescribeExpected, DescribeToken`, `strconv.Quote` |
| `Source.v` | `internal/parser/main.go: Parse(io.Reader), ParseFile`, `internal/lexer/lexer.go: NewLexerFile, Reset` with all fields of the lexer, `internal/parser/parser.go: Reset` and a parser that is used again, the file name in `errors.go: Error.Error` |
| `RawTree.v`, `RawAnalyse.v`, `RawMake.v` | `ast/ast.go` (String, Walk) and `analyse.go` again, on trees in which any pointer or interface may be nil; the exported constructors of `ast/ast.go` with arguments of any type |
| `TreeMem.v` | the constructors of `ast/ast.go` and `Parser.Parse` again, with structs by pointer and lists as slices of arrays that `append` may write to; programs that assign to, append to and combine parsed trees |
| `Rand.v` | `ast/ast.go: r, randLock, randInt63` under any interleaving of goroutines |
| `Conc.v` | goroutines that run `Parser.Parse` round by round and share `r` and `randLock` |
| `Maps.v` | Go maps and their iteration order; `attr.go: NewAttr`, `attrs.go` |
| `AttrMap.v` | `ast/ast.go: PutMap, GetMap` |
| `Graph.v` | `graph.go nodes.go edges.go relations.go subgraphs.go` |
| `Rename.v` | assignments to `Node.Name` and `SubGraph.Name` through a pointer |
| `Ends.v` | assignments to `Edge.Src` and `Edge.Dst` through a pointer |
| `Slices.v` | `Scan`, `Parser.Parse`, `Parse`, `ParseString`, `Read` again, with the literals of tokens as slices of buffers in memory; programs that store into their buffers and keep results |
| `HeapEdit.v` | assignments of a user through pointers to the graph, its nodes, edges and subgraphs (also removed ones), on the heap of `HeapGraph.v` |
| `HeapAlias.v` | the same with attribute maps assigned from one to another, from the caller and to the caller |
| `Direct.v` | the same methods of `nodes.go edges.go relations.go subgraphs.go attrs.go`, called by a user on the containers of a graph, and his assignments to attributes and to fields of edges; histories that mix them with the methods of `Graph` (`built`) |
| `Zero.v` | `graph.go nodes.go edges.go subgraphs.go relations.go attrs.go write.go` again, with maps and containers that may be nil, and panics that leave what was done before |
| `Holes.v` | the same methods and `write.go`, with nil pointers inside `Nodes.Lookup`, `Nodes.Nodes`, `Edges.Edges`, `SubGraphs.SubGraphs` |
| `Analyse.v` | `analyse.go catch.go`, generic in the `Interface`; `gographviz.go: Read` |
| `Walk.v` | `ast/ast.go`: the `Walk` methods, generic in the `Visitor` (its state and its `Visit`) |
| `WalkAnalyse.v` | the visitors of `analyse.go` as objects, run by `Walk.v`; proved equal to `Analyse.v` |
| `Write.v` | `write.go`, `edges.go: Sorted, Less` |
| `Escape.v` | `escape.go`, `text/template.HTMLEscapeString` |
| `HeapGraph.v` | the code of `Graph.v` again, with attribute maps, nodes, edges, subgraphs by reference and backing arrays of the slices; histories in which the caller makes and changes maps |
| `HeapEscape.v` | `escape.go: escAttrs` and the methods of `Escape`, with maps by reference |
| `HeapAnalyse.v` | `analyse.go` with maps by reference, for any `Interface` that may keep or change them |
| `HeapWrite.v` | `write.go`, the `Sorted` methods, `edgeSorter`, `IsNode`, `IsSubGraph` as programs that read, write and allocate single objects of the heap of `HeapGraph.v`; goroutines that interleave step by step |

Specifications, which use only data types of the model: `LexSpec.v` (regular expressions of dot.bnf, what cutting text into tokens
means), `SpecGrammar.v` (the grammar of dot.bnf with its actions), `SpecAst.v` (printable ASTs, what printing forgets), `SpecGraph.v`, `SpecDirect.v`, `SpecHeapEdit.v`, `SpecSharp.v` (which IDs of an AST show a space where String trims), `SpecBody.v` (what a text says between braces), `SpecLines.v` (a line of text for a call), `SpecSame.v` (what graphs with the same text have in common), `SpecRaw.v` (which trees have a nil, ASTs as hand-made trees, walks through them), `SpecHoles.v` (pointers in place of nils, which calls touch a nil), `SpecMake.v` (types of the parameters of constructors, what can be made), `SpecTree.v` (an AST as a tree, the tree that a value in memory shows, programs on trees as values), `SpecSource.v` (readers that hand out a text), `SpecCluster.v` (what the text shows when clusters end edges), `SpecAlias.v` (who shares an attribute map with whom, which map an event changes), `SpecSlices.v` (the bytes in the place of a token), `SpecRename.v` (names replaced in a tree), `SpecTop.v` (the top level, the first error), `SpecZero.v` (nil read as empty, which calls panic), `SpecLabel.v`, `SpecDraw.v` (names replaced in calls, graphs and trees; other random draws), `SpecEscRead.v` (strings that escaping leaves alone), `SpecRewrite.v` (the exchanges of statements), `SpecShared.v` (what is seen of each of several graphs, what they share), `SpecPool.v` (the same on one heap: which graph has which node and edge), `SpecNumber.v` (decimal numbers), `SpecEnds.v` (indices made anew), `SpecRemove.v` (which subgraphs are reached without some edges, trees, removals that name the parent), `SpecEdit.v` (graphs that agree in all but what the main graph contains)
(abstract graph and what each call may do to it), `SpecAnalyse.v` (the calls an AST stands for, scoping), `SpecWrite.v` (edge order,
what is written, acyclicity), `SpecEscape.v`, `SpecErr.v` (how expected tokens are listed, reading a quoted string back), `SpecWalk.v` (an AST as a tree of elements, the tour of a visitor), `SpecMerge.v` (one graph laid over another), `SpecLook.v` (data races, sorting by Less and Swap, what a call returns when it runs alone), `SpecHeap.v` (what is seen of a graph on the heap, who owns a map, histories by value), `SpecHeapAnalyse.v` (careful implementations of Interface), `SpecSep.v` (what may be left out of a text), `SpecImage.v` (which abstract graphs can be built), `SpecCount.v` (occurrences of statements in a tree), `SpecOrder.v` (what calls say, whatever their order), `SpecUndo.v` (calls that fill a new subgraph), `SpecPrefix.v` (texts that begin or end in ASCII), `SpecRound.v` (which graphs survive the round trip and what "same graph" means).

Proofs: the parser is `LRCert.v` (generated, untrusted certificate), `ParserDefs/Sound/Complete/Viable/Errors.v`, `GrammarProofs.v`,
`ParseFacts.v`, `AnonProofs.v`, `PrefixProofs.v` (longer texts); the lexer `LexDfa.v` (derivatives), `LexerProofs.v`, `Tokens.v`, `LexFacts.v`, `LexPrint.v`; printing
`TrimFacts.v`, `AstProofs.v`, `AstFacts.v`; the graph `MapFacts.v`, `GraphProofs.v`; reading `AnalyseProofs.v`, `ReadProofs.v`,
`ReadFacts.v`, `NormCalls.v`; writing `EdgeOrder.v`, `WriteProofs.v`, `WriteFacts.v`, `WriteFacts2.v`; escaping `EscapeProofs.v`,
`EscapeFacts.v`, `EscapeInj.v`; direct calls `DirectProofs.v`, `HeapEditProofs.v`; readers and used lexers `SourceProofs.v`; parsed trees in memory `TreeProofs.v`, `TreeRun.v`; trees made by hand `RawProofs.v`, `RawRun.v`, `RawStop.v`, `MakeProofs.v`; texts put together `BodyProofs.v`; exactly which ASTs survive printing `SharpProofs.v`, `SharpNeed.v`; clusters at edges `ClusterText.v`; shared attribute maps `AliasImg.v`, `AliasCalls.v`, `AliasProofs.v`, `AliasSteps.v`, `AliasAll.v`; buffers `SlicesProofs.v`; renaming `RenameProofs.v`, `RenameMany.v`; the top level `TopProofs.v`, `TopProofs2.v`; nil `ZeroProofs.v` to `ZeroProofs5.v`, `ZeroWrite.v`; nil inside containers `HolesProofs.v`, `HolesPanics.v`, `HolesWrite.v`; other names `LabelProofs.v`, `LabelProofs2.v`, `LabelAnalyse.v`, `LabelWrite.v`, `LabelRead.v`; reading into an Escape `EscReadProofs.v` (model: `EscapeAnalyse.v`); exchanging statements `RewriteProofs.v`; several graphs `SharedProofs.v` (model: `Shared.v`, structs with references to containers); graphs on one heap `PoolFrame.v`, `PoolIndex.v`, `PoolProofs.v`, `PoolSteps.v`, `PoolEvents.v`, `PoolEvents2.v`, `PoolAlone.v`, `PoolPtrs.v`, `PoolBuilt.v` (model: `Pool.v`, the graphs of `HeapGraph.v` on one heap); decimal numbers `NumberProofs.v`; which graphs can be built `ImageProofs.v`; how often things are written `CountProofs.v`; order of calls `OrderProofs.v`; laying a graph over another `MergeProofs.v`; concurrency `ConcProofs.v`; round trip `RoundCalls.v`, `RoundCalls2.v`, `RoundProofs.v`, `RoundWrite.v`, `RoundFinal.v`, `TidyCheck.v`, `Prune.v` (graphs with unwritten subgraphs and odd ports); sharing `HeapProofs.v`, `HeapSnap.v`, `HeapRange.v`, `HeapEscapeProofs.v`, `HeapAnalyseProofs.v`; looking calls on the heap `LookProofs.v` (program logic with objects of one's own), `LookWrite.v`, `LookSort.v`.

The property theorems are in `Props*.v`, named after the property, each followed by `Print Assumptions` and accompanied by examples
(`*_example`) that meet its hypotheses.

## Modelling decisions

* Panics are values (`Panic`, or `None` where only panics can happen); loops without an evident bound take fuel and return
  `OutOfFuel`. The theorems exclude both explicitly, or (C34) say exactly when the recursion of the writer is unbounded.
* Go map iteration order is an oracle: every function that ranges over a map takes the order from it; `fair` oracles give an
  arbitrary permutation of the map's entries, a new one at each loop.
* `sort.Sort` on edges is unstable and its algorithm is not modelled: an arbitrary function that returns a sorted permutation
  (`sorts`). That is what the documentation of sort.Sort promises if Less is a strict weak order, which is C31. In
  `HeapWrite.v` it is an arbitrary finite program of calls of Less and Swap (a decision tree for each length); C67_sort relates the two.
* `math/rand` is an arbitrary stream of naturals, consumed by position (`Rand.v`: an arbitrary generator with a state).
* `strconv.IsPrint` above U+007F is an arbitrary predicate, `%v` of AST values in (unreachable) errors an arbitrary function.
* `unicode.IsLetter`/`IsDigit` above U+007F are arbitrary predicates; `unicode.IsSpace` is the concrete finite set.
* Node objects are shared between `Lookup` and `Nodes`: modelled by pointers into a heap. Edges, subgraphs and
  attribute maps are values in `Graph.v`; `HeapGraph.v` has them by reference, and C52 shows that this makes no difference. In
  `HeapGraph.v` the index maps (`Lookup`, `SrcToDsts`, `DstToSrcs`, `SubGraphs`, those of `Relations`) and the inner slices of
  `SrcToDsts`/`DstToSrcs` stay values: each belongs to one object that replaces it as a whole. How `append` grows an array is an
  arbitrary function.
* Error values are their message text; parse errors are the record `parse_error` (token, expected token types, stack top).
* In `HeapWrite.v` a step reads or writes one whole object (a map, an array, a struct; the Graph with its containers and index maps is
  one object), which makes more accesses conflict than in Go, not fewer. The AST, strings and the maps and slices that only one call
  can refer to (writtenLocations, the slices of names) are values. Calls that change the graph are not interleaved with anything.
* That the caller does not modify a map while the call runs (in another goroutine) is assumed; between calls it may (C52).

## Plan per property

C01 weights on grammar symbols decrease at each reduce: linear bound; stack invariant (path in the LR automaton with well-typed values) rules panics out. C02 same invariant carrying derivation trees. C03 LR(1) item-set certificate checked by computation + simulation proof. C04 regular-expression derivatives, certificate checked by computation. C05, C06 induction over `Scan`. C07 from C03 and prefix determinism. C08 parser sees only type and literal. C09 printer produces text whose scan is the token yield of the AST, then C03; the condition on spaces is exact, by counting bytes from 128 up: printing never adds one and loses one at every exposed space, parsing puts no more of them into the AST than the text has; C10 from the same count. C22, part of C34, C37, C41: witnesses by computation, and theorems about the whole class where there is one. C11 from the semantic actions. C12 small-step interleaving semantics of `randInt63`. C57 invariant per goroutine: after m rounds with the draws so far its loop is where the sequential run is; the projection to the random source is a run of `Rand.v`. C13-C16, C23 invariants/refinement by induction over histories. C17-C21 one-step specifications with frame. C24 generic in the interface's state and step function. C25-C29 induction over AST. C30-C34 writer proofs: the writer is related to an inductive specification of what is written. C35, C36: the calls that the text of a tidy graph stands for (RoundCalls*), the graph they build (RoundProofs), the text parses back (AstProofs). C46 from C36 and facts about graphs that were read. C50, and C35/C36/C46 for graphs that are not tidy: the text is that of the graph without its unwritten subgraphs and with clipped ports (Prune), which is tidy if the graph is plain. C51: legibility is an invariant of the calls. C52: refinement, the heap graph is related to the graph by value by following references; the invariant says that every map has one owner. C53 from the fact that arrays up to a slice's length are written only by removals. C54 induction over the rounds of the loop. C55 the same refinement, generic in the implementation; induction over the AST with a frame condition on the maps of outer visitors. C47 from C09 and the invariance of the calls under normalisation (NormCalls). C38-C42 escape: case analysis of `esc` against the regular expressions. C56 the escapes of single bytes are a prefix code (checked for all pairs of bytes), so escaping is injective up to NUL. C58 invariants and one-step specifications as for C13-C23, relative to a set of attribute names. C59 derivations are closed under leaving separators out, and C02/C03/unambiguity. C60 invariants one way; the other way by induction over the finite maps of the abstract graph a list of calls is constructed, its effect read off the specification of the calls. C61 each round of Scan consumes what it reads, as every live state of the automaton either accepts, invalidates or ignores; C01 bounds the rounds of Parse. C62 double counting over the tree of a subgraph; a tower of diamonds. C43-C45 maps and sorting. C49 from C06, C07 and an inverse of quoting. C48 induction over the AST: `Walk` against the tour of a tree of elements. C63 what a list of calls says is a set of facts and a multiset of edges; by induction the content after the calls is determined by it; for texts, the calls of permuted statements say the same. C64 the writer never reads the flags, the calls of a body do not depend on them; SetName: the loops ask only which subgraphs are children of the name. C65 from the one-step specifications: invariant that the view is the old one plus the block. C66 Scan on a longer text returns the same token unless it looked at the end (induction over the loop, one-rune lookahead from the tables); sentences are balanced, so none continues another; C07 gives the completion. C67 each looking call writes only to objects it has allocated itself (a program logic in which the old heap is read-only), so goroutines do not interfere; by induction over the programs their results are those of `Write.v`; programs are well-founded, so runs end. C68 the effect of a successful call commutes with laying over, call by call; analyses by the calls they stand for (C24); for the parts, the calls that the second part makes twice only name nodes that are there. C69 the invariant of C52 with, for pointers, that edges stand once in the slice and that the index maps hold the pointers in slice order; an edit changes one cell, so one place by value. C70 simulation: the parser on slices computes what the one on copies does (a reduce function that hands a token on hands on the slice); stores keep lengths and other buffers; quoting is injective (C49), hence the exact condition. C71 simulation of the writer on both graphs: marks correspond under the renaming; only the loops over subgraphs and nodes test marks and look names up; the simulation is for any set of new names, so it covers sequences of assignments (`RenameMany.v`, `PropsRenameMany.v`). C72 no call and no part of the writer reads the indices; removals build them from the slice. C73 the marks that the writer sets are the names that the specification says are shown, so its loop is a map over the list of top-level subgraphs, which is determined by recursion along the order of names (reachability in a finite relation is decidable); errors and trees by induction in both directions. C74 simulation between the code with nil and the code without it, call by call; the conditions for a panic by case analysis; that no nil arises from NewGraph is an invariant of histories. C75 equivariance of the specification of the calls (C23 is exact, so it carries over to the code), of the calls a tree stands for, of the canonical writing function and of the derivations of the grammar, each by induction. C76 the calls on the Escape are the escaped calls (C42) of the sequence that Analyse makes (C24); which strings these calls use is an induction over the tree, and over the derivation for a text. C77 each exchange preserves the defaults, the set of mentioned nodes and what the calls build on every graph in which the nodes mentioned before are present; this is preserved by context, by mutual induction over the relation. C78 each method changes at most the containers its graph refers to, at most by one reference (Edges), and computes on them what `Graph.v` computes; frame and sharing follow; a graph put together from containers of built graphs is built, since each container can be made by direct calls on it alone. C79 an invariant of the heap (maps of objects are distinct, arrays and maps of different graphs are disjoint, only node and edge objects may be common) and a frame for each call: which arrays, maps and objects it may change; what another graph sees is computed from the frame; a graph whose nodes nobody shares is related to its lone run by equality up to addresses. C80 a heap with sharing is the image, under a map of references, of one in which everything has a map of its own and to which C69 applies; each call runs in step on both and changes at most one map that is there, after which the maps that stand for it are changed as well. C81 the calls that reading the written text makes are enumerated as for C50, and what they build is read off; writing again agrees with the first writing on all written subgraphs by induction. C82 induction on the calls of the reader; the tokens of a lexer that starts at another line and column are those of C05 moved (maximal munch does not look at positions), and the driver on tokens that differ in position only makes the same moves. C83 ownership: every value on the parser's stack refers to memory of its own (no address occurs twice in the list of all addresses reached); each production keeps this since it uses each argument once (checked on the table); assignment, append and moving keep it too, so memory can be read as trees. C84 all walks are shown to be one recursion over a tree of elements with holes; a walk without nil visitors reaches every part, so a hole; without holes it is the walk of C48; what can be made: invariant of the calls one way, a program written by recursion over the AST the other way. C85 simulation: a graph with nils against every graph that has something in their place; panics by cases of the first nil in the slice. C86 a scanned text can be cut at a newline (no token has one) and before a last brace; the tokens of parts are joined by C03's grammar. C87 induction over the history: by C86 each line says one statement; the calls this statement stands for (C24) build on the graph as it is what the one call builds, since opening a subgraph or naming a node that is there changes nothing. C88 both texts parse to the same tree, which C81 relates to each graph; the statements of its top level are the lists of C73, which settles which ends of edges are nodes; the other way the canonical writing function is a function of that content and list. C89 what removals take away never adds to what is written (a relation of less between graphs, preserved by the steps of C23), so only children that are gone can be missed; then C33 and C34; trees by induction over the removals; mending by the equations for AddNode and RemoveNode. C90 a relation between the graph and the loaded one that each call preserves; for the text, what only one of the two main graphs contains is a node or covered by an edge or an earlier subgraph of the top level, which calls that add do not change, so the lists of the top level (C73) agree; then C88.

## Trusted base

1. The kernel of Coq 8.16.1 (including `vm_compute`, used for the table checks and for examples) and its standard library. Libraries
   used: std++ (finite maps, lists), and through it ssreflect is loaded. **`Print Assumptions` prints "Closed under the global
   context" for every theorem listed in MANIFEST.json**: no axiom is used, neither of the standard library nor of the model.
   (Loading ssreflect puts the opaque constants of its module `Coq.ssr.ssrunder.Under_rel` (`Under_rel`, `Under_relE`, `Over_rel`,
   `Under_rel_from_rel`, `over_rel`, `over_rel_done`, `under_rel_done`) into the environment; no theorem depends on them.)
2. That the model is the code: each definition cites the lines it transcribes; the transcription was done by hand except for the
   tables. `tools/decode_tables.py`, `tools/gen.py` (tables of lexer and parser, attribute names) are trusted: a wrong decoding would
   make theorems about other tables. (C02-C04 relate the tables to dot.bnf, so that a decoding error would have to preserve the
   language.) `tools/gen_items.py` is not trusted: its output is checked.
3. The Go semantics assumed: strings are byte strings, integers do not overflow (positions, counters), maps and slices behave as
   finite maps and lists (for the slices that `append` extends this is proved: C52 and C53 in graphs, C83 in syntax trees), goroutines are sequentially consistent when they are race-free.
4. Contracts of library code that is not modelled: `sort.Sort`/`sort.Strings` sort; `sync.Mutex` excludes; `fmt`, `strings`, `utf8`,
   `HTMLEscapeString` as written in `Base.v` and `Escape.v`.

## Not modelled

* `action.go` and `stack.String` (debugging), `token.go` conversions and
  `internal/util` (unused), how `ioutil.ReadAll` grows its buffer (`Source.v` has its contract).
* `Elem.String` of `AList`, `Bool` and the like beyond printing.
* Memory exhaustion and stack overflow (C34 is about unbounded recursion, not about stack size).
* Graphs that share containers (`Shared.v`, C78) and at the same time nodes or edges through pointers (`Pool.v`, C79: Nodes.Add, Edges.Add, attributes; the other direct calls and edits are modelled for one graph); subgraphs shared through pointers; attribute maps shared by elements of different graphs (of one graph: `HeapAlias.v`, C80); nil pointers inside the indices `SrcToDsts`, `DstToSrcs` (the package does not read them), containers that are nil and have nils inside at the same time, entries of `Lookup` and of the indices that the user makes by hand. (States with nil or fresh containers are in `Zero.v`, C74.) Assignments to attributes (`a[k] = v`, `delete(a, k)`, `x.Attrs = m`) and to the ports and the direction of an edge are in `Direct.v`, with attribute maps that are not nil and not shared; through pointers in `HeapEdit.v`; `Node.Name` and `SubGraph.Name` in `Rename.v` (any sequence of assignments, to names that are not in use); `Edge.Src` and `Edge.Dst` in `Ends.v`.
