{"id": "C01", "title": "Parse is total", "statement": "For every byte string, Parse/ParseString/ParseBytes terminates and returns either an *ast.Graph or an error: the table-driven driver never panics (no failed type assertion, no index out of range, no 'unknown action', no 'Parser did not return an *ast.Graph'), and performs a number of shift/reduce steps linear in the input length. Its error recovery code is never effective and the semantic actions never return an error.", "quantifier": "every byte string (including invalid UTF-8 and NUL bytes) and every random-number stream", "why_tests_cant": "the driver's loop has no syntactic bound and depends on 128x19 table entries; a test exercises a finite set of paths", "anchors": ["gographviz.go:Parse", "gographviz.go:ParseString", "internal/parser/parser.go:Parse", "internal/parser/main.go:ParseBytes", "internal/parser/productionstable.go", "internal/lexer/lexer.go:Scan"]}
{"id": "C02", "title": "Parse accepts only DOT (soundness)", "statement": "If Parse(buf) returns a graph, then the token sequence of buf is a sentence of the DOT grammar of dot.bnf and the returned AST is exactly the one the grammar's semantic actions assign to that sentence.", "quantifier": "every byte string", "why_tests_cant": "ranges over all inputs and all table paths", "anchors": ["dot.bnf", "internal/parser/parser.go:Parse", "internal/parser/actiontable.go", "internal/parser/gototable.go", "internal/parser/productionstable.go"]}
{"id": "C03", "title": "Parse accepts all of DOT (completeness, unambiguity)", "statement": "If the token sequence of buf is a sentence of the grammar of dot.bnf with AST g, then Parse(buf) returns g; hence every sentence has exactly one AST.", "quantifier": "every byte string and every derivation of the grammar", "why_tests_cant": "completeness quantifies over the infinite set of derivations", "anchors": ["dot.bnf", "internal/parser/parser.go:Parse", "internal/parser/actiontable.go", "internal/parser/gototable.go"]}
{"id": "C04", "title": "Token classes are those of dot.bnf", "statement": "Scanning a lexeme yields type id / keyword / punctuation exactly as the regular expressions of dot.bnf say: identifiers, numerals, quoted strings, HTML strings, the listed spellings of the keywords, and a keyword spelling is never an id. The one deviation of the generated lexer: an HTML string that contains an empty tag <> is not an id.", "quantifier": "every sequence of runes", "why_tests_cant": "the 141-state DFA has infinitely many runs", "anchors": ["dot.bnf", "internal/lexer/transitiontable.go:TransTab", "internal/lexer/acttab.go:ActTab", "internal/lexer/lexer.go:Scan"]}
{"id": "C05", "title": "Scanning is lossless", "statement": "Successive Scan calls cut the input into consecutive pieces: each token's literal is the slice of the input at its offset, the tokens are in input order and disjoint, and what lies between two tokens (and after the last) is only white space and comments.", "quantifier": "every byte string", "why_tests_cant": "for all inputs", "anchors": ["internal/lexer/lexer.go:Scan"]}
{"id": "C06", "title": "Token positions", "statement": "For every token before the first lexical error, Pos.Offset is the byte offset of its literal, Pos.Line is one plus the number of newlines before it and Pos.Column follows the documented rule (runes since the last CR/LF, a tab counting four).", "quantifier": "every byte string, every token", "why_tests_cant": "for all inputs", "anchors": ["internal/lexer/lexer.go:Scan", "internal/token/token.go:Pos"]}
{"id": "C07", "title": "Syntax errors are reported at the first impossible token", "statement": "If Parse fails, the error's token is the first token that no DOT sentence can have at that place, and every token that some sentence could have there is listed among the expected tokens.", "quantifier": "every rejected byte string and every hypothetical continuation", "why_tests_cant": "quantifies over all continuations", "anchors": ["internal/parser/parser.go:newError", "internal/parser/parser.go:Error", "internal/errors/errors.go"]}
{"id": "C08", "title": "Layout is irrelevant", "statement": "Two inputs whose token (type, literal) sequences agree - that is, which differ only in white space and comments between tokens - parse to the same AST (given the same random stream), or are both rejected.", "quantifier": "every pair of byte strings", "why_tests_cant": "relational property over all inputs", "anchors": ["internal/lexer/lexer.go:Scan", "internal/parser/parser.go:Parse", "ast/ast.go:NewID"]}
{"id": "C09", "title": "AST print/parse round trip, exactly", "statement": "For every AST whose IDs are DOT IDs (every AST that Parse returns is one), Parse(g.String()) succeeds and returns g up to dropping empty attribute lists exactly when no ID shows a Unicode space at an end of a text that String trims: the ID of a node statement or of the first endpoint of an edge does not begin with one, the last ID (node, port or compass) of a node statement without attributes and of every other endpoint of an edge does not end with one. All other IDs are free. ASTs that survive and print the same text are equal up to empty attribute lists.", "quantifier": "every well-formed AST of any size and nesting", "why_tests_cant": "structural induction over unbounded trees composed with the lexer and the LR automaton", "anchors": ["ast/ast.go:Graph.String", "ast/ast.go:StmtList.indentString", "internal/parser/main.go:ParseBytes"]}
{"id": "C10", "title": "What happens to ASTs that do not survive printing", "statement": "If an ID of the AST shows a Unicode space at an end of a trimmed text, the printed text either does not parse or is the text of another AST with fewer non-ASCII bytes in its IDs. Both happen for ASTs that Parse returned: a node U+00A0 vanishes and the text no longer parses, a node with such an end is renamed, a node statement <U+00A0>node [x=1] turns into the default attributes of all nodes. Printing and parsing over and over settles: after at most as many rounds as there are non-ASCII bytes in the IDs, plus one, there was an error or nothing changes any more.", "quantifier": "every AST of DOT IDs, every number of rounds; witnesses traced through the code", "why_tests_cant": "structural induction over unbounded trees with the exact lexer and TrimSpace semantics", "anchors": ["ast/ast.go: NodeStmt.indentString, EdgeStmt.indentString, EdgeRHS.String, EdgeRH.String", "internal/lexer/transitiontable.go"]}
{"id": "C11", "title": "Anonymous subgraph naming", "statement": "Every subgraph written without an ID gets the name anon<r> where r is a fresh draw of the shared random source, draws being consumed in the order the subgraphs close; a named subgraph keeps its literal name and consumes no draw.", "quantifier": "every input and every random stream", "why_tests_cant": "all inputs and streams", "anchors": ["ast/ast.go:NewSubGraph", "ast/ast.go:randInt63"]}
{"id": "C12", "title": "The shared random source under concurrency", "statement": "When any number of goroutines parse concurrently, every draw of the random source is atomic: under every schedule the draws handed out are, in lock-acquisition order, the successive values of the source, no value is handed out twice and none is lost.", "quantifier": "every number of goroutines and every interleaving", "why_tests_cant": "schedules cannot be enumerated", "anchors": ["ast/ast.go:randInt63", "ast/ast.go:randLock"]}
{"id": "C13", "title": "Node index coherence", "statement": "After any history of API calls, Nodes.Lookup and Nodes.Nodes describe the same set: every listed node is the one Lookup returns for its name, no name is listed twice, every Lookup entry is listed, and names match keys.", "quantifier": "every history of API operations (histories may also call the methods of the graph's Nodes, Edges, SubGraphs, Relations and Attrs directly)", "why_tests_cant": "all histories", "anchors": ["nodes.go:Nodes.Add", "nodes.go:Nodes.Remove", "graph.go"]}
{"id": "C14", "title": "Edge index coherence", "statement": "After any history of API calls, SrcToDsts[s][d] and DstToSrcs[d][s] are both exactly the subsequence of Edges.Edges from s to d, in insertion order, and have no entry for other pairs.", "quantifier": "every history of API operations (histories may also call the methods of the graph's Nodes, Edges, SubGraphs, Relations and Attrs directly)", "why_tests_cant": "all histories", "anchors": ["edges.go:Edges.Add", "graph.go:RemoveNode", "graph.go:RemoveSubGraph"]}
{"id": "C15", "title": "Relation maps mirror each other", "statement": "After any history of API calls, c is a child of p in ParentToChildren iff p is a parent of c in ChildToParents.", "quantifier": "every history (histories may also call the methods of the graph's Nodes, Edges, SubGraphs, Relations and Attrs directly)", "why_tests_cant": "all histories", "anchors": ["relations.go:Relations.Add", "relations.go:Relations.Remove"]}
{"id": "C16", "title": "Only valid attribute names are ever stored", "statement": "After any history of API calls, every attribute name stored on the graph, a subgraph, a node or an edge is one of the Graphviz attribute names of attr.go; NewAttr accepts exactly those names and returns them unchanged.", "quantifier": "every history and every attribute map", "why_tests_cant": "all histories", "anchors": ["attr.go:NewAttr", "attrs.go:Attrs.Add", "graph.go"]}
{"id": "C17", "title": "AddNode merges", "statement": "AddNode(parent,name,attrs) with valid attrs creates the node if absent and otherwise overwrites just the given attributes, records the parent relation, and changes nothing else.", "quantifier": "every graph state and arguments (histories may also call the methods of the graph's Nodes, Edges, SubGraphs, Relations and Attrs directly)", "why_tests_cant": "all states", "anchors": ["graph.go:AddNode", "nodes.go:Nodes.Add", "attrs.go:Attrs.Extend"]}
{"id": "C18", "title": "RemoveNode removes the node and its edges only", "statement": "RemoveNode(parent,name) on an existing node removes it from the index, drops exactly the edges that have it as an endpoint (keeping the order of the others), removes the one relation parent->name, and leaves everything else unchanged; on an unknown node it returns an error and changes nothing.", "quantifier": "every reachable graph and arguments (histories may also call the methods of the graph's Nodes, Edges, SubGraphs, Relations and Attrs directly)", "why_tests_cant": "all states", "anchors": ["graph.go:RemoveNode", "nodes.go:Nodes.Remove"]}
{"id": "C19", "title": "Failing calls leave the graph unchanged", "statement": "AddNode, AddEdge, AddPortEdge, AddAttr and RemoveNode either succeed or return an error and leave the graph exactly as it was; AddNode/AddEdge/AddPortEdge fail exactly when an attribute name is invalid, AddAttr exactly when the (sub)graph is unknown or the name is invalid.", "quantifier": "every graph and arguments (histories may also call the methods of the graph's Nodes, Edges, SubGraphs, Relations and Attrs directly)", "why_tests_cant": "all states", "anchors": ["graph.go:AddNode", "graph.go:AddPortEdge", "graph.go:AddAttr", "graph.go:RemoveNode"]}
{"id": "C20", "title": "AddSubGraph is not atomic", "statement": "AddSubGraph registers the subgraph and its relation before validating attributes: when an attribute name is invalid it returns an error but the subgraph stays, with some subset of the valid attributes that depends on map iteration order; when all names are valid it adds exactly the given attributes.", "quantifier": "every graph, attribute map and map iteration order (histories may also call the methods of the graph's Nodes, Edges, SubGraphs, Relations and Attrs directly)", "why_tests_cant": "iteration order is chosen by the runtime", "anchors": ["graph.go:AddSubGraph"]}
{"id": "C21", "title": "RemoveSubGraph removes the subgraph, its nodes and their edges", "statement": "If every child of the subgraph is a node, RemoveSubGraph removes the subgraph, those nodes and all edges mentioning any of them, under every map iteration order; if some child is not a node (e.g. a nested subgraph) it returns an error and leaves a partially updated graph.", "quantifier": "every reachable graph, every iteration order (histories may also call the methods of the graph's Nodes, Edges, SubGraphs, Relations and Attrs directly)", "why_tests_cant": "iteration order is chosen by the runtime; all states", "anchors": ["graph.go:RemoveSubGraph"]}
{"id": "C22", "title": "Removal leaves stale relations", "statement": "Removing a subgraph leaves its children in ParentToChildren, so that re-adding a subgraph of that name makes String() report an error; likewise removing a node that has two parents.", "quantifier": "existential witnesses, plus the exact set of relations that survive", "why_tests_cant": "needs multi-call histories", "anchors": ["graph.go:RemoveSubGraph", "graph.go:RemoveNode", "relations.go:Relations.Remove", "write.go:newSubGraph"]}
{"id": "C23", "title": "API histories refine a simple graph", "statement": "Every history of API calls on a NewGraph() produces the same answers and the same observable content as a plain abstract graph (finite map of node attributes, list of edges, finite map of subgraph attributes, set of parent/child pairs).", "quantifier": "every history and every map iteration order", "why_tests_cant": "all histories", "anchors": ["graph.go", "nodes.go", "edges.go", "relations.go", "subgraphs.go", "attrs.go"]}
{"id": "C24", "title": "Analyse drives any Interface the same way", "statement": "For every implementation of Interface, Analyse performs a sequence of calls that depends only on the AST (and map iteration order), never stops at a failing call, and returns nil iff every call returned nil; otherwise the error lists all errors in call order.", "quantifier": "every Interface implementation, AST and response pattern", "why_tests_cant": "quantifies over all user implementations", "anchors": ["analyse.go:Analyse", "catch.go:errCatcher", "gographviz.go:Interface"]}
{"id": "C25", "title": "When Read fails", "statement": "Read(buf) fails exactly when Parse(buf) fails or some attribute name that is actually applied to a node, edge, graph or subgraph is not a valid attribute.", "quantifier": "every byte string", "why_tests_cant": "all inputs", "anchors": ["gographviz.go:Read", "analyse.go:NewAnalysedGraph", "attrs.go:NewAttrs"]}
{"id": "C26", "title": "Scoping of default attributes", "statement": "In an analysed graph node/edge defaults apply to the nodes/edges that first appear later in the same graph body or inside nested subgraphs opened later, never outside that body; explicit attributes win over defaults; graph [..] defaults of a body are copied to subgraphs opened later directly in that body.", "quantifier": "every AST", "why_tests_cant": "all ASTs of any nesting", "anchors": ["analyse.go:stmtVisitor", "analyse.go:nodeStmt", "analyse.go:edgeStmt", "analyse.go:subGraph"]}
{"id": "C27", "title": "Edge statements expand to one edge per arrow", "statement": "An edge statement a op b op c ... adds, in order, one edge per operator between consecutive endpoints, each with the same attributes, its own direction and the ports of its endpoints, and every plain-node endpoint becomes a node of the enclosing (sub)graph.", "quantifier": "every edge statement of any length", "why_tests_cant": "unbounded chains", "anchors": ["analyse.go:edgeStmt", "analyse.go:addNodeFromEdge"]}
{"id": "C28", "title": "Map iteration order does not matter", "statement": "For Read, and for every API history without a failing AddSubGraph/RemoveSubGraph, the resulting graph does not depend on Go's map iteration order.", "quantifier": "every pair of iteration-order oracles (histories may also call the methods of the graph's Nodes, Edges, SubGraphs, Relations and Attrs directly)", "why_tests_cant": "iteration order is chosen by the runtime", "anchors": ["analyse.go:graphAttrs", "attrs.go:NewAttrs", "attrs.go:Extend", "graph.go:AddSubGraph"]}
{"id": "C29", "title": "Edges of a read graph have endpoints", "statement": "In every graph returned by Read each edge endpoint is a node or a subgraph of the graph and every child in the relations is a node or a subgraph.", "quantifier": "every byte string", "why_tests_cant": "all inputs", "anchors": ["analyse.go:edgeStmt", "gographviz.go:Read"]}
{"id": "C30", "title": "String is deterministic and canonical", "statement": "String() depends only on the content of the graph: not on map iteration order, on the unstable sort used for edges, nor on the order in which nodes, edges and subgraphs were added (provided no attribute value is the empty string).", "quantifier": "every pair of graphs with the same content, every sort function and iteration order (histories may also call the methods of the graph's Nodes, Edges, SubGraphs, Relations and Attrs directly)", "why_tests_cant": "runtime nondeterminism", "anchors": ["write.go", "edges.go:Sorted", "nodes.go:Sorted", "subgraphs.go:Sorted", "relations.go:SortedChildren", "ast/ast.go:PutMap"]}
{"id": "C31", "title": "Edge order is a strict weak order", "statement": "The Less function given to sort.Sort is irreflexive, asymmetric, transitive, and incomparability is transitive, so Sorted() returns a sorted permutation; two edges are incomparable exactly when they agree on endpoints, ports, direction and all attribute values (absent counting as empty).", "quantifier": "every triple of edges", "why_tests_cant": "all attribute maps", "anchors": ["edges.go:edgeSorter.Less", "edges.go:Sorted"]}
{"id": "C32", "title": "WriteAst writes everything once", "statement": "When WriteAst succeeds the AST contains the graph attributes, each edge exactly once in sorted order, a node statement carrying the node's attributes for each node, and a subgraph statement for every subgraph reachable from the main graph or an edge, provided no direct subgraph of the main graph shares its name with a node (with such a name something may be left out; C73 says what).", "quantifier": "every graph (histories may also call the methods of the graph's Nodes, Edges, SubGraphs, Relations and Attrs directly)", "why_tests_cant": "all graphs", "anchors": ["write.go:Write", "write.go:newSubGraph", "write.go:newNodeStmt"]}
{"id": "C33", "title": "When writing fails", "statement": "When writing ends, WriteAst/String report an error exactly when an edge endpoint is neither a node nor a subgraph, a subgraph endpoint has a port, or a written subgraph has a child that is neither a node nor a subgraph; otherwise they succeed; they never panic. (The equivalence is for graphs in which no direct subgraph of the main graph shares its name with a node; C73 is about all.) Errors name their cause. No graph returned by Read gives an error.", "quantifier": "every graph (histories may also call the methods of the graph's Nodes, Edges, SubGraphs, Relations and Attrs directly)", "why_tests_cant": "all graphs", "anchors": ["write.go:newLocation", "write.go:newSubGraph", "write.go:String"]}
{"id": "C34", "title": "When writing terminates", "statement": "Writing terminates whenever no subgraph that gets written contains itself through the child relation, and if there is no error to report (C33) only then (no direct subgraph of the main graph sharing its name with a node; C73 is about all graphs); `digraph G { subgraph G { a } }` is accepted by Read but its String() recurses without bound.", "quantifier": "every graph (histories may also call the methods of the graph's Nodes, Edges, SubGraphs, Relations and Attrs directly)", "why_tests_cant": "non-termination cannot be tested", "anchors": ["write.go:newSubGraph"]}
{"id": "C35", "title": "Graph round trip", "statement": "For every graph that String() can write, whose names and attribute values are DOT IDs, in which no name is used twice and no cluster ends an edge, Read(g.String()) succeeds and yields what the text shows: the same name, flags, attributes and nodes, the edges (up to order) with their ports as printed, and exactly the subgraphs that are written, with the same members; what the main graph contains directly is decided anew. If all subgraphs are written and the ports are IDs this is the whole graph. Without the side conditions (clusters as edge ends, unwritten subgraphs) it is not.", "quantifier": "every graph meeting the side conditions (histories may also call the methods of the graph's containers directly, with valid attribute names)", "why_tests_cant": "composition of writer, printer, lexer, parser and analyser over all graphs", "anchors": ["write.go", "analyse.go", "ast/ast.go", "internal/parser/main.go"]}
{"id": "C36", "title": "Normal form", "statement": "String is a normal form: for the graphs of C35 without ports, Read(g.String()).String() == g.String().", "quantifier": "every graph meeting the side conditions (histories may also call the methods of the graph's containers directly, with valid attribute names)", "why_tests_cant": "all graphs", "anchors": ["write.go", "analyse.go", "gographviz.go:Read"]}
{"id": "C37", "title": "Ports across Read and String", "statement": "Ports given to AddPortEdge as p or p:c are printed as :p or :p:c; but ports read from DOT source are stored with a leading colon and are dropped by String().", "quantifier": "every port string; witness for the loss", "why_tests_cant": "all ports", "anchors": ["ast/ast.go:MakeNodeID", "ast/ast.go:Port.String", "analyse.go:edgeStmt", "write.go:newNodeID"]}
{"id": "C38", "title": "Escape: which names panic", "statement": "The escaping performed by every Escape method is total except on exactly the non-empty all-blank strings and the string consisting of one double quote, on which it panics.", "quantifier": "every string", "why_tests_cant": "all strings", "anchors": ["escape.go:esc", "escape.go:isHTML", "escape.go:isStringLit"]}
{"id": "C39", "title": "Escaping is idempotent", "statement": "Escaping an already escaped name changes nothing, so a name can be passed in raw or escaped form consistently.", "quantifier": "every string", "why_tests_cant": "all strings", "anchors": ["escape.go:esc"]}
{"id": "C40", "title": "Escaping keeps valid ASCII IDs", "statement": "Escaping an ASCII string that is already a DOT ID lexeme returns it unchanged.", "quantifier": "every ASCII DOT ID", "why_tests_cant": "all strings", "anchors": ["escape.go:esc", "dot.bnf"]}
{"id": "C41", "title": "Escaping produces valid IDs", "statement": "Escaping yields a single DOT ID token for every string outside an explicitly described set; inside it (for instance a:b, graph, 1.2.3, a trailing backslash) it may yield text that is not an ID.", "quantifier": "every string", "why_tests_cant": "all strings", "anchors": ["escape.go:esc", "escape.go:isID", "escape.go:isNumber", "escape.go:isHTML", "escape.go:isStringLit"]}
{"id": "C42", "title": "Escape is Graph on escaped names", "statement": "Every Escape operation behaves as the Graph operation on escaped arguments; in particular IsNode(n) holds after AddNode(_, n, _) for every non-panicking n, and equivalent spellings name the same node.", "quantifier": "every history", "why_tests_cant": "all histories", "anchors": ["escape.go"]}
{"id": "C43", "title": "Attribute lists and maps", "statement": "GetMap(PutMap(m)) = m for every map, PutMap lists keys in strictly increasing order, and GetMap gives the last value written for each key.", "quantifier": "every attribute map and list", "why_tests_cant": "all maps", "anchors": ["ast/ast.go:PutMap", "ast/ast.go:GetMap"]}
{"id": "C44", "title": "Extend, Ammend, Copy", "statement": "Attrs.Extend overwrites, Attrs.Ammend only fills in, Copy is equal, and none depends on iteration order.", "quantifier": "every pair of attribute maps, every iteration order", "why_tests_cant": "all maps", "anchors": ["attrs.go"]}
{"id": "C45", "title": "Sorted views", "statement": "Nodes.Sorted, SubGraphs.Sorted, Relations.SortedChildren list every element exactly once in strictly increasing byte order of the names.", "quantifier": "every reachable graph (histories may also call the methods of the graph's Nodes, Edges, SubGraphs, Relations and Attrs directly)", "why_tests_cant": "all graphs", "anchors": ["nodes.go:Sorted", "subgraphs.go:Sorted", "relations.go:SortedChildren"]}
{"id": "C46", "title": "Re-reading is stable", "statement": "If Read(s) succeeds on a source without clusters as edge endpoints, name clashes, cycles of subgraphs and Unicode-space names, then String() of the result can be read again; without ports the text is the same each time, with ports it is the same from the second time on (the first round loses the ports, and with them the order they gave to the edges).", "quantifier": "every such byte string", "why_tests_cant": "all inputs", "anchors": ["gographviz.go:Read", "write.go:String"]}
{"id": "C47", "title": "Printing an AST and reading the text gives the graph of the AST", "statement": "For every AST whose identifiers are DOT IDs without Unicode-space edges, Read(ast.String()) succeeds exactly when NewAnalysedGraph(ast) does, and then gives a graph with the same content.", "quantifier": "every such AST, every map iteration order, every state of the random generator", "why_tests_cant": "infinitely many ASTs (nesting, bracket lists, ports) and iteration orders", "anchors": ["ast/ast.go: Graph.String", "gographviz.go: Read", "analyse.go: NewAnalysedGraph"]}
{"id": "C48", "title": "Walk of an AST", "statement": "Graph.Walk visits each element once, before its parts, the parts in source order, each with the visitor that Visit returned for the element it is part of; below an element for which Visit returned nil nothing is visited. It panics exactly when it comes to an AList (one bracket list of attributes) with a nil visitor, hence only if Visit returned nil for a non-empty list of attribute lists; a visitor that never returns nil sees every element exactly once.", "quantifier": "every AST, every (possibly stateful) Visitor", "why_tests_cant": "infinitely many ASTs and visitors", "anchors": ["ast/ast.go: Graph.Walk and the other Walk methods, Visitor"]}
{"id": "C49", "title": "Text of syntax errors", "statement": "For every rejected input err.Error() is 'line:column: error: expected X; got: Y': the position of the first token that no DOT text can have there; X lists all tokens that some DOT text can have there, in a fixed order and never none (one / either a or b / one of a, b or c / one of a, b, c, or d); Y is end-of-file or the quoted literal (marked unknown/invalid after a lexical error) from which the literal can be recovered. The message is one line without control characters whatever the input contains. String() (through fmt.Stringer) has the same position, the token's type and its literal unquoted, and the same expected tokens.", "quantifier": "every byte string", "why_tests_cant": "all inputs, including arbitrary bytes in the offending token", "anchors": ["internal/errors/errors.go: Error, DescribeExpected, DescribeToken", "internal/parser/parser.go: newError", "internal/token/token.go: TokMap"]}
{"id": "C50", "title": "The text of a graph is valid DOT", "statement": "If all names and attribute values of a graph are DOT IDs and what is printed of its ports is made of IDs, then whenever String() succeeds Read accepts the text, whatever the shape of the graph (nested, shared or unwritten subgraphs, clusters as edge ends, name clashes); name, flags and edges (ports as printed) are those of the graph, there are no new nodes except clusters that end edges and no new subgraphs, and no node or written subgraph is lost if no subgraph of the main graph has a node's name. With names that are not IDs the text may be unreadable.", "quantifier": "every reachable graph with such names, every map iteration order and sort, every state of the random generator (histories may also call the methods of the graph's containers directly, with valid attribute names)", "why_tests_cant": "infinitely many graph shapes, names and iteration orders", "anchors": ["write.go: WriteAst", "graph.go: String", "gographviz.go: Read"]}
{"id": "C51", "title": "Graphs built with IDs or through Escape have readable text", "statement": "If every node name, subgraph name, attribute value and graph name given in a history of calls is a DOT ID (for Graph), or has an escaped form that is an ID (for Escape; C41 says which strings), and ports print as IDs, then whenever String() succeeds Read accepts the text and gives back the graph as far as C35/C50 say. For Escape there are strings (graph, a trailing backslash, 1.2.3) for which it is false.", "quantifier": "every history of calls, failing ones and removals included", "why_tests_cant": "infinitely many histories and strings", "anchors": ["escape.go: Escape", "graph.go: Graph methods, String", "gographviz.go: Read"]}
{"id": "C52", "title": "A graph shares no map with its caller", "statement": "The caller may keep, change and reuse the attribute maps it gives to the methods of Graph or Escape: after any history the graph, the results of the calls and the caller's maps are as if each call had got a copy of the content of its map at that moment. No two of graph, nodes, edges and subgraphs have the same map, none has a map of the caller.", "quantifier": "every history of calls interleaved with creation and modification of maps by the caller, removed objects included", "why_tests_cant": "infinitely many histories and ways to share maps", "anchors": ["attrs.go: NewAttrs, Extend", "graph.go: Graph methods", "escape.go: escAttrs, Escape methods"]}
{"id": "C53", "title": "What slices and pointers taken from a graph show later", "statement": "The slice g.Edges.Edges read at some time shows the same edges with the same attributes whatever is done to the graph later (removals included). The slice g.Nodes.Nodes shows the same nodes until something is removed; removing shifts its elements in place, so the condition is needed. A pointer to a removed node shows for ever what it showed at the removal, and the graph never uses it again, also if a node of that name is added.", "quantifier": "every history before and after the slice or pointer is taken, every growth policy of append", "why_tests_cant": "depends on all later histories and on the capacities append chooses", "anchors": ["nodes.go: Nodes.Remove, Nodes.Add", "edges.go: Edges.Add", "graph.go: RemoveNode"]}
{"id": "C54", "title": "Removing nodes in a loop", "statement": "for _, n := range g.Nodes.Nodes { g.RemoveNode(p, n.Name) } leaves every second node except the last one; it removes all nodes only if there are at most two. The same loop over g.Nodes.Sorted() removes all nodes without an error.", "quantifier": "every graph a history of calls builds, every parent name, every iteration order", "why_tests_cant": "infinitely many graphs", "anchors": ["nodes.go: Nodes.Remove, Nodes.Sorted", "graph.go: RemoveNode"]}
{"id": "C55", "title": "Analyse changes maps it has handed out; Graph and Escape are immune", "statement": "Analyse gives its own map of default attributes to AddNode and AddSubGraph and changes it in place later. For an implementation of Interface that neither changes the maps it gets nor looks at them after the call, Analyse has the same result as if each call got a copy; Graph and Escape are such implementations (so a default set later does not show in earlier nodes). For an implementation that keeps the maps this is false: nodes share one map and get defaults set later.", "quantifier": "every AST, every such implementation, every map iteration order", "why_tests_cant": "infinitely many ASTs and implementations", "anchors": ["analyse.go: newStmtVisitor, addNodeFromEdge, nodeStmt, edgeStmt, nodeAttrs, walkSubGraph", "graph.go: Graph methods", "escape.go: Escape methods"]}
{"id": "C56", "title": "Escaping confuses a name only with its own escaped form", "statement": "If two strings have the same escaped form, one of them is this form itself, or they are equal up to NUL bytes, which are written as U+FFFD (without NUL bytes: they are equal). So AddNode(p, n, ...) on an Escape graph makes a node appear under n and its spellings before and after escaping, and under no other name. With NUL bytes two different names can fall together.", "quantifier": "every pair of strings, every Escape graph that calls can build", "why_tests_cant": "infinitely many pairs of strings", "anchors": ["escape.go: esc, Escape.AddNode, Escape.IsNode"]}
{"id": "C57", "title": "Concurrent calls of Parse do not disturb each other", "statement": "Any number of goroutines call Parse at the same time, sharing the package's random source behind its lock, their steps interleaved in any way. Each call that returns gives a tree or a syntax error (no panic), exactly the one it gives alone when the source yields the values it drew; these are the values of the source whose numbers are its turns in the order of service, so no value is given out twice or skipped. As long as a call has not returned some goroutine can take a step (no deadlock), every schedule has a number of steps linear in the size of the texts, and every partial schedule can be completed to one in which all calls have returned.", "quantifier": "every list of texts, every generator and seed, every interleaving of the steps of the goroutines (rounds of the parser loop; lock, read, write, unlock of the random source)", "why_tests_cant": "the interleavings are unboundedly many and are chosen by the scheduler", "anchors": ["ast/ast.go: r, randLock, randInt63, NewSubGraph", "internal/parser/parser.go: Parser.Parse", "gographviz.go: Parse, ParseString"]}
{"id": "C58", "title": "Calls on the containers of a graph and assignments to its attributes", "statement": "A caller may also use the exported methods of what a graph consists of: Nodes.Add (with a new node or with a pointer the set has had before) and Remove, Edges.Add, SubGraphs.Add and Remove, Relations.Add and Remove, Attrs.Add, Extend and Ammend of the graph, a subgraph, a node or an edge; and it may assign: a[k] = v, delete(a, k) and x.Attrs = m on the attributes of the graph, of a subgraph, of an edge, of a node by its name or of any *Node the graph has had, and SrcPort, DstPort and Dir of an edge. Each does exactly one thing to the abstract graph: Nodes.Add creates the node without a parent or merges the attributes (the new win), Nodes.Remove leaves edges and relations, SubGraphs.Remove leaves contents and relations, an assignment through Edges.Edges[i] changes that edge only and is seen through SrcToDsts and DstToSrcs too, an assignment through a *Node changes the graph exactly if the pointer is still in it, and so on. The methods of Graph keep their specification after such calls. Attribute names are not checked by them, but none appears from elsewhere: every name in the graph is valid or was brought in by such a call.", "quantifier": "every history of calls of methods of Graph and of its containers and of assignments, every argument, every map iteration order", "why_tests_cant": "histories are unbounded and mix two levels of the API", "anchors": ["nodes.go: Nodes.Add, Nodes.Remove", "edges.go: Edges.Add", "subgraphs.go: SubGraphs.Add, SubGraphs.Remove", "relations.go: Relations.Add, Relations.Remove", "attrs.go: Attrs.Add, Attrs.Extend, Attrs.Ammend", "graph.go: Graph", "edges.go: Edges.Edges, SrcToDsts, DstToSrcs", "edges.go: Edge"]}
{"id": "C59", "title": "Semicolons and commas are optional, the spelling of keywords is free", "statement": "If Parse accepts a text, it accepts every text whose tokens are the same except that some semicolons and commas are left out and some keywords are spelt differently (digraph, DIGRAPH, ...), and returns the same tree. Two accepted texts whose tokens differ in no other way have the same tree. (Separators cannot be added everywhere: a ; -> b is refused.)", "quantifier": "every pair of texts whose token sequences differ only so, every random source", "why_tests_cant": "the texts and the subsets of separators that may be left out are unboundedly many; an LR table can resolve a conflict differently in a context no test reaches", "anchors": ["dot.bnf", "internal/parser/parser.go: Parser.Parse", "gographviz.go: Parse"]}
{"id": "C60", "title": "Which graphs can be built", "statement": "Calls that remove nothing (SetName, SetDir, SetStrict, AddNode, AddEdge, AddPortEdge, AddAttr, AddSubGraph) build exactly the graphs in which node names are listed once, attribute names are valid, every node and subgraph has a parent and every child exists; with RemoveNode and RemoveSubGraph exactly those in which something that is both a node and a subgraph has a parent; with calls on the containers all graphs whose node list is consistent and whose attribute names are valid. For each graph of the first kind there is one list of calls that builds it whatever the map iteration order, all of them succeeding, and the copy has the same text.", "quantifier": "every abstract graph, every history, every map iteration order", "why_tests_cant": "says which states are reachable by unboundedly long histories, and that no others are", "anchors": ["graph.go: Graph.AddNode, Graph.AddPortEdge, Graph.AddAttr, Graph.AddSubGraph, Graph.RemoveNode, Graph.RemoveSubGraph", "nodes.go", "subgraphs.go", "relations.go", "write.go: Graph.String"]}
{"id": "C61", "title": "Parse does linear work", "statement": "The work of Parse - calls of Scan, runes read by Scan, rounds of the parser's loop - is at most 34 (n + 2) for a text of n bytes, whatever the bytes. A call of Scan reads at most one rune beyond the token it returns, so no text makes it look far ahead again and again.", "quantifier": "every byte string, every random source", "why_tests_cant": "a longest-match scanner and an LR loop can be quadratic on inputs no test contains", "anchors": ["internal/lexer/lexer.go: Lexer.Scan", "internal/parser/parser.go: Parser.Parse", "main.go: ParseBytes"]}
{"id": "C62", "title": "How often things are written and how long the text is", "statement": "In the tree that WriteAst returns (and so in the text of String) a subgraph has one statement for each statement of each of its parents, one for each edge that ends at it (none if its name starts with cluster), and at most one at the top level; a node has one for each statement of each of its parents and at most one at the top level. So if everything has at most one parent and edges end at nodes or clusters, every node and every written subgraph has exactly one statement. In general the text is exponential: for every n there are 4n+2 calls, with names of at most n+1 bytes, that all succeed and build a graph whose text has at least 2^n bytes.", "quantifier": "every graph built by calls, every map iteration order, every sort; every n", "why_tests_cant": "counts in unboundedly large graphs; the exponential family is about all sizes", "anchors": ["write.go: writer.Write, writer.newSubGraph, writer.newLocation, Graph.WriteAst, Graph.String", "graph.go: Graph.AddSubGraph"]}
{"id": "C63", "title": "Order of calls and of statements", "statement": "Calls that remove nothing and do not rename the graph leave the same content, and the same text, in whatever order they are made, as long as every call succeeds in both orders and no attribute or flag is given two different values; calls other than those that add edges may also be repeated, split or merged. So building a graph by ranging over a map is reproducible. For texts: after the statements that set defaults, the other statements of a graph body may be permuted: both analyses fail, or both succeed with the same content. With contradicting values, and with SetName, order does matter.", "quantifier": "every graph built by calls, all pairs of call lists, every map iteration order; all ASTs, all permutations", "why_tests_cant": "ranges over all permutations of unboundedly long call lists and all maps orders", "anchors": ["graph.go: Graph.AddNode, Graph.AddSubGraph, Graph.AddEdge, Graph.AddAttr", "analyse.go: Analyse, NewAnalysedGraph", "write.go: Graph.String"]}
{"id": "C64", "title": "SetStrict, SetDir and SetName change labels only", "statement": "SetStrict and SetDir change nothing of the result of WriteAst but its flags, and nothing of the text but the words before the name; Analyse uses the strict and digraph flags of an AST only as flags: the same statements succeed or fail and give the same nodes, edges and subgraphs (strict does not merge parallel edges, -> is accepted in a graph). SetName changes nothing but the name in the text if the old and the new name have the same subgraphs as children; otherwise the text loses those that are children of the old name.", "quantifier": "every graph, every map iteration order, every sort, every AST, every name", "why_tests_cant": "claims that nothing else changes, for all graphs", "anchors": ["graph.go: Graph.SetStrict, Graph.SetDir, Graph.SetName", "write.go: Graph.WriteAst, Graph.String", "analyse.go: NewAnalysedGraph"]}
{"id": "C65", "title": "What is added under a new name can be taken back", "statement": "AddNode with an unused name followed by RemoveNode leaves the graph as it was. AddSubGraph with an unused name, then any calls that add new nodes to it, edges that touch it or these nodes, and attributes of it, and then RemoveSubGraph: all succeed, and the graph is as it was, except that Relations still lists the nodes as children of the removed name. If the name was in use, removing takes more than adding gave.", "quantifier": "every graph built by calls, every block of such calls of any length, every map iteration order", "why_tests_cant": "all graphs and all blocks; claims that nothing else changes", "anchors": ["graph.go: Graph.AddNode, Graph.RemoveNode, Graph.AddSubGraph, Graph.RemoveSubGraph, Graph.AddEdge, Graph.AddAttr", "relations.go"]}
{"id": "C66", "title": "Beginnings of texts: truncation and incremental input", "statement": "If Parse accepts a text, then a longer text is accepted only if the rest is white space and comments, and gives the same AST; otherwise the error is at the first token of the rest and only the end of the text is expected there. So a text that was cut off inside the graph is never accepted. If Parse fails at a token that is not at the end of the text (with four more bytes after it, or an ASCII byte at the cut), every longer text fails with the same error: more input cannot help. If it fails at the end of the text (EOF token), the text can be completed: some continuation is accepted.", "quantifier": "all byte strings t and u, every random source", "why_tests_cant": "ranges over all texts and all continuations", "anchors": ["internal/lexer/lexer.go: Lexer.Scan", "internal/parser/parser.go: Parser.Parse", "main.go: ParseBytes", "dot.bnf"]}
{"id": "C67", "title": "Calls that only look at a graph may run concurrently", "statement": "When a graph has been built, any number of goroutines may call String, WriteAst, Edges.Sorted, Nodes.Sorted, SubGraphs.Sorted, SortedChildren, IsNode and IsSubGraph on it at the same time: there is no data race (no two goroutines are ever about to access the same map, array, struct or the Graph where one of them writes), nothing that existed before changes, every call comes to an end under every scheduler, and returns what it returns when it runs alone. If no edge attribute is empty the results are the same for all schedules, iteration orders and sorting algorithms.", "quantifier": "all histories of API calls that build the graph, all numbers of goroutines and lists of looking calls, all interleavings of single reads and writes, all map iteration orders, all sequences of Less and Swap calls a sort makes", "why_tests_cant": "the schedules are unbounded in number; the race detector sees one execution", "anchors": ["write.go: Graph.String, Graph.WriteAst, writer", "edges.go: Edges.Sorted, edgeSorter.Less, edgeSorter.Swap", "nodes.go: Nodes.Sorted", "subgraphs.go: SubGraphs.Sorted", "relations.go: SortedChildren", "attrs.go: Attrs.Copy, toMap, sortedNames", "graph.go: IsNode, IsSubGraph"]}
{"id": "C68", "title": "Adding to a graph lays the addition over it", "statement": "Adding to a graph that already has content, by API calls that remove nothing or by analysing a text into it (Analyse(ast, g)), gives what the calls or the text give on an empty graph of the same name and flags, laid over the old content: attributes that the addition gives win, everything else is kept, new nodes come behind the old ones and the new edges behind the old ones, nothing else changes. Analysing into a graph succeeds if and only if the text can be read on its own. Analysing the same text a second time changes nothing except that its edges are there once more. A text without defaults in the first part (and without node defaults in the second) may be analysed in two parts. A text with another name renames the graph, after which the old top-level subgraphs are kept but not written.", "quantifier": "all graphs built by API calls, all histories of successful calls without removals, all ASTs, all ways to cut a body in two, all map iteration orders", "why_tests_cant": "the old graph and the addition are both unbounded, and they may overlap in any way", "anchors": ["analyse.go: Analyse, NewAnalysedGraph, graphVisitor", "graph.go: AddNode, AddSubGraph, AddAttr, AddPortEdge, SetName", "nodes.go: Nodes.Add", "attrs.go: Extend", "subgraphs.go: SubGraphs.Add", "relations.go: Relations.Add"]}
{"id": "C69", "title": "Changing a graph in place through pointers taken from it", "statement": "A caller that holds pointers it got from a graph (a *Node, *Edge or *SubGraph, or the graph itself) may change attributes through them (x.Attrs[k] = v, delete, Add, Extend, Ammend, x.Attrs = a new map) and ports and direction of an edge. If the element is in the graph, this changes the graph exactly there: the node, the subgraph of that name, the edge at its index (also as seen through SrcToDsts and DstToSrcs, if there are several edges with the same ends only this one). If it was removed, the graph does not change. All other pointers and the caller's maps show what they did. Calls behave after any such edits as without sharing; the graph shares no map with the caller and no two elements share one. A slice Edges.Edges taken before shows the same edges, each as it was unless edited through its pointer; a removed node shows what it did unless edited, and never comes back. Only assigning a map of the caller itself makes the graph share it.", "quantifier": "every history of calls, of changes of the caller's maps and of edits through pointers, every map iteration order and growth of slices", "why_tests_cant": "aliasing between index maps, slices, removed elements and the caller's maps must be right after every history", "anchors": ["nodes.go: Node", "edges.go: Edge, Edges", "subgraphs.go: SubGraph", "graph.go: Graph", "attrs.go: Attrs.Add, Attrs.Extend, Attrs.Ammend"]}
{"id": "C70", "title": "A buffer may be used again after Parse or Read", "statement": "Parse(buf) and Read(buf) do not write to buf, and a tree or graph they return does not change when the caller afterwards writes to buf: its strings are copies. A syntax error refers to buf: whenever Error() is called, it gives the position and the expected tokens found at the time of the call, but quotes the bytes that are then in buf in the place of the offending token. So its text is the original one exactly if the error is at the end of the input or these bytes are as they were, in particular if the caller has not written there. An error of ParseString, and one of the analysis, always keeps its text.", "quantifier": "every program that makes buffers, stores bytes into them, parses and reads them in any order, and looks at the results at any time", "why_tests_cant": "aliasing of the caller's memory shows only with a particular later write; all histories must be covered", "anchors": ["gographviz.go: Parse, ParseString, Read", "internal/lexer/lexer.go: Lexer.Scan", "ast/ast.go: NewID", "internal/parser/parser.go: Parser.newError", "internal/errors/errors.go: Error.Error, DescribeToken"]}
{"id": "C71", "title": "Assigning Node.Name or SubGraph.Name through a pointer", "statement": "Name is an exported field, but a graph goes by its keys. After g.Nodes.Lookup[a].Name = n (a new name): IsNode answers as before; WriteAst/String give the old text with n for a everywhere if the statement of a was inside a subgraph, and panic (nil pointer) if it was at the top level; RemoveNode(p, a) reports that a is not found and changes nothing, RemoveNode(p, n) succeeds but only takes the node out of the slice Nodes. After g.SubGraphs.SubGraphs[s].Name = t: the text shows t in every subgraph statement (but s where an edge ends at a cluster), except that a subgraph that was written at the top level is silently left out, its nodes being written at the top level: the text is that of the graph after Relations.Remove(g.Name, s), renamed. AddAttr(t, ...) reports that t does not exist; RemoveSubGraph(p, s) gives what it gives without the assignment. The same holds for any number of assignments made one after the other (the last one counts), to nodes and subgraphs together, if every name that changes becomes one that is not in use: the text is the old one with all the new names, without the renamed subgraphs of the top level, and WriteAst panics exactly if a node with another name would have its statement at the top level. So a loop that puts a prefix before the name of every node makes String panic unless all node statements are inside subgraphs.", "quantifier": "every graph built by any history of calls, every node or subgraph of it, every new name, every sequence of assignments of new names, every map iteration order, every sorting function", "why_tests_cant": "which effect occurs depends on where the element was written, over all nestings and edges", "anchors": ["nodes.go: Node.Name, Nodes.Remove", "subgraphs.go: SubGraph.Name", "write.go: newNodeStmt, newSubGraph, newLocation, Write, WriteAst", "graph.go: RemoveNode, RemoveSubGraph, AddAttr, String"]}
{"id": "C72", "title": "Assigning Edge.Src or Edge.Dst through a pointer", "statement": "After e := g.Edges.Edges[i]; e.Src, e.Dst = s, d the slice Edges.Edges has the edge with its new ends, and the indices SrcToDsts and DstToSrcs still have it, with its new ends, under the old ones; nothing else changes. The text and all later calls (results, errors, and all of the graph except the two indices) are what they would be had the edge been added with the new ends, however many edges are so changed, between any calls. The next RemoveNode or RemoveSubGraph that succeeds makes both indices right again. Without such assignments the indices are always what adding the edges of the slice one after the other gives.", "quantifier": "every graph, every history of calls and such assignments, every map iteration order", "why_tests_cant": "the stale indices must never be read, in any later history", "anchors": ["edges.go: Edge, Edges, Edges.Add", "graph.go: RemoveNode, RemoveSubGraph, AddPortEdge", "write.go: Write"]}
{"id": "C73", "title": "The top level of the text, the first error and the end of writing, for all graphs", "statement": "Also when nodes and subgraphs share names: the tree that WriteAst returns consists of the attributes, the edges in order, then exactly the direct subgraphs of the main graph that neither an edge nor an earlier such subgraph shows already, in order, then exactly the nodes that nothing before shows, in order; so no subgraph or node is written at the top level if it was shown before, and a subgraph can be hidden by a node of its name. Writing succeeds exactly if no edge end is bad, no subgraph that is written so has an unknown child, and none contains itself. The error reported is the first in the order of writing (edges in order, source before destination, children in order of their names, depth first) provided all before it can be written; without a loop writing ends, with one and nothing bad it never does.", "quantifier": "every graph built by any history of calls (also of the methods of the containers), every map iteration order, every sorting function", "why_tests_cant": "which statements stand where depends on all names, nestings and edges together", "anchors": ["write.go: Write, newSubGraph, newLocation, newEdgeStmt, WriteAst, String", "edges.go: Sorted"]}
{"id": "C74", "title": "Zero values, nil maps and nil containers", "statement": "On any graph, also on one made as a struct literal, with nil containers, with nil maps in them, or with nodes, edges and subgraphs whose Attrs is nil: a method panics exactly when it would write to a nil map or follow a nil container, namely in the cases listed (an edge is added without Edges or its maps; a node without Nodes, its Lookup, Relations or its maps, or attributes to a node whose Attrs is nil; AddAttr on nil Attrs with a valid name; removals without the containers they go through; ...). Otherwise it returns what it returns on the graph with empty maps in place of nil, and leaves the same graph. On a graph from NewGraph, as long as the caller brings in no nil, there never is a nil and nothing panics. WriteAst and String write nil attributes and nil maps as empty ones; without Nodes, Edges or SubGraphs they panic, without Relations exactly if there is a subgraph (unless an edge is at fault first). On Graph{} only SetName, SetDir and SetStrict succeed. A call that panics has done exactly the steps before the panic and nothing else (AddEdge: nothing, or the edge is in SrcToDsts only; AddNode: nothing, or the node is there with at most the first half of its relation; AddSubGraph: at most half of the relation, or the relation without the subgraph, or both without attributes; RemoveNode: nothing, or the node and its relation have gone and its edges are still there; RemoveSubGraph: nothing, or what the removal of the first child has left, or all but the edges has gone; AddAttr and the other methods of the containers: nothing). No method of Graph makes a map or container nil or makes one where there is none, except that removals give Edges new maps. Whether AddSubGraph on nil attributes panics or returns an error can depend on the order in which the map of attributes is iterated.", "quantifier": "every graph state, with any combination of nil and non-nil maps and containers; every call and argument, every map iteration order; for the part about NewGraph, every history", "why_tests_cant": "there are many combinations of nil fields, calls and iteration orders, and the graphs range over all states", "anchors": ["graph.go: NewGraph, AddPortEdge, AddNode, RemoveNode, AddAttr, AddSubGraph, RemoveSubGraph", "nodes.go: Add, Remove, Sorted", "edges.go: Add", "subgraphs.go: Add, Remove, Sorted", "relations.go: Add, Remove", "attrs.go: Add, Extend, Ammend", "write.go: Write, String"]}
{"id": "C75", "title": "Names are only labels", "statement": "If in every call of a history the names of nodes, subgraphs and the graph are replaced one to one, and ports and attribute values are replaced in any way (the empty port by the empty port), then the calls have the same results (an error names the replaced name) and leave the graph with the names, ports and values replaced, provided no port is, or becomes, the name of a subgraph that is removed except where it was before. IsNode and IsSubGraph answer accordingly. Analysing a tree with other names gives the same graph with other names (a node statement with a port is a name as a whole), and fails exactly if it failed. Writing a graph with other names gives the same tree with other names, if the order of the names and which names are of clusters stay. In particular the random draws of Parse, Read and String matter only as the names of the anonymous subgraphs: a text read with other draws gives the same graph with these names replaced, if the draws are different from each other and none makes a name that is an ID of the text; and the written text is the same up to these names if they come in the same order and no other name begins with anon.", "quantifier": "every one-to-one replacement of names and every replacement of ports and values; every history, tree, graph and text; every sequence of draws, every map iteration order and sort", "why_tests_cant": "it relates the runs of the program on all pairs of inputs that differ by a renaming, and all pairs of random draws", "anchors": ["graph.go: AddPortEdge, AddNode, AddAttr, AddSubGraph, RemoveNode, RemoveSubGraph, IsNode, IsSubGraph", "analyse.go: NewAnalysedGraph", "gographviz.go: Read", "ast/ast.go: NewSubGraph, randInt63", "write.go: WriteAst"]}
{"id": "C76", "title": "Reading into an Escape", "statement": "Analyse into a new Escape makes on the Graph inside it the calls of the tree with the names, attribute names and values escaped, and returns nil or the list of the errors of these calls; it panics if and only if one of these strings cannot be escaped; all names and values of the resulting graph are in escaped form. If escaping leaves the strings of the tree alone, the graph, or the error, is that of NewAnalysedGraph. A text in ASCII without ports in node statements gives the same through Parse and Analyse into an Escape as through Read. For any text, the Analyse panics only if an ID of the text consists of Unicode white space; such texts exist and Read accepts them.", "quantifier": "every tree and every text; every random draw, map iteration order, and set of letters and digits beyond ASCII", "why_tests_cant": "it relates two readings of all texts, and says of which texts one of them panics", "anchors": ["analyse.go: Analyse, NewAnalysedGraph", "escape.go: NewEscape, esc, escAttrs, Escape.AddNode, Escape.AddPortEdge, Escape.AddAttr, Escape.AddSubGraph, Escape.SetName", "gographviz.go: Read, Parse"]}
{"id": "C77", "title": "Different ways to write the same statements", "statement": "In any place and at any depth of a tree (or text), the following may be exchanged without changing the resulting graph or whether the analysis succeeds: how the attributes of a statement are distributed over brackets, their order and overwritten values; n [a]; n [b] and n [a][b]; consecutive node, edge or graph defaults and one with the attributes of both; empty defaults and nothing; k=v; k=w and k=w; a default or attribute and a following statement it does not concern; a -> b -> c ... [x] and a -> b [x]; b -> c ... [x] for nodes a and b; an edge statement and the same after declarations of its nodes; subgraph S {A} subgraph S {B} and subgraph S {A B}, if A has only nodes and edges between nodes and B mentions none of them. The analysis may be into any graph. Not exchangeable: a chain that starts with a subgraph and its parts (the order of edges), the two subgraphs if A sets attributes or B mentions nodes of A, k=v and graph [k=v].", "quantifier": "every pair of trees related by any number of these exchanges at any places, every graph analysed into, every map iteration order", "why_tests_cant": "the places, the contexts and the combinations of exchanges are unbounded", "anchors": ["analyse.go: NewAnalysedGraph, Analyse, stmtVisitor.nodeStmt, stmtVisitor.edgeStmt, stmtVisitor.nodeAttrs, stmtVisitor.edgeAttrs, stmtVisitor.graphAttrs, stmtVisitor.subGraph, stmtVisitor.attr", "gographviz.go: Read"]}
{"id": "C78", "title": "Several graphs, and copies of a Graph", "statement": "A call on a graph does to that graph what it does when there are no others, whatever containers it shares. Graphs made by NewGraph share nothing: however calls on them are interleaved, each is what its own calls make of it. After h := *g (or h.Nodes = g.Nodes, etc.) the shared containers show what is added through either: two graphs that share all containers and have the same name are both what all the calls make of one graph, flags apart. Removals are different: RemoveNode and RemoveSubGraph change the shared nodes, subgraphs and relations, but give their graph edges of its own and leave the edges of the other as they were; so after h := *g and h.RemoveNode(p, n), g has no node n but still its edges, and WriteAst of g does not succeed if n has an edge and is no subgraph. Every graph of such a history is one that a history on it alone could have made.", "quantifier": "every number of graphs, every history of NewGraph, copies, assignments of containers and calls, every map iteration order", "why_tests_cant": "the interleavings, the ways to share and the histories are unbounded", "anchors": ["graph.go: Graph, NewGraph, AddNode, AddEdge, AddPortEdge, AddAttr, AddSubGraph, RemoveNode, RemoveSubGraph, SetName, SetDir, SetStrict", "write.go: WriteAst"]}
{"id": "C79", "title": "Pointers given from one graph to another", "statement": "The caller may take *Node and *Edge pointers from one graph (from Lookup, Nodes, Edges) and give them to another with Nodes.Add and Edges.Add, or change attributes through them. Nodes.Add(p) of a name the graph has not makes p itself a node of that graph, which is then shared; with a name it has, its own node gets p's attributes, seen in every graph that has that node, and nothing new is shared. Edges.Add(p) puts the same edge at the end once more. A change of attributes through a pointer is seen in exactly the graphs that have the node (at all places where the edge stands). A method called on one graph does to it what it does to a graph that is alone; another graph sees of it only the attributes that AddNode gives to a node both have, and never loses a node or edge by it; the nodes and edges the call makes are new, no pointer leads to them. A graph keeps its node until it has none of that name, so two graphs stay linked until one removes the node; a node that is removed and added again is another one. A program that gives no pointers away makes of each graph what it makes of it if there are no others, with the same errors. Giving all nodes of a graph to one that has none makes the same nodes in the same order, all shared. Whatever is shared, every graph looks like one that could be made without sharing.", "quantifier": "every number of graphs, every history of NewGraph, method calls, pointers given and attributes set through them, the caller's own maps, every map iteration order and growth of slices", "why_tests_cant": "the histories, interleavings and ways to share are unbounded, and the effects depend on aliasing", "anchors": ["nodes.go: Nodes.Add", "edges.go: Edges.Add", "attrs.go: Attrs.Add, Extend, Ammend", "graph.go: NewGraph, AddNode, AddEdge, AddPortEdge, AddAttr, AddSubGraph, RemoveNode, RemoveSubGraph"]}
{"id": "C80", "title": "Attribute maps shared between elements and with the caller", "statement": "The caller may let attribute maps be shared: x.Attrs = y.Attrs for x, y among the graph, its nodes, edges and subgraphs (also removed ones), x.Attrs = m with a map of its own, m := x.Attrs. After that, whatever changes the map of one (AddNode of a known name, AddAttr, AddSubGraph of a known name, Add, Extend, Ammend, assignments and deletions through a pointer or in the caller's map) is seen at exactly the places that share this map, all with the same content, and nowhere else. Sharing is made and ended only by these assignments and x.Attrs = a new map, only for x: it then shares with what it was assigned from and with what shares with that, and with nothing else. Nodes, edges and subgraphs that calls make have maps of their own, also if the argument is a map that the graph refers to. Results of calls, and all of the graph but its attributes, are as without sharing; the attributes are too, except for the elements that share the map of the one the call adds to, which look like that one. Whatever is shared, the graph looks like one that could be made without sharing.", "quantifier": "every history of calls, changes of the caller's maps, edits through pointers and assignments of maps, every map iteration order and growth of slices", "why_tests_cant": "the histories and the ways to share maps are unbounded, and every effect depends on who shares with whom", "anchors": ["attrs.go: Attrs.Add, Extend, Ammend, NewAttrs", "nodes.go: Node.Attrs", "edges.go: Edge.Attrs", "subgraphs.go: SubGraph.Attrs", "graph.go: Graph.Attrs, AddNode, AddEdge, AddPortEdge, AddAttr, AddSubGraph, RemoveNode, RemoveSubGraph"]}
{"id": "C81", "title": "Clusters that end edges", "statement": "For every graph with legible names that String() can write, in which no subgraph of the main graph has the name of a node and none the name of the graph, Read(g.String()) gives exactly: the same name, flags and attributes, all nodes with their attributes, exactly the written subgraphs with their attributes and members, the edges with their ports as printed, and in addition a node without attributes for each cluster that ends an edge (an edge names a cluster like a node). If these clusters stand in the main graph and in no written subgraph, and there are no ports, String() of the result is the same text. If such a cluster is inside another subgraph, it may be lost when the text is read and written again; if it is not written, the text changes.", "quantifier": "every such graph (histories may also call the methods of the graph's containers directly, with valid attribute names), every map iteration order and sort, every state of the random generator", "why_tests_cant": "infinitely many graph shapes; the effects show only after a second round trip", "anchors": ["write.go: newLocation, WriteAst", "analyse.go: newAnalysedGraph edge endpoints", "gographviz.go: Read"]}
{"id": "C82", "title": "Readers, files, lexers and parsers that are used again", "statement": "The parser's Parse(r) gives the graph or the syntax error of the text that the reader hands out, however the text is cut into pieces (also in the middle of a name or a character, also with empty reads) and however large ReadAll's buffers are; an error of the reader is returned, and no graph, even if a whole graph came before it; if the reader never ends, Parse does not return. ParseFile opens the file once, and if that fails returns the error and does nothing else; otherwise it closes the file exactly once, after the last read, whatever the file contains; if closing fails, that error replaces the graph or the syntax error. A lexer made with NewLexerFile gives the same graphs and errors, with the path in front of the text of an error. A Parser and a Lexer may be used again: after Reset, whatever was done with them before, Parse gives the same graph, or an error with the same token, offset and expected tokens; but Reset leaves line and column as they are, so that lines (and columns up to the first line break) are counted on from where the lexer was and the text of the error changes from parse to parse. Without Reset a second Parse after a success always fails at end-of-file.", "quantifier": "every text, every reader and way to cut the text, every buffer size, every outcome of open, read and close, every history of Scan, Reset and Parse with one lexer and one parser, every random stream", "why_tests_cant": "the ways to cut a text and the histories are infinitely many; a failing close or read is hard to produce", "anchors": ["internal/parser/main.go: Parse, ParseFile", "internal/lexer/lexer.go: NewLexerFile, Reset, Scan", "internal/parser/parser.go: Parse, Reset", "internal/errors/errors.go: Error.Error", "internal/token/context.go: Sourcer"]}
{"id": "C83", "title": "A parsed tree shares nothing and may be changed as a value", "statement": "Parse, with Go's pointers, slices and append (which writes into the old array when there is room), returns the same syntax tree or error as with immutable values, whatever room append leaves, and writes to nothing that existed before: trees parsed earlier keep what they show. No two places of the returned tree share memory. So a program may assign to any field or element of parsed trees, append to any list in them, make structs and lists and put trees into each other: in the end all its variables hold the trees they would hold if every assignment and append copied, and it panics exactly where the copying program would; the room that append leaves is never seen. The exception is what the program does itself: appending twice to the same list and keeping both results overwrites the end of the first one exactly when the array has room, and the lists of parsed trees do have room.", "quantifier": "every text, every policy of append for the size of new arrays, every memory before the call, every random stream, every program of parses, assignments, appends and moves", "why_tests_cant": "aliasing shows only for some lengths and capacities and some sequence of edits; capacities depend on the Go release", "anchors": ["ast/ast.go: NewStmtList, AppendStmtList, NewAttrList, AppendAttrList, NewAList, AppendAList, NewEdgeRHS, AppendEdgeRHS, NewEdgeStmt, NewNodeStmt, NewSubGraph, NewGraph", "internal/parser/productionstable.go: ReduceFunc", "internal/parser/parser.go: Parse", "gographviz.go: Parse"]}
{"id": "C84", "title": "Syntax trees made by hand: nils and constructors", "statement": "A program may build syntax trees itself, with struct literals or with the constructors of package ast, whose arguments are interface{}. A tree either has a nil pointer or nil interface somewhere, or it is an AST. String of a graph or statement, Analyse into any Interface and NewAnalysedGraph panic exactly if there is a nil in the tree, and otherwise behave as on the AST. When Analyse panics, the Interface has got every call for the statements before the first one with a nil, and nothing behind that statement matters. Walk, with any visitor (which may return nil or panic), visits nil pointers and then panics, panics at once at nil interfaces, and skips nil pointers under a nil visitor; a visitor that never returns nil does not get through a tree with a nil. A constructor returns an error exactly for NewAttr with a value that is not an ID and for NewSubGraph with a name that is not an ID; every other argument of a wrong type panics; only NewSubGraph without a name draws a random number. The graphs that can be made by calling constructors and checking errors are exactly the ASTs in which edge statements have an arrow, subgraphs have a name and attribute lists other than the first of several are not empty; so they never have a nil. A nil returned with an error that is not checked is accepted by the other constructors. The calls made before the panic are known exactly: none for a statement in which the nil stands at once, those for the arrows before the nil for an edge statement between nodes, at any depth of subgraph statements.", "quantifier": "every tree with nils in any places, every visitor, every implementation of Interface, every call of a constructor with any arguments, every sequence of such calls", "why_tests_cant": "the places of a nil in a tree are unbounded, and a missed place shows only as a panic or a silently skipped part there; the constructors accept any type", "anchors": ["ast/ast.go: New*, Append*, MakeNodeID, PutMap, String and indentString, Walk", "analyse.go: Analyse, NewAnalysedGraph, graphVisitor, stmtVisitor, nilVisitor"]}
{"id": "C85", "title": "Nil pointers inside the containers of a graph", "statement": "Let entries of Nodes.Lookup, Nodes.Nodes, Edges.Edges or SubGraphs.SubGraphs be nil. A call that returns returns what it would return with any pointer in place of each nil, and has the same effect; so does every history of calls, also when further entries are set to nil between them, up to the first panic. Exactly these calls panic: AddNode of a name whose Lookup entry is nil, if the attributes are valid (nothing has been done); AddAttr to a subgraph whose entry is nil, even with an invalid field (nothing has been done); AddSubGraph of such a name with at least one attribute, unless it is the name of the graph (the relation has been added); RemoveNode if a nil comes before the first node with the name in the slice Nodes, also if there is no such node (nothing has been done), or if the node is found and some edge is nil (the node and the relation have gone, the edges are as before); RemoveSubGraph if, in the order of the range loop, a child is reached that RemoveNode panics on (the children before it have been removed), or if there is no child and some edge is nil (relation and subgraph have gone). No call makes a nil. IsNode and IsSubGraph take a nil entry for an entry. Writing does not see nil in the slice Nodes; with nil elsewhere no text is written: a panic, or the error that there is with any pointer in place of the nils; with a nil edge always a panic.", "quantifier": "all graphs with nil in any of the four places, all calls, all iteration orders, all histories, all completions", "why_tests_cant": "ranges over every placement of nils, every iteration order of the children and every value that could stand for the nil", "anchors": ["graph.go: AddNode, AddAttr, AddSubGraph, RemoveNode, RemoveSubGraph, IsNode, IsSubGraph", "nodes.go: Add, Remove, Sorted", "edges.go: Add, Sorted", "subgraphs.go: Add, Sorted", "write.go: Write, newSubGraph, newNodeStmt, newEdgeStmt"]}
{"id": "C86", "title": "Texts put together from parts", "statement": "Programs write DOT by printing parts and joining them. Whether a text can stand between the braces of a graph (closing brace on a line of its own) and which statements it says there does not depend on whether it is graph or digraph, strict or not, or on the name. If two texts say statements, then both after each other with a newline between them say the statements of the first followed by those of the second; with a subgraph written around it (named or not) a text says that subgraph. StmtList.String() of statements that survive printing says these statements, String() of a statement says the statement (or nothing, for empty defaults), also with a semicolon behind unless it is empty. NodeID.String(), a space and AttrList.String() say the node statement; String() of an endpoint, EdgeOp.String() and String() of endpoints, a space and AttrList.String() the edge statement; node, edge or graph and AttrList.String() the defaults, and then names may even begin or end with (Unicode) spaces. A text that is accepted with the closing brace at its end is also accepted with the brace on a line of its own. Not true: without a newline between them; with a semicolon after StmtList.String(); that what follows a text on its own line must say something alone.", "quantifier": "all texts, statements and lists of them, all headings, every random source", "why_tests_cant": "ranges over all pairs of texts, whatever comments, strings or broken characters they end or begin with", "anchors": ["ast/ast.go: String of StmtList, statements, AttrList, NodeID, EdgeOp, SubGraph", "internal/lexer/lexer.go: Scan", "dot.bnf: stmt_list, comments", "gographviz.go: Parse"]}
{"id": "C87", "title": "One line of text for each call", "statement": "Programs that write DOT line by line and programs that make calls give the same graph. Take a history of AddNode, AddEdge, AddPortEdge, AddAttr and AddSubGraph on any graph, with valid IDs for names and values, where each parent is the graph or is reached from it through existing subgraphs, and edges end at nodes that are directly in the graph. Write one line for each call: n [k=v, ...], a:p->b [k=v, ...], k=v, subgraph S {k=v ...}, in subgraph P { ... } for each subgraph on the way to the parent; attributes in any order. With a heading and a closing brace the lines are a DOT text; analysing it into the graph succeeds if and only if all calls succeed, and then gives the same graph; so do Read and calls on a new graph, and String() gives the same text. Not true: for edges whose ends are no nodes or only in a subgraph (the line adds them to the graph), for parents that do not exist (the line makes them) or are not reached by the whole path, for ports given to AddPortEdge without a colon.", "quantifier": "all graphs and histories of adding calls of any length, all ways to order attributes, all paths through subgraphs, all iteration orders and random sources", "why_tests_cant": "ranges over all histories and all texts made for them", "anchors": ["analyse.go: Analyse and the visitors", "graph.go: AddNode, AddEdge, AddPortEdge, AddAttr, AddSubGraph", "gographviz.go: Read", "internal/parser/parser.go: Parse"]}
{"id": "C88", "title": "Comparing graphs by their texts", "statement": "Programs and tests compare graphs by String(). If two graphs have the same text, and their names, attribute values and printed ports are IDs, no subgraph has the name of the graph or, in the main graph, of a node, and the text is that of a graph and not of an error, then they have the same name, flags and attributes, the same nodes with the same attributes, the same written subgraphs with the same attributes and children, the same subgraphs at the top level of the text, and the same edges up to order and the spelling of ports (p and p: are printed alike). If ports are spelled p or p:c, the texts are the same if and only if all that is the same. For graphs that survive writing (C35) the texts are the same if and only if the graphs have the same content, the same children of subgraphs, and the same subgraphs at the top level. For all graphs without empty attribute values at edges, also illegible ones, the converse holds: with the same content, children of subgraphs and top level, the texts, trees and errors are the same; if all that is shown and the edges are the same and both can be written, the texts are. Not true: for names that are not IDs (one node can have the text of two), for ports and for subgraphs that are not written beyond what is said here.", "quantifier": "all pairs of graphs however built, all iteration orders, sorting functions and depths", "why_tests_cant": "ranges over all pairs of graphs; a test can show two that collide but not that none do", "anchors": ["write.go: WriteAst", "ast/ast.go: String methods", "graph.go: String", "internal/parser/parser.go: Parse", "analyse.go: Analyse"]}
{"id": "C89", "title": "Which graphs can be written after removals", "statement": "Take a graph that String can write and in which no name is that of a node and of a subgraph. After RemoveNode or RemoveSubGraph with any arguments, whether it succeeds or not, WriteAst and String succeed if and only if no subgraph that is still written has a child that is gone, and otherwise the error names such a child; edges are never in the way. After a successful RemoveNode(p, n) that means: no subgraph other than p that is reached from the main graph or from an edge that does not end at n has n as a child, and the error is that n is not a node or a subgraph; so a node that is in no subgraph may be removed with any name for its parent. After a successful RemoveSubGraph(p, n): no subgraph that is still written, other than p, has n or a child of n as a child. If every name has at most one parent, then any number of removals that name the parent of what they remove (and only remove subgraphs without subgraphs) succeed and leave a graph that can be written. A graph that cannot be written after RemoveNode because other subgraphs had the node can be mended: AddNode(q, n) and RemoveNode(q, n) for each of these q succeed, change nothing else, and the graph can be written.", "quantifier": "all graphs however built, all arguments, all histories of such removals, iteration orders, sorting functions and depths above the number of subgraphs", "why_tests_cant": "the condition is an equivalence over all graphs and all histories of removals", "anchors": ["graph.go: RemoveNode, RemoveSubGraph, AddNode, String", "write.go: WriteAst", "relations.go: Remove"]}
{"id": "C90", "title": "Editing a graph after saving and loading it", "statement": "A graph that survives writing (C35), has no ports at its edges and no relations left over by removals, is written with String and read again. The same calls on the graph and on the loaded one, whatever the iteration orders, except those that rename the main graph or add or remove a subgraph of its name, succeed or fail alike and give graphs that agree in name, flags, attributes, nodes, subgraphs, edges up to order, and the children of everything but the main graph (calls of AddSubGraph and RemoveSubGraph are to succeed). If the calls only add, and at the end no name is that of a node and of a subgraph, the two graphs are written alike: the same tree, the same text, the same error, whatever the sorting functions and depths. Not true of the text after removals: a subgraph that ends an edge becomes part of the main graph by being loaded, which shows when the edge is gone; nor with relations left over, which loading forgets. Saving and loading any number of times between calls that add and succeed makes no difference: the calls alone succeed and what is written at the end is the same.", "quantifier": "all graphs that survive writing, all histories of calls, iteration orders, sorting functions, random sources and depths", "why_tests_cant": "ranges over all graphs and all histories of calls after the loading", "anchors": ["graph.go: String, Graph methods", "write.go: WriteAst", "analyse.go: Analyse, NewAnalysedGraph", "gographviz.go: Read"]}
