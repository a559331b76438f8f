{"id": "C01", "title": "Packrat Parse always returns", "statement": "packrat.New(g).Parse(lexemes) returns after finitely many steps and never panics, for every grammar - left recursive, mutually recursive, cyclic (A derives A), nullable or ambiguous - and every lexeme slice none of whose kinds is a non-terminal of g.", "quantifier": "all grammars whose NonTerminals() and Productions() agree; all finite lexeme slices without non-terminal kinds", "why_tests_cant": "Non-termination or an index panic can hide in any grammar/input pair; tests try a handful of grammars.", "anchors": ["parser/packrat/packrat.go: Packrat.Parse, prOp.addProds, prOp.addPartial, updater.update, prOp.addToMemo, createsCircularDep, comparePriority, toPN"]}
{"id": "C02", "title": "Packrat Parse is sound", "statement": "If packrat Parse returns a node for a non-empty lexeme slice, that node is a derivation tree of the grammar: its root kind is the first non-terminal, the children of every inner node spell one of that symbol's productions, and its leaves, left to right, are exactly the input lexemes (same kind, value and position).", "quantifier": "all grammars, all non-empty lexeme slices without non-terminal kinds", "why_tests_cant": "A wrong tree can appear for any ambiguity pattern, as memo entries are replaced while parsing.", "anchors": ["parser/packrat/packrat.go: Packrat.Parse, treeDef.toPN, prOp.addToMemo"]}
{"id": "C03", "title": "Packrat Parse is complete", "statement": "If the grammar derives the lexeme kinds from its start symbol by any derivation whatsoever (including through left recursion, cycles and empty productions), packrat Parse returns a node, not nil.", "quantifier": "all grammars, all lexeme slices without non-terminal kinds, all derivations", "why_tests_cant": "Completeness quantifies over all derivations of all grammars; the readme claims left recursion is handled and tests check four grammars.", "anchors": ["parser/packrat/packrat.go: prOp.addPartial, prOp.addProds, prOp.push, updater.update"]}
{"id": "C04", "title": "Packrat prefers earlier productions", "statement": "In a grammar where no symbol derives itself, every inner node of the tree returned by packrat Parse uses the earliest listed production of its symbol that can derive the lexemes the node spans.", "quantifier": "all grammars without A =>+ A, all lexeme slices, all inner nodes", "why_tests_cant": "Priority is decided by the arrival order of memo updates; a test sees one arrival order per example.", "anchors": ["parser/packrat/packrat.go: prOp.addToMemo, treeDef.comparePriority"]}
{"id": "C05", "title": "Packrat node positions and parent links", "statement": "In a tree returned by packrat Parse, every inner node reports the position of its first child, a node with no children that is not a lexeme reports line -1, column 0, leaves report their lexeme's position, and the parent link of every child is the node that lists it while the root has none.", "quantifier": "all grammars, all lexeme slices whose kinds are not names of non-terminals, all nodes of the result", "why_tests_cant": "Must hold at every node of every tree.", "anchors": ["parser/packrat/packrat.go: treeDef.toPN"]}
{"id": "C06", "title": "Packrat on empty input", "statement": "On an empty lexeme slice packrat Parse returns nil unless the start symbol derives the empty string.", "quantifier": "all grammars", "why_tests_cant": "Quantifies over all grammars; no test parses the empty slice with a non-nullable grammar.", "anchors": ["parser/packrat/packrat.go: Packrat.Parse (accept/accepted comparison)"]}
{"id": "C07", "title": "Packrat tree shape depends only on kinds", "statement": "Two lexeme slices with the same sequence of kinds give packrat trees of identical shape and kinds; values and positions are only carried to the leaves.", "quantifier": "all grammars, all pairs of lexeme slices", "why_tests_cant": "Relational property over all pairs of inputs.", "anchors": ["parser/packrat/packrat.go: Packrat.Parse, treeDef.toPN"]}
{"id": "C08", "title": "Packrat with lexemes named like non-terminals", "statement": "Packrat Parse neither panics nor returns a tree that is not a derivation when a lexeme's kind equals a non-terminal's name.", "quantifier": "all grammars, all lexeme slices", "why_tests_cant": "Only arises for particular grammar/input combinations which no test contains.", "anchors": ["parser/packrat/packrat.go: updater.update (checkNonTerminal(extended.treeMarker)), comparePriority"]}
{"id": "C09", "title": "Topdown Parse is sound", "statement": "If topdown Parse returns a node, it is a derivation tree of the grammar rooted at the first non-terminal whose leaves are exactly the input lexemes, all consumed.", "quantifier": "all grammars, all lexeme slices", "why_tests_cant": "Tests assert on one tree (others only non-nil).", "anchors": ["parser/topdown/topdown.go: Topdown.Parse, tdOp.tryAccept, tdOp.acceptProd"]}
{"id": "C10", "title": "Topdown memoisation is transparent", "statement": "topdown Parse returns precisely the outcome of un-memoised ordered-choice recursive descent: each non-terminal takes its first production that matches at the position, and the outermost one takes its first production that matches and consumes everything.", "quantifier": "all grammars, all lexeme slices on which the descent terminates", "why_tests_cant": "Sharing memo entries across contexts could change the result for some grammar.", "anchors": ["parser/topdown/topdown.go: tdOp.accept, tdOp.tryAccept, tdOp.acceptProd"]}
{"id": "C11", "title": "Topdown Parse terminates on grammars that are not left recursive", "statement": "If no non-terminal can reach itself in leftmost position (taking nullable prefixes into account), topdown Parse returns on every input.", "quantifier": "all non-left-recursive grammars, all lexeme slices", "why_tests_cant": "Termination over infinitely many inputs.", "anchors": ["parser/topdown/topdown.go: tdOp.accept"]}
{"id": "C12", "title": "topdown.New refuses every grammar on which Parse would not terminate", "statement": "topdown.New returns ErrLeftRecursion for every left recursive grammar, so a parser that was constructed never recurses forever.", "quantifier": "all grammars", "why_tests_cant": "The detector is exercised on three small grammars; nullability interacts with its caching.", "anchors": ["leftrecursion.go: IsLeftRecursive, lrOp.check", "parser/topdown/topdown.go: New"]}
{"id": "C13", "title": "IsLeftRecursive never raises a false alarm and terminates", "statement": "IsLeftRecursive returns on every grammar, and when it returns true some non-terminal really can reach itself in leftmost position.", "quantifier": "all grammars", "why_tests_cant": "Quantifies over all grammars.", "anchors": ["leftrecursion.go: IsLeftRecursive, lrOp.check"]}
{"id": "C14", "title": "Topdown completeness", "statement": "Topdown Parse returns a node whenever the grammar derives the input.", "quantifier": "all non-left-recursive grammars, all derivable inputs", "why_tests_cant": "Quantifies over all derivations; ordered choice never backtracks into a finished non-terminal.", "anchors": ["parser/topdown/topdown.go: tdOp.tryAccept"]}
{"id": "C15", "title": "Everything topdown accepts packrat accepts", "statement": "Swapping the topdown parser for the packrat parser never turns a successful parse of a non-empty input into a failure.", "quantifier": "all grammars, all non-empty lexeme slices", "why_tests_cant": "Relates two parsers over all inputs.", "anchors": ["parser/topdown/topdown.go: Topdown.Parse", "parser/packrat/packrat.go: Packrat.Parse"]}
{"id": "C16", "title": "Grammar text round trip", "statement": "For every grammar g built by grammar.New, grammar.New(g.String()) succeeds and yields a grammar with the same non-terminals in the same order, the same productions in the same order, and the same String().", "quantifier": "all definition strings accepted by grammar.New", "why_tests_cant": "Round trip over all definition strings incl. odd spacing, tabs, unicode spaces, continuation lines.", "anchors": ["grammar/grammar.go: New, Grammar.String, trimAndSplit, productionFromLine"]}
{"id": "C17", "title": "Grammar behaves as an ordered multimap under every history", "statement": "After any sequence of Add, Productions and NonTerminals calls, Productions(s) returns exactly the productions added for s in order (nil if none), and NonTerminals() lists every symbol that has productions exactly once, in order of first addition.", "quantifier": "all call sequences on a Grammar, all symbols (own or foreign)", "why_tests_cant": "Histories are unbounded; storage is an index-addressed slice with nil holes.", "anchors": ["grammar/grammar.go: Add, Productions, NonTerminals, Empty", "symbol/setsymbol/set.go"]}
{"id": "C18", "title": "Grammar lookups do not disturb the grammar", "statement": "Productions and NonTerminals never change the answer of any later call, and asking for a symbol the grammar mentions leaves the grammar's internal state untouched, so concurrent parses that only look up such symbols perform no writes.", "quantifier": "all grammars, all interleavings of lookups", "why_tests_cant": "Quantifies over interleavings.", "anchors": ["grammar/grammar.go: Productions, NonTerminals", "symbol/setsymbol/set.go: Set.Symbol"]}
{"id": "C19", "title": "grammar.New meaning and errors", "statement": "grammar.New fails exactly when some non-blank line contains two or more arrows; otherwise each line adds one production to the non-terminal left of its arrow, or to the most recent one (START if none) when the left side is missing, the production being the space separated words of the right side.", "quantifier": "all definition strings", "why_tests_cant": "All strings.", "anchors": ["grammar/grammar.go: New, productionFromLine, trimAndSplit"]}
{"id": "C20", "title": "RemoveLeftRecursion", "statement": "RemoveLeftRecursion returns, for every grammar, a grammar that is not left recursive and derives the same strings.", "quantifier": "all grammars", "why_tests_cant": "Tests compare two hand-computed outputs.", "anchors": ["grammar/left_recursion.go: RemoveLeftRecursion, safeAdd, removeDirectLeftRecursion, directAdd"]}
{"id": "C21", "title": "Symbol interning is a stable bijection", "statement": "In a setsymbol.Set, after any sequence of operations, Str returns equal indexes for equal strings and different indexes for different strings, the symbol's String() gives back the string, indexes are dense below Size(), and an index or string once issued never changes.", "quantifier": "all operation sequences, all strings", "why_tests_cant": "Histories.", "anchors": ["symbol/setsymbol/set.go: Str, Symbol, Idx, Has, HasSymbol, ByIdx, Size"]}
{"id": "C22", "title": "ByIdx is total and out-of-range safe", "statement": "ByIdx returns nil for every index outside the set and otherwise a symbol whose String() does not panic; Idx adds a missing symbol as documented.", "quantifier": "all sets, all indexes", "why_tests_cant": "Boundary at every size.", "anchors": ["symbol/setsymbol/set.go: ByIdx, Idx"]}
{"id": "C23", "title": "Loading grammars and lexemes into a set preserves them", "statement": "LoadGrammar makes every symbol of the grammar known; LoadLexemes returns lexemes with the same kind name, value and position in the same order.", "quantifier": "all grammars, all lexeme slices", "why_tests_cant": "All inputs.", "anchors": ["symbol/setsymbol/set.go: LoadGrammar, LoadLexemes"]}
{"id": "C24", "title": "Iterators visit each element exactly once in order", "statement": "Calling Next until it returns false on a ProductionIterator or ProductionsIterator visits the elements 0..n-1 once each in order with Idx equal to the element's index, and Next keeps returning false afterwards.", "quantifier": "all productions, any number of Next calls", "why_tests_cant": "Unbounded call sequences, including calls after the end.", "anchors": ["helpers.go: ProductionIterator.Next, ProductionsIterator.Next"]}
{"id": "C25", "title": "Removing children", "statement": "RemoveChild(i) removes exactly the child at i (negative counts from the end) and reports true, or changes nothing and reports false when out of range; RemoveChildren removes exactly the children whose original index is listed, whatever the duplicates and order of the list; RemoveAll removes exactly the children whose kind is listed; the rest keep their order.", "quantifier": "all nodes, all index lists, all symbol lists", "why_tests_cant": "All lengths and index combinations, in-loop index juggling.", "anchors": ["tree/node_reductions.go: RemoveChild, RemoveChildren, RemoveAll, GetIdx"]}
{"id": "C26", "title": "Splicing children", "statement": "PromoteChildrenOf(i) replaces the child at i by that child's children in place; PromoteGrandChildren replaces every child by its children; nothing else changes and out-of-range indexes change nothing.", "quantifier": "all nodes, all indexes", "why_tests_cant": "All shapes.", "anchors": ["tree/node_reductions.go: PromoteChildrenOf, PromoteGrandChildren"]}
{"id": "C27", "title": "Promoting a child", "statement": "PromoteChild(i) takes over the child's lexeme and replaces the child by its children; PromoteSingleChild does so exactly when there is one child; ReplaceWithChild makes the node equal to the child; out-of-range indexes change nothing.", "quantifier": "all nodes, all indexes", "why_tests_cant": "All shapes.", "anchors": ["tree/node_reductions.go: PromoteChild, PromoteSingleChild, ReplaceWithChild"]}
{"id": "C28", "title": "PromoteChildValue", "statement": "PromoteChildValue(i) sets value and position from the child at i, keeps the kind, and removes that child; if i is out of bounds no action is taken.", "quantifier": "all nodes, all integers i", "why_tests_cant": "The failing indexes lie outside every tested range.", "anchors": ["tree/node_reductions.go: PromoteChildValue"]}
{"id": "C29", "title": "In-place slice edits never corrupt other nodes", "statement": "The reductions, written with append on sub-slices of shared backing arrays, have the effect of the pure list operation on the node they are called on and leave every other node of an unshared tree untouched, whatever the slices' spare capacities and Go's growth policy.", "quantifier": "all heaps in which a tree's nodes own disjoint backing arrays, all capacities", "why_tests_cant": "Depends on capacities and growth policy, which tests do not control.", "anchors": ["tree/node_reductions.go: RemoveChild, PromoteChildrenOf, PromoteChild, RemoveAll", "tree/parsetree.go: PN"]}
{"id": "C30", "title": "Reduce is a bottom-up rewrite that leaves its input alone", "statement": "Reducer.Reduce does not modify the input tree; the result at each node is the reduction registered for the node's kind applied once to the node with its children already reduced, or the plain copy when none is registered; with an empty reducer the result equals the input (kinds, values, positions, shape).", "quantifier": "all trees, all reducers", "why_tests_cant": "All trees and reducers.", "anchors": ["tree/reducer.go: Reduce, RawReduce"]}
{"id": "C31", "title": "Merge, Chain and If", "statement": "Merge(r1,r2) maps a kind to r1's reduction followed by r2's when both have it and otherwise to the one that exists, independently of Go's map iteration order; Chain is associative with nil as unit; If runs exactly one branch.", "quantifier": "all reducers, all iteration orders", "why_tests_cant": "Map iteration order is random.", "anchors": ["tree/reducer.go: Merge", "tree/chain_reductions.go: Chain, If"]}
{"id": "C32", "title": "Tree String preallocation is exact", "statement": "The number of string segments PN.String computes in advance equals the number it appends, for every tree, and Size() counts every node once.", "quantifier": "all trees", "why_tests_cant": "Checked for one tree.", "anchors": ["tree/parsetree.go: String, string, sliceReq, Size"]}
{"id": "C33", "title": "Tree text round trip", "statement": "tree.New(t.String()) yields a tree with the same shape, kinds and values as t.", "quantifier": "all trees whose kinds are plain words", "why_tests_cant": "All values, including quotes, backslashes and control characters.", "anchors": ["tree/parsetree.go: New, String, reTreeLine, handleSlash"]}
{"id": "C34", "title": "tree.New rejects malformed text without panicking", "statement": "tree.New returns either a tree or ErrBadTreeString for every input string.", "quantifier": "all strings", "why_tests_cant": "All strings.", "anchors": ["tree/parsetree.go: New"]}
{"id": "C35", "title": "Clone", "statement": "Clone returns a structurally identical tree (kinds, values, shape) sharing no node with the original, with correct parent links and positions.", "quantifier": "all trees", "why_tests_cant": "All trees.", "anchors": ["tree/parsetree.go: Clone"]}
{"id": "C36", "title": "Parent links after reduction", "statement": "In the tree returned by Reduce, Parent() of each child is the node listing it.", "quantifier": "all trees, all reducers built from the provided reductions", "why_tests_cant": "All trees.", "anchors": ["tree/reducer.go: RawReduce", "tree/node_reductions.go"]}
{"id": "C37", "title": "Simple lexer is lossless and terminates", "statement": "simplelexer Lex returns on every input, and the values of the produced lexemes, together with the discarded matches, concatenate to exactly the input.", "quantifier": "all rule sets, all inputs, any regexp engine returning well-formed leftmost matches", "why_tests_cant": "All inputs.", "anchors": ["lexer/simplelexer/lexer.go: Lex, findNextMatch, updateNext, checkError"]}
{"id": "C38", "title": "Simple lexer takes the longest match, then the earliest rule", "statement": "At every position the simple lexer emits the longest match among all rules, the earliest listed rule winning ties, exactly as if every rule were tried afresh at every position: the cached match table never changes the result.", "quantifier": "all rule sets without look-behind, all inputs", "why_tests_cant": "The cache holds matches found at earlier offsets; staleness shows only on particular inputs.", "anchors": ["lexer/simplelexer/lexer.go: populateNext, updateNext, findNextMatch, lengthThenPriority"]}
{"id": "C39", "title": "Simple lexer ByPriority", "statement": "After ByPriority, at every position the match of the earliest listed matching rule is emitted.", "quantifier": "all rule sets, all inputs", "why_tests_cant": "No test calls ByPriority on the simple lexer.", "anchors": ["lexer/simplelexer/lexer.go: ByPriority, priorityThenLength, findNextMatch"]}
{"id": "C40", "title": "Lexeme line and column numbers", "statement": "Each lexeme reports the number of newlines before it as its line offset, and one plus the distance from the last newline as its column.", "quantifier": "all rule sets, all inputs", "why_tests_cant": "All inputs incl. those with unmatched text and newlines inside lexemes.", "anchors": ["lexer/simplelexer/lexer.go: findNextMatch", "lexer/stacklexer/lex.go: handleLineCol, checkError"]}
{"id": "C41", "title": "Lex errors are exactly the unmatched stretches", "statement": "LexErrors(Lex(s)) lists, in order, exactly the maximal stretches of the input at whose positions no rule matches; there is none iff the whole input is matched.", "quantifier": "all rule sets, all inputs", "why_tests_cant": "All inputs.", "anchors": ["lexer/simplelexer/lexer.go: Lex, checkError", "helpers.go: LexErrors"]}
{"id": "C42", "title": "Lexers can be reused and extended", "statement": "After any history of Lex and Add calls a simple lexer neither panics nor changes its answers for unchanged rules.", "quantifier": "all call histories", "why_tests_cant": "Histories mixing failed lexes and Add are untested.", "anchors": ["lexer/simplelexer/lexer.go: Lex, checkError, populateNext", "lexer/simplelexer/construct.go: Add, addRule"]}
{"id": "C43", "title": "Lexer definition errors", "statement": "Adding a rule whose kind already has one is refused and leaves the lexer unchanged; otherwise the rule gets the next priority.", "quantifier": "all rule sequences", "why_tests_cant": "All histories.", "anchors": ["lexer/simplelexer/construct.go: addRule, New"]}
{"id": "C44", "title": "Stack lexer is lossless and terminates", "statement": "For every lexer made by stacklexer.New with at least one sub-lexer, in which the groups that rules ask for always take part in their matches, and after any calls, Lex terminates: it returns, and the texts of its matches (also discarded ones) and errors concatenate to exactly the input; or it panics right after a rule that pops or that pushes to an unknown sub-lexer, the pieces up to there being a prefix of the input. Without any sub-lexer Lex panics.", "quantifier": "all lexers, all inputs", "why_tests_cant": "All inputs, all stack histories.", "anchors": ["lexer/stacklexer/lex.go: lex, pop, findNextMatch"]}
{"id": "C45", "title": "Stack lexer takes the longest match", "statement": "At every position the stack lexer emits the longest match among the current sub-lexer's rules.", "quantifier": "all lexers, all inputs", "why_tests_cant": "Offsets of cached matches are relative to different bases only after an error.", "anchors": ["lexer/stacklexer/lex.go: findNextMatch, updateNext, populateNext"]}
{"id": "C46", "title": "Stack lexer stack discipline", "statement": "A push rule switches to the named sub-lexer, a pop rule with k carets returns to the k-th enclosing one (the outermost if there are fewer), and Lex never panics because of them.", "quantifier": "all lexers, all inputs", "why_tests_cant": "All nesting depths.", "anchors": ["lexer/stacklexer/lex.go: lex, pop"]}
{"id": "C47", "title": "Stack lexer construction reports cyclic inheritance", "statement": "stacklexer.New returns ErrCyclic when sub-lexers inherit from each other cyclically.", "quantifier": "all definitions", "why_tests_cant": "Error is computed but may be dropped.", "anchors": ["lexer/stacklexer/construct.go: New, parse, addHeir"]}
{"id": "C48", "title": "Stack lexer construction is deterministic", "statement": "The lexer built from a definition does not depend on Go's map iteration order, and inherited rules keep the priority order of their definition.", "quantifier": "all definitions, all iteration orders", "why_tests_cant": "Map order is random at run time.", "anchors": ["lexer/stacklexer/construct.go: New, addHeir, addRule"]}
{"id": "C49", "title": "Regular-expression grammars mean what they say", "statement": "The plain grammar regexgram builds derives, from every user-defined non-terminal, exactly the strings its productions with ?, *, | and groups denote.", "quantifier": "all regex grammars with distinct generated names and non-empty groups", "why_tests_cant": "All nestings of operators.", "anchors": ["grammar/regexgram/regexgram.go: evalGrammar, evalProd, evalSymbol, addRepeatAsProduction, mergeRules, reduce"]}
{"id": "C50", "title": "Generated repeat names do not collide", "statement": "Two different repeated expressions never share a generated non-terminal, and an empty group means the empty string.", "quantifier": "all regex grammars", "why_tests_cant": "Collisions need particular symbol names.", "anchors": ["grammar/regexgram/regexgram.go: getName, addRepeatAsProduction, ruleComb.reduce"]}
{"id": "C51", "title": "The repeat reducer flattens repetitions", "statement": "Reducing a parse tree with the reducer regexgram returns leaves no generated repeat node below its parent: the repeated items appear directly, in order, and nothing else changes.", "quantifier": "all trees", "why_tests_cant": "All repetition lengths and nestings.", "anchors": ["grammar/regexgram/regexgram.go: bludgeon", "tree/node_reductions.go: PromoteChildrenOf"]}
{"id": "C52", "title": "Reducer descriptions mean the chained reductions", "statement": "The reduction built from a parsed reducer description performs the listed reductions in order with the given arguments, with If choosing one branch.", "quantifier": "all descriptions", "why_tests_cant": "All chains and nestings.", "anchors": ["tree/reducer/reducer.go: evalReduction, evalConditional, evalVarNumArgs"]}
{"id": "C53", "title": "HasFirst", "statement": "HasFirst(s, t) holds exactly when terminal t can begin a string derived from s.", "quantifier": "all grammars, all symbols", "why_tests_cant": "All grammars.", "anchors": ["analyze/analysis.go: firsts, HasFirst"]}
{"id": "C54", "title": "NonTerminal and Contains", "statement": "NonTerminal(s) holds exactly for the grammar's non-terminals, and Contains(s) exactly for the symbols that occur in the grammar.", "quantifier": "all grammars, all symbols", "why_tests_cant": "All grammars.", "anchors": ["analyze/analysis.go: NonTerminal, Contains"]}
{"id": "C55", "title": "HasNilInFirst", "statement": "HasNilInFirst(s) holds exactly when an empty production can be reached from s through leftmost children.", "quantifier": "all grammars, all symbols", "why_tests_cant": "All grammars.", "anchors": ["analyze/analysis.go: firsts, HasNilInFirst"]}
{"id": "C56", "title": "Run pipeline", "statement": "Run returns either a node and no error or no node and an error: ErrCouldNotLex iff the lexer returned nil, else the first lex error if any, else ErrCouldNotParse iff the parser returned nil, else ErrCouldNotReduce iff some reducer returned nil, else the tree after all non-nil reducers in order.", "quantifier": "all lexers, parsers, reducer lists, inputs", "why_tests_cant": "All components and combinations.", "anchors": ["parlex.go: Run, Runner.Run", "helpers.go: LexErrors"]}
{"id": "C57", "title": "JSON formatting preserves the document", "statement": "For every text that Format accepts, the tokens of Format's output other than white space are exactly the tokens of the input, so formatting never changes the document, and formatting the output again returns it unchanged.", "quantifier": "all JSON token sequences the grammar derives", "why_tests_cant": "All documents.", "anchors": ["examples/parlexjson/json.go: Format, prettyPrint"]}
{"id": "C58", "title": "Arithmetic precedence", "statement": "In the math example every expression that can be split at a top-level + or - is evaluated as that operator applied to the parts, so * and / bind tighter, for every expression.", "quantifier": "all token sequences", "why_tests_cant": "All expressions; tests try nine.", "anchors": ["examples/parlexmath/math.go: grammarRules, reducer, eval"]}
{"id": "C59", "title": "Parent of a root is nil", "statement": "For every tree whose root has no parent, root.Parent() compares equal to nil, so walking Parent() up from any node stops at the root.", "quantifier": "all parse trees", "why_tests_cant": "A nil *PN inside a non-nil interface prints like nil.", "anchors": ["tree/parsetree.go: PN.Parent"]}
{"id": "C60", "title": "String() defines a copy of any grammar", "statement": "For every Grammar, however built (New, Empty, Add), grammar.New(g.String()) yields a grammar with the same non-terminals and productions, as the doc comment promises.", "quantifier": "all grammars built by any history of Add", "why_tests_cant": "Symbols are arbitrary strings.", "anchors": ["grammar/grammar.go: String, New, Add"]}
{"id": "C61", "title": "String() defines a copy of any simple lexer", "statement": "For every simple lexer, simplelexer.New(l.String()) yields a lexer with the same rules in the same order, so it lexes every input alike.", "quantifier": "all lexers whose rules were added before the first Lex", "why_tests_cant": "Kinds and expressions are arbitrary strings.", "anchors": ["lexer/simplelexer/construct.go: String, New, ruleFromLine"]}
{"id": "C62", "title": "Stack lexer positions", "statement": "Each lexeme and error of the stack lexer reports one plus the number of newlines before it as its line, and one plus the distance from the last newline as its column.", "quantifier": "all lexers, all inputs", "why_tests_cant": "All placements of newlines relative to unmatched text.", "anchors": ["lexer/stacklexer/lex.go: handleLineCol, checkError"]}
{"id": "C63", "title": "Stack lexer values", "statement": "The value of a lexeme whose rule lists sections is the concatenation of the texts of the listed groups (empty for a group that took no part) and of the quoted literals without their quotes, as the readme shows.", "quantifier": "all lexers, all inputs", "why_tests_cant": "All section lists, all groups.", "anchors": ["lexer/stacklexer/lex.go: findNextMatch", "lexer/stacklexer/construct.go: parseSubmatches", "lexer/stacklexer/readme.md"]}
{"id": "C64", "title": "Stack lexer ByPriority", "statement": "After ByPriority, at every position the stack lexer takes the earliest rule of the current sub-lexer that matches a non-empty text there.", "quantifier": "all lexers, all inputs", "why_tests_cant": "All rule sets.", "anchors": ["lexer/stacklexer/construct.go: ByPriority, priorityThenLength", "lexer/stacklexer/lex.go: findNextMatch"]}
{"id": "C65", "title": "Stack lexer starts in the first sub-lexer", "statement": "Lexing starts with the rules of the first sub-lexer of the definitions.", "quantifier": "all definitions, all iteration orders", "why_tests_cant": "All definitions, also those with repeated headings.", "anchors": ["lexer/stacklexer/construct.go: New"]}
{"id": "C66", "title": "From text to tree", "statement": "Run with a simple lexer in length mode, a packrat parser and tree reducers returns the first unmatched piece of the input as error if there is one; otherwise, when there are lexemes, the reduced derivation tree over exactly the input's lexemes if the start symbol derives their kinds, and ErrCouldNotParse if it does not.", "quantifier": "all lexer rule sets, grammars, reducers and inputs; no rule named like a non-terminal", "why_tests_cant": "All combinations and inputs.", "anchors": ["parlex.go: Run", "lexer/simplelexer/lexer.go: Lex", "parser/packrat/packrat.go: Parse", "tree/reducer.go: Reduce"]}
{"id": "C67", "title": "regexgram.New reads exactly the grammar texts", "statement": "A text stands for at most one grammar with operators, and every such grammar whose symbols are words, whose ? and * follow a symbol or a group and whose | joins two or more alternatives can be written. For a text that stands for a grammar, regexgram.New returns a grammar and reducer without an error, however many texts it was called on before; if symbols have no underscores and groups are not empty, that grammar's first non-terminal is the first one written, it derives exactly what the written grammar matches, and the reducer turns its parse trees into trees of the grammar as written. For any other text New returns an error: the LexError for the first unlexable stretch if there is one, ErrCouldNotParse otherwise.", "quantifier": "all texts, all sequences of earlier calls, all grammars with operators", "why_tests_cant": "Texts, nesting of operators and histories of calls are unbounded; the tests read two grammars.", "anchors": ["grammar/regexgram/regexgram.go: New, lxr, grmr, rdcr", "parlex.go: Run", "lexer/simplelexer/lexer.go: Lexer.Lex", "parser/packrat/packrat.go: Packrat.Parse"]}
{"id": "C68", "title": "The math example rejects what is not an expression", "statement": "parlexmath.Eval returns an error for every text that is not an expression: the LexError of the first unlexable stretch if there is one, ErrCouldNotParse otherwise.", "quantifier": "all texts, all sequences of earlier calls", "why_tests_cant": "All texts; the tests only evaluate expressions.", "anchors": ["examples/parlexmath/math.go: Eval, eval", "parlex.go: Run"]}
{"id": "C69", "title": "reducer.Parse accepts exactly the descriptions", "statement": "reducer.Parse returns a reducer for exactly the texts that are reducer descriptions, with the kinds the description names, and an error for every other text; a text describes at most one reducer.", "quantifier": "all texts, all sequences of earlier calls", "why_tests_cant": "All texts; the tests parse a handful of descriptions.", "anchors": ["tree/reducer/reducer.go: Parse, lxr, grmr, rdcr, evalRule", "parlex.go: Run"]}
{"id": "C70", "title": "Format accepts the JSON of RFC 8259", "statement": "Format returns a string and no error for exactly the texts that are JSON documents of RFC 8259.", "quantifier": "all texts, and all earlier calls of Format", "why_tests_cant": "Tests format one document; signs, exponents, leading zeros, control characters and form feeds are not in it.", "anchors": ["examples/parlexjson/json.go: lexerRules, Format"]}
{"id": "C71", "title": "Format's layout is determined by the document", "statement": "For every text that is a JSON document (numbers, strings and white space as lexerRules has them), Format returns the document's layout: arrays and objects that are elements of an array start a line indented by two spaces per level and the array's end does too, entries of an object with two or more are on lines of their own, and nothing else is separated; every other text gives an empty string and an error, which is the lexer's if some byte begins no token and ErrCouldNotParse otherwise.", "quantifier": "all texts, all package states reachable by earlier calls", "why_tests_cant": "All documents at all depths, and all texts that are not documents.", "anchors": ["examples/parlexjson/json.go: Format, prettyPrint", "parser/topdown/topdown.go: Parse", "grammar/regexgram/regexgram.go: New", "tree/reducer/reducer.go: Must"]}
{"id": "C72", "title": "The stack calculator's Eval is total and returns nil exactly for texts that are no programs", "statement": "For every text, after any earlier calls, scalc.Eval returns and does not panic: nil if some byte begins no token or if the tokens are no program (a list of expressions, stack manipulations and parenthesised programs), and a stack otherwise, which may be empty. The package's lexer and grammar are made without an error.", "quantifier": "all texts, all sequences of earlier calls, all float64 arithmetics", "why_tests_cant": "All texts; the readme itself says that stack manipulation operators can cause panics, and the tests evaluate fewer than thirty texts.", "anchors": ["examples/scalc/scalc.go: lexerRules, grammarRules, rdcr, stack, Parse, Eval, evalStack, evalE", "examples/scalc/readme.md: Know Error", "parser/packrat/packrat.go: Parse", "tree/reducer.go: Reduce"]}
{"id": "C73", "title": "On numbers and operators Eval is a stack machine", "statement": "If a text's tokens are numbers, unary operators and binary operators, Eval returns the stack, bottom first, that a stack machine reaches on them: a number is pushed, an operator replaces its operands on top by its value, and the precision of a result is the larger of its operands'. It returns nil exactly if an operator finds too few operands or a fraction follows no integer.", "quantifier": "all such texts, all sequences of earlier calls, all float64 arithmetics", "why_tests_cant": "The grammar is ambiguous and the value depends on which tree the parser picks; tests fix a few short texts.", "anchors": ["examples/scalc/scalc.go: Eval, evalStack, evalE, evalUop, evalBop, maxPrecision, stack", "examples/scalc/readme.md: Unary Operators, Binary operators, Precision"]}
{"id": "C74", "title": "Stack manipulation, conditionals and parentheses act on the stack wherever they stand", "statement": "swap, drop and clear change the stack built so far, ? replaces the top three values by the second or the third from the top, and parentheses only group, at any place in a text.", "quantifier": "all texts of numbers, unary and binary operators, ?, stack manipulation operators and parentheses", "why_tests_cant": "The tests use these operators once and at the end of a text.", "anchors": ["examples/scalc/scalc.go: stack, evalStack, evalSmp, grammarRules", "examples/scalc/readme.md: Ternary Operator, Stack Manipulation operators"]}
{"id": "C75", "title": "Stack operators take values from the top of the stack", "statement": "If a text's tokens are numbers, unary, binary and stack operators (len, sum, avg, min, max, first, last), with at most one stack manipulation operator, at the end, Eval returns a stack the machine reaches when every stack operator replaces some number of values on top, possibly none or all, by its value over them, and nil exactly if the machine can take no such run. sum and avg have the largest precision of their values, len has none, first is the top and last the bottom of what is taken.", "quantifier": "all such texts, all sequences of earlier calls, all float64 arithmetics", "why_tests_cant": "How many values an operator takes depends on how the parser resolves the ambiguous grammar; tests evaluate each operator on one text.", "anchors": ["examples/scalc/scalc.go: evalSop, evalE, evalStack, stack, grammarRules", "examples/scalc/readme.md: Stack Operators"]}
{"id": "C76", "title": "The packrat parser splits a production's lexemes by comparing children left to right", "statement": "In a grammar in which no symbol derives itself, at every node of the tree Parse returns, the node's lexemes are divided among the symbols of its production by the best split, whenever there is one. One split is better than another if, at the first symbol whose parts differ, every production that derives the one part is listed before every production that derives the other; a best split is better than all other splits. For example with E -> E + E | n a chain of + is split at its last +, so it associates to the left.", "quantifier": "all well formed grammars in which no symbol derives itself, all lexeme slices of terminal kinds derived from the start symbol", "why_tests_cant": "Ambiguities inside one production depend on the grammar and the input, and the order in which the parser finds the splits depends on both.", "anchors": ["parser/packrat/packrat.go: comparePriority, addToMemo, Parse"]}
{"id": "C77", "title": "A stack operator consumes the entire stack", "statement": "For tokens that are numbers, unary, binary and stack operators, Eval returns the stack of a machine whose stack operators take everything on the stack (readme, Stack Operators), and nil if that machine has no run.", "quantifier": "all texts, all float64 arithmetics", "why_tests_cant": "The tests have few texts with stack operators, and none where something after the operator needs its result.", "anchors": ["examples/scalc/scalc.go: grmr, Eval, evalE, evalSop", "examples/scalc/readme.md: Stack Operators"]}
{"id": "C78", "title": "Reducer.Add and Can", "statement": "After any sequence of calls of Add on an empty Reducer, the reduction registered for a kind is the one of the last Add for that kind, and there is none for kinds never added. Can says yes exactly for nodes whose kind was added.", "quantifier": "all sequences of Add calls, all kinds and nodes", "why_tests_cant": "All sequences of calls, including repeated kinds and nil reductions.", "anchors": ["tree/reducer.go: Reducer, Add, Can"]}
{"id": "C79", "title": "Interactive mode ends with its input", "statement": "Without arguments scalc answers each line of standard input and returns at the line exit or at the end of the input.", "quantifier": "all inputs, however Read cuts them, all float64 arithmetics and ways of printing numbers", "why_tests_cant": "A loop that does not end and input lost in a buffer do not show up in tests of Eval.", "anchors": ["examples/scalc/scalc/main.go: interactive"]}
{"id": "C80", "title": "Interactive lines go on with the stack", "statement": "Entering lines one by one, scalc answers each line with the stack a stack machine has after it, bottom first, and with Bad input where the machine has no run or the line is not made of tokens, in which case the stack stays as it was.", "quantifier": "all sequences of lines, all float64 arithmetics and ways of printing numbers", "why_tests_cant": "The stack is carried from line to line as printed text; whether it reads back depends on the values, and there are infinitely many sessions.", "anchors": ["examples/scalc/scalc/main.go: interactive, format", "examples/scalc/scalc.go: Pfloat.String, Eval"]}
{"id": "C81", "title": "The scalc command line", "statement": "With arguments, scalc prints the stack Eval returns, and scalc parse the tree Parse returns, exactly for the argument lists that joined with spaces are programs; otherwise both report Failed to parse. For numbers, unary and binary operators the stack is the stack machine's.", "quantifier": "all argument lists, all float64 arithmetics and ways of printing numbers", "why_tests_cant": "The tool has no tests.", "anchors": ["examples/scalc/scalc/main.go: main, format", "examples/scalc/scalc.go: Parse, Eval"]}
{"id": "C82", "title": "Printed lexemes can be told apart", "statement": "LexemeList prints two lists of lexemes alike only if they are the same lexemes, and Lexeme.String two lexemes only if they have the same kind, value and position. Copy, and New, Set and At with a lexeme's own kind, value and position, return an equal lexeme.", "quantifier": "all lexemes, all lists, whatever code points fmt prints unquoted", "why_tests_cant": "Texts have to be compared for every pair of lexemes, with quotes, newlines and negative positions in them.", "anchors": ["helpers.go: LexemeList", "lexeme/lexeme.go: Lexeme.String, Copy, Set, At"]}
{"id": "C83", "title": "LexemeString tells lexemes apart", "statement": "LexemeString gives two lists of lexemes the same text only if they have the same kinds and values in the same order.", "quantifier": "all lists of lexemes", "why_tests_cant": "It depends on which bytes are in the kinds and values.", "anchors": ["helpers.go: LexemeString"]}
{"id": "C84", "title": "The message of a lex error", "statement": "The message of a lex error has the line and column at which the junk begins and then the junk. Run returns the one for the first junk.", "quantifier": "all lexers, all inputs", "why_tests_cant": "Each test has one input; positions depend on everything before the junk.", "anchors": ["lexer/simplelexer/lexer.go: errLexeme.Error, LexUnlexed", "lexer/stacklexer/construct.go: errLexeme.Error", "parlex.go: Run"]}
{"id": "C85", "title": "The parlexmath command", "statement": "parlexmath prints the value of the expression its arguments joined with spaces spell, and nothing but an error message for any other arguments.", "quantifier": "all argument lists, all float64 arithmetics and ways of printing numbers", "why_tests_cant": "The command has no tests.", "anchors": ["examples/parlexmath/parlexmath/main.go: main", "examples/parlexmath/math.go"]}
{"id": "C86", "title": "The parlexjson command", "statement": "parlexjson prints the layout of the JSON document its arguments joined with spaces spell; otherwise it prints nothing on standard output and a line on standard error: Lex Error -1:0) and the first junk, or Could Not Parse if there is no junk.", "quantifier": "all argument lists", "why_tests_cant": "The command has no tests.", "anchors": ["examples/parlexjson/parlexjson/main.go: main", "examples/parlexjson/json.go"]}
{"id": "C87", "title": "Casting productions", "statement": "Casting a production, or productions, of any implementation to a Set's or to stringsymbol's gives the same symbols in the same order, changes the symbols of no other production, and casting the result again gives it back.", "quantifier": "all productions of any implementation, nil included, all symbol sets", "why_tests_cant": "Tests cast a few productions of one implementation and never cast a result again.", "anchors": ["symbol/setsymbol/set.go: CastProduction, CastProductions, Productions", "symbol/stringsymbol/symbol.go: CastProduction, CastProductions"]}
{"id": "C88", "title": "Symbols and productions by index", "statement": "Symbol(i) and Production(i) return the element at i, and nil for an index that has none.", "quantifier": "all productions, all indexes", "why_tests_cant": "Tests ask for indexes in range and one past the end.", "anchors": ["symbol/setsymbol/set.go: Production.Symbol, Productions.Production", "symbol/stringsymbol/symbol.go: Production.Symbol, Productions.Production"]}
{"id": "C89", "title": "Extending a production", "statement": "AddSymbols on a Set's production adds to that production alone: every other production, and every Productions, keeps its symbols.", "quantifier": "all sequences of making, extending, collecting and fetching productions, all growth policies of append", "why_tests_cant": "Whether two productions share memory with room behind them depends on how each came about; tests extend one fresh production.", "anchors": ["symbol/setsymbol/set.go: AddSymbols, Productions, AddProductions, Productions.Production"]}
{"id": "C90", "title": "Arithmetic is left-associative", "statement": "In the math example runs of + and - and runs of * and / are taken from the left: 9 - 4 - 3 is (9 - 4) - 3, for every expression, with signs and parentheses anywhere; the value an expression has when read that way is unique and is what Eval returns.", "quantifier": "all texts that are expressions, all sequences of earlier calls, all arithmetics", "why_tests_cant": "The grammar E -> E op E is ambiguous and the order comes from which of several equally good parses the packrat memo keeps, which depends on the order of its work stack; tests try a few chains.", "anchors": ["examples/parlexmath/math.go: grammarRules, Eval, eval", "parser/packrat/packrat.go: Parse, update, addToMemo, comparePriority"]}
{"id": "C91", "title": "Packrat returns a tree that no other tree of the input beats", "statement": "Packrat prefers, of two trees of the same symbol, the one whose production is listed first, and for the same production the one that wins at the first child, from the left, that covers other lexemes and is not tied. No derivation tree of the input from the start symbol beats the tree that Parse returns.", "quantifier": "For all acyclic grammars, all lexeme lists without lexemes named like non-terminals, and all derivation trees of them, of any size", "why_tests_cant": "The order in which the memo is filled decides which candidates are compared and what the memo holds for their children at that moment; only the ambiguous inputs where a child improves afterwards show the difference, and there are no such tests.", "anchors": ["parser/packrat/packrat.go:120-227"]}
{"id": "C92", "title": "Goroutines may share a grammar", "statement": "Once a grammar is built, any number of goroutines may use it at the same time for parsing with packrat or topdown, for IsLeftRecursive and for the methods that look things up: none of their calls of its methods writes to it, every schedule of the calls ends, and each goroutine gets what it would get alone.", "quantifier": "For all grammars built by New and Add, all numbers of goroutines, all lexeme lists and arguments, and all interleavings of their calls of the grammar's methods", "why_tests_cant": "The tests use one goroutine and schedules cannot be enumerated; a write hides in the conversion of a foreign symbol, which only adds an entry for a string that the set has not seen.", "anchors": ["grammar/grammar.go: Productions, NonTerminals", "symbol/setsymbol/set.go: Symbol, Str", "parser/packrat/packrat.go: Parse, addToMemo", "parser/topdown/topdown.go: Parse, accept", "leftrecursion.go: IsLeftRecursive"]}
{"id": "C93", "title": "Goroutines may share a lexer", "statement": "Lex only reads its lexer: after any call the lexer is as it was before, so goroutines may call Lex of one lexer at the same time.", "quantifier": "For all simple and stack lexers and all texts", "why_tests_cant": "The write is an entry in the lexer's symbol set for the kind of error lexemes, made by the first call that needs it; later calls in the same test find it there.", "anchors": ["lexer/simplelexer/lexer.go: Lex", "lexer/stacklexer/lex.go: Lex"]}
{"id": "C94", "title": "A packrat parse takes polynomially many rounds", "statement": "When no production has more than k symbols, the main loop of the packrat parser processes at most w * (n+1)^(k+1) updaters on n lexemes, where w is the number of symbols on the right of the grammar's arrows, and then Parse returns. In particular it is cubic in n for productions of at most two symbols.", "quantifier": "For all grammars and lexemes for which Parse does not mistake a lexeme for a non-terminal, including left recursive, ambiguous and cyclic grammars", "why_tests_cant": "A test shows that chosen inputs finish in reasonable time, not that no grammar makes the number of updaters explode or loop, as ambiguity and cycles would in a parser without the memo.", "anchors": ["parser/packrat/packrat.go: Parse, update, addToMemo, addPartial, push"]}
{"id": "C95", "title": "A symbol's productions are looked up at most once per position", "statement": "During a parse of n lexemes either parser calls Productions of the caller's grammar for any one symbol at most n+2 times, and other methods of it at most three times (packrat) or twice (topdown). IsLeftRecursive calls Productions at most twice for a symbol and NonTerminals once.", "quantifier": "For all grammars built by the API (without left recursion for topdown) and all lexemes, and for every prefix of the execution", "why_tests_cant": "The result of a parse does not depend on how often the grammar is asked, so a test of results cannot see a lost memo entry or queue mark; and a counter in one test says nothing about other grammars.", "anchors": ["parser/packrat/packrat.go: addProds", "parser/topdown/topdown.go: accept, tryAccept", "leftrecursion.go: IsLeftRecursive"]}
{"id": "C96", "title": "Parse trees do not go in circles", "statement": "In a tree returned by either parser, a descendant of a node that has the node's own kind covers fewer lexemes than the node. So a tree for n lexemes and m non-terminals has at most m*(n+1)+1 nodes on any way down, which bounds how deep the code that builds or walks it recurses.", "quantifier": "For all grammars and lexemes for which packrat does not mistake a lexeme for a non-terminal, including cyclic grammars such as A -> A | a; for topdown for all grammars without left recursion", "why_tests_cant": "For a cyclic grammar there are infinitely many trees; a test shows the one that was returned for one input, and the circularity check is only needed when an earlier production turns up after the memo entry was made.", "anchors": ["parser/packrat/packrat.go: createsCircularDep, addToMemo, toPN", "parser/topdown/topdown.go: accept"]}
{"id": "C97", "title": "Topdown trees in memory", "statement": "The tree returned by topdown Parse is newly allocated and consists of distinct nodes, the Parent of every child is the node that lists it, leaves are the lexemes of the input with their positions, and Parse changes no node that existed before.", "quantifier": "all grammars, all lexeme slices, all states of memory before the call", "why_tests_cant": "Needs every node of every tree and the sharing of memoised nodes between any two places; a parse tree that prints right can still share nodes.", "anchors": ["parser/topdown/topdown.go: Topdown.Parse, resp, accept, acceptProd", "tree/parsetree.go: PN"]}
{"id": "C98", "title": "Topdown's decisions depend on kinds only", "statement": "Two lists of lexemes with the same kinds in the same order are treated alike by topdown.Parse: both parses return, or both run forever, and the trees that they return have the same shape, differing only in the values and positions that the leaves carry.", "quantifier": "For all grammars, and all two lists of lexemes with the same kinds.", "why_tests_cant": "A test compares a few pairs of inputs; a decision that depended on a value or a position would show only for the values that reach it.", "anchors": ["parser/topdown/topdown.go: Topdown.Parse", "parser/topdown/topdown.go: tdOp.accept"]}
{"id": "C99", "title": "What the start symbol does not reach does not matter", "statement": "Take two grammars with the same start symbol that give the same productions, in the same order, to every symbol that can be reached from it. On every list of lexemes topdown returns exactly the same for both, and so does packrat, down to the last node, value and position. Adding, dropping or editing unreachable rules, or listing the other non-terminals in another order, changes nothing, although it renumbers packrat's symbols.", "quantifier": "For all pairs of grammars that agree on the reachable part, and all lists of lexemes, whether or not their kinds are terminals.", "why_tests_cant": "Packrat numbers symbols in the order in which they are met, so every unreachable rule changes the keys of its maps; a test shows only that some renumberings are harmless.", "anchors": ["parser/packrat/packrat.go: Packrat.Parse", "parser/topdown/topdown.go: Topdown.Parse", "symbol/setsymbol/set.go: Set.Str"]}
{"id": "C100", "title": "The names of symbols do not matter", "statement": "Rename the symbols of a grammar one to one, and the kinds of the lexemes likewise. Then packrat and topdown return for the renamed input exactly the renamed result, with the same values and positions, and return nil, or do not return, for the same inputs. Only equality of names is ever used: not their order, their length or their characters.", "quantifier": "For all one-to-one renamings, all grammars and all lists of lexemes. As in C99 the two grammars need only agree on what the start symbol reaches.", "why_tests_cant": "A test tries a few names; a parser that treated some name specially, such as the empty one, would pass until that name is used.", "anchors": ["parser/packrat/packrat.go: Packrat.Parse", "parser/topdown/topdown.go: Topdown.Parse", "symbol/setsymbol/set.go: Set.Str, LoadGrammar"]}
{"id": "C101", "title": "Topdown never takes a production that begins with an earlier one", "statement": "In a non-terminal other than the start symbol, a production that begins with the whole of an earlier production of the same non-terminal is dead: without it topdown returns exactly the same for every input. So is a production that repeats an earlier one, of the start symbol as well. The exception for the start symbol is needed: of S -> x | x y the second production is taken on x y.", "quantifier": "For all grammars, all ways of leaving out such productions in any number of non-terminals, and all lists of lexemes; returning and not returning included.", "why_tests_cant": "A test shows that one input parses alike with and without one production.", "anchors": ["parser/topdown/topdown.go: tdOp.tryAccept, tdOp.acceptProd"]}
{"id": "C102", "title": "IsLeftRecursive does not depend on how the grammar is written", "statement": "IsLeftRecursive gives the same answer, and topdown.New accepts or refuses alike, when the symbols are renamed one to one, and when the non-terminals or the productions are listed in another order.", "quantifier": "For all grammars, all one-to-one renamings and all orders of non-terminals and productions.", "why_tests_cant": "A test fixes one order of rules. With S -> x A; A -> N A | a; N -> nothing, the answer depends on whether N is listed before A.", "anchors": ["leftrecursion.go: IsLeftRecursive, lrOp.check", "parser/topdown/topdown.go: New"]}
{"id": "C103", "title": "topdown and packrat return the same tree", "statement": "Whenever topdown.Parse returns a tree, packrat.Parse returns a tree with the same nodes (kinds and children) for the same grammar and lexemes.", "quantifier": "every grammar, every list of lexemes", "why_tests_cant": "Two parsers agree on the usual test grammars; they differ only where a symbol has one phrase that is the beginning of another and the choice matters later.", "anchors": ["parser/topdown/topdown.go:40-116", "parser/packrat/packrat.go:30-240"]}
{"id": "C104", "title": "More productions never lose words", "statement": "If a parser accepts some lexemes for a grammar, it also accepts them for every grammar that has the same start symbol and at least the same productions, in any places, as long as the lexemes' kinds are no non-terminals of it.", "quantifier": "every pair of grammars one of which extends the other, every list of lexemes", "why_tests_cant": "Tests use fixed grammars; which additions hide a production depends on the order of productions and on what other symbols match.", "anchors": ["parser/packrat/packrat.go:30-240", "parser/topdown/topdown.go:40-116"]}
{"id": "C105", "title": "The order of a simple lexer's rules matters only for ties", "statement": "Two simple lexers with the same settings and the same rules in different orders return the same lexemes for every text in which no two rules share the longest match at any place, and a rule that is nowhere the best match of the text can be left out.", "quantifier": "every two histories of calls with the same rules, every regular expression without lookbehind, every text", "why_tests_cant": "Tests fix one order of rules; the loop over cached matches depends on indexes, cached positions and replaced candidates.", "anchors": ["lexer/simplelexer/lexer.go:60-169"]}
{"id": "C106", "title": "Productions that derive no word change nothing", "statement": "Taking out productions from which no word can be derived changes neither the result of topdown.Parse, for grammars that are not left recursive, nor whether packrat.Parse returns a tree.", "quantifier": "every grammar, every choice of productions that derive no word, every list of lexemes", "why_tests_cant": "Whether a production derives a word is a property of the whole grammar; tests have no such productions.", "anchors": ["parser/topdown/topdown.go:40-116", "parser/packrat/packrat.go:30-240"]}
