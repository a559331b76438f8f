# Formal model of AdamColton/parlex in Rocq/Coq 8.16

## Layout (`rocq/theories`)

* `model/`  executable Gallina functions, one file per Go package/file; every
  definition cites the Go file and lines it models. No proofs.
* `spec/`   small independent specifications (derivation trees, derivability,
  left recursion, ordered choice, list-level tree operations, reference lexer …).
* `proofs/` lemmas and invariants.
* `props/`  the property theorems only: each closed by `exact`, followed by
  `Print Assumptions`, with examples that the hypotheses are satisfiable.

## Modelling conventions

* Go string = `list N` (`gostring`). In text-level code (grammar, tree text) the
  elements are Unicode code points of a valid UTF-8 string; in the lexers they
  are bytes.
* Go `int` = `nat` where it is a length/index that is never negative, `Z` where
  negative values are meaningful (child indexes). No overflow is modelled.
* Errors are values. `res A = Ok a | Panic | OutOfFuel`. Recursion Go does not
  bound is recursion on explicit fuel; `OutOfFuel` is never reported as a
  normal result. "f returns r" is stated as "there is a fuel from which on the
  model answers `Ok r`"; "f does not terminate" as "every fuel gives
  `OutOfFuel`".
* Go maps = std++ `gmap`; Go map iteration = iteration over an arbitrary
  permutation passed as an argument.
* `regexp` is not modelled as Go code: a rule carries a function `find` from a
  byte string to an optional match; what is assumed of it is an explicit,
  visible hypothesis (well-formed / leftmost / independent of the text to the
  left), and a concrete regular-expression matcher is shown to satisfy it.
* Pointers: trees are values, except in the heap model (`model/Heap*.v`), where
  nodes live in a store and a child slice is an array of the store with a
  length (all slices the code stores start at the front of their array), so
  that aliasing of `append` is visible.

## Trusted base

* Coq 8.16.1's kernel, including its `vm_compute` machine. No flags that switch
  off checks are used.
* Axioms: none. `Print Assumptions` under every theorem in `props/` answers
  `Closed under the global context`. The libraries used are Coq's standard
  library and std++; no axiom of either is used by any theorem.
* The model files transcribe Go by hand. Each definition cites file and lines;
  the citation is the only link between the model and the code.
* The specification files are part of what a reader has to believe: they say
  what "derives", "tree", "longest match", "reads" mean.
* Hypotheses about code that is not modelled are visible in the statements:
  `compiles compile T` (regexp.Compile reads the expressions of a fixed table as
  written out there), `no_lookbehind r` / `well_formed r` (what a regexp's
  FindIndex guarantees), `print` (which code points unicode.IsPrint accepts).

## What is modelled

| code | model |
|------|-------|
| `parlex.go` (Run, New, Runner) | `Run.v` |
| `helpers.go`: iterators, LexErrors | `Iter.v`, `SimpleLexer.v` |
| `leftrecursion.go` | `LeftRec.v` |
| `symbol/setsymbol`, `symbol/stringsymbol` | `SetSym.v`, `SymProd.v` (productions as interface values and in memory) |
| `grammar/grammar.go` | `GrammarGo.v`, `GrammarClient.v` |
| `grammar/left_recursion.go` | `LrRemove.v` (both symbol sets) |
| `grammar/regexgram` | `RegexGram.v` |
| `parser/packrat`, `parser/topdown` | `Packrat.v`, `Topdown.v` |
| goroutines sharing a grammar: the parsers and IsLeftRecursive as sequences of its method calls | `Threads.v` |
| `tree/*.go` | `TreeOps.v`, `TreeText.v`, `TreeNew.v`, `Heap*.v` |
| `lexer/simplelexer`, `lexer/stacklexer` | `SimpleLexer.v`, `StackLexer.v` |
| `analyze/analysis.go` | `Analyze.v` |
| `tree/reducer` | `ReducerText.v` (strings are bytes; int is 64 bits) |
| `examples/parlexmath` | `MathEx.v` (float64 arithmetic a parameter) |
| `examples/parlexjson` | `JsonEx.v` (strings are bytes) |
| `examples/scalc/scalc.go` | `ScalcEx.v` (float64 arithmetic a parameter) |
| `examples/scalc/scalc/main.go`, Pfloat.String | `ScalcMain.v` (printing a float64 a parameter; without the cli library) |
| `helpers.go`: LexemeString, LexemeList; `lexeme/lexeme.go`; Error methods | `Printing.v` |
| `parlexmath/main.go`, `parlexjson/main.go` | `ExMains.v` (printing a float64 a parameter) |
| Go's `strings`, `fmt`, `regexp` where used | `GoStrings.v`, `Regex.v`, `RegexPos.v` |

Concurrent use is modelled for a shared grammar, with calls of its methods as the
atomic steps (C92), and for shared lexers by which calls of Lex write (C93). Go's
memory model is not: calls that write nothing are taken to be safe together.

Not modelled: integer overflow, running out of memory, other concurrent use, the
compilation of regular expressions (only their matching), the cli library, the Must
functions of `helpers.go` (they panic or return their argument) and its lexErr, which nothing uses.

## Reading `seeded/LOG.jsonl`

Each line is one wrong program: an edit to a model definition, rebuilt in a scratch copy.

- `first_failing_lemmas` is what was observed: the first lemma in each file where the rebuild stopped.
- `theorems_failed` is computed from that: the property theorems whose proofs depend on those lemmas. They no
  longer build. They were not each shown to be false of the edited program, so the list is an upper bound on the
  theorems the edit falsifies.
- A lemma can stop because its proof script no longer fits the edited definition, while its statement still holds.
  `theorems_failed` does not tell this apart from a false statement. Where a `note` says the theorem was refuted by
  evaluating the edited model (`pe1`, `pe2`), that was checked separately. Most entries have no such check.
- Some batches recompiled only the edited file and the proofs next to it, and stopped at the first error.
- `build: passes` marks an edit that survived. Its `note` or `theorems_tightened` says what was done about it; `sk11` changes
  nothing, since the text it reads is either all carets or a word with none.

## Plan per property

| id | modelled | proof |
|----|----------|-------|
| C01 | whole packrat state machine with fuel (`model/Packrat.v`) | invariant (well-formed acyclic memo, each (partial, key) pushed at most once) and a finite universe of pairs |
| C02 | same + toPN | memo invariant, induction on the acyclic memo |
| C03 | same | saturation invariant (every active partial × matching memo key is done or stacked), then induction on derivations |
| C04 | same | priority is the minimum over all completed attempts; circularity test never fires in non-cyclic grammars |
| C05 | toPN; parent links as paths/flag in the node model | induction |
| C06 | Parse | expected to be refuted: zero treeDef compares equal; exact behaviour proved |
| C07 | Parse | relabelling commutes with every step |
| C08 | Parse | refuted by computed witnesses; otherwise the invariants of C01-C03 with the positions at which symbols may begin |
| C09–C11 | topdown with memo and fuel | invariant "memo entries agree with the ordered-choice relation"; rank of the left-reach relation for termination |
| C12, C13 | IsLeftRecursive DFS | soundness by path invariant; exactness for grammars without empty productions; refutation witness + proof that Parse diverges |
| C14 | topdown | refuted by witness; completeness under a determinism (prefix-free) hypothesis |
| C15 | both | C09 + C03 |
| C16–C19 | grammar.go text and storage | refinement to an ordered association list; lexical lemmas for split/trim/pad |
| C20 | left_recursion.go incl. its two symbol sets | five refutation witnesses; the code is shown to compute the textbook elimination (`eliminates`), from which termination (exactly when unfolding ends), language and absence of left recursion follow |
| C21–C23 | setsymbol | invariant str2sym/symb2str inverse |
| C24 | iterators as state machines | induction on number of calls |
| C25–C28 | tree ops on values | list lemmas |
| C29 | heap model | separation-style invariant (disjoint arrays) and simulation |
| C30–C32, C35, C36 | tree package | structural induction; heap model for parents/sharing |
| C33, C34 | tree text with a model of the line regexp | round trip by induction; witnesses for refutations |
| C37–C43 | simple lexer over an abstract regexp | loop invariant; simulation with cache-free reference lexer |
| C44–C48 | stack lexer + construction | loop invariant, stack measure; witnesses |
| C49–C51 | regexgram evaluation and reducer | denotational equivalence; list lemmas |
| C52 | reducer.Parse from text to reducer | its trees show a description, which its tokens determine; evaluation by induction; witnesses |
| C53–C55 | analyze | witnesses; exactness on stated subclasses |
| C56 | Run over arbitrary components | case analysis / induction over reducers |
| C57 | JSON example: topdown on its grammar + printer | induction over JSON values |
| C58 | math example | corollary of C04 on the concrete grammar |
| C59 | parent links in the heap model | witness for the non-nil interface; exact characterisation |
| C60, C61 | String of grammars and lexers, and New on the result | round trip by induction over the text; exact guard; witnesses |
| C62–C65 | stack lexer positions, groups, priorities, first sub-lexer | refinement to a cutting of the input; witnesses |
| C66 | Run with the simple lexer, packrat and tree reducers | composition of C37–C41, C01–C04, C56 |
| C67 | regexgram.New on texts | tokens of a text (C66), trees of the package's grammar by induction, uniqueness of spelling, a printer for every grammar |
| C68 | math example on texts that are not expressions | C66 on the concrete grammar; witness |
| C69 | reducer.Parse, which texts | the grammar derives exactly the tokens of descriptions; C66 |
| C70 | JSON example on texts | a scanner separates texts with signs or exponents; witnesses |
| C71 | JSON example on texts | tokens of documents, the parse of them by ordered choice, the reduced tree, the printer: each by induction over documents |
| C72 | scalc.Eval on texts | packrat is total and exact; every reduced tree has the shape evalStack and evalE expect, by induction over trees; the grammar derives exactly the programs |
| C73 | scalc.Eval on numbers and operators | every tree of such tokens, whichever the parser picks, evaluates to the machine's stack; a machine's run gives a program |
| C74 | scalc.Eval on the other operators | refuted by four texts; a last stack manipulation by the same induction as C73 |
| C75 | scalc.Eval with stack operators | the induction of C73 with runs of the machine that let a stack operator take any number of values, since the tree decides; the values of the operators are stated without the code's loops |
| C76 | packrat.Parse, splits inside a production | the memo's invariant of C04 extended by the children: a stored definition is never worse, in compare_priority's order, than the best split's |
| C77 | scalc.Eval, stack operators take everything | refuted by two texts; one operator with independent tokens after it by C76: the split after the operator is the best one because only the first production of E ends in a stack operator |
| C78 | tree.Reducer.Add and Can | lookups in finite maps |
| C79 | scalc's interactive loop over a list of Reads | refuted at the end of input and for two lines in one Read; exact condition for returning by induction on the lines read and on fuel |
| C80 | the stack as text between lines | refuted by three sessions; otherwise the text of the stack is cut into its numerals before the line's own pieces, and C73, C74, C77 apply to the whole |
| C81 | scalc's action and parse command | C72 and C73 |
| C82 | LexemeList, Lexeme.String, Copy, with fmt's quoting and %d | refuted by computation; quoting and decimals are injective and the separators can be found again |
| C83 | LexemeString | refuted by computation; joining is injective on parts without the separator's first byte |
| C84 | errLexeme.Error of both lexers | refuted by two inputs; C41, C62 for which errors there are |
| C85 | parlexmath's main | refuted by blank arguments; C58, C68, C90 |
| C86 | parlexjson's main | C57, C70, C71 |
| C87 | casts of productions, as interface values with their nils, between numbered sets | interned indexes keep their strings as sets grow |
| C88 | lookups by index | by cases |
| C89 | a set's productions as slices of numbered arrays, with append's room a parameter | invariant: a writer's slice is the longest in its array, and until it exists all slices of its family are equal |
| C90 | math example, packrat's stack machine on its grammar | `LeftInv.v`: which expressions are in the memo, what waits for them and what is on the stack, step by step; the memo ends with every chain split at its last `op2`, or its last `op1` if it has no `op2`; `LeftEval.v`: values of the trees; values are unique |
| C91 | packrat.Parse, comparePriority's order on whole trees (`spec/TreeOrder.v`) | refuted by `A -> A A \| b \| b b`; with a best split at the root it follows from C76: the first child that differs is made by an earlier production |
| C92 | both parsers and IsLeftRecursive as sequences of calls of grammar methods, all interleavings (`model/Threads.v`) | refuted by Productions of an unknown symbol; otherwise an invariant over steps: every pending call asks for a known symbol, so it leaves the grammar equal, and running the rest alone gives what the job gives alone; each step shortens a well-founded program |
| C93 | Lex of both lexers returns the lexer it leaves | refuted by a first call; adding a string to a set is the identity exactly when it is there |
| C94 | Parse of the packrat parser with a limit on the rounds of its main loop (`spec/CostSpec.v`) | an updater is pushed once: the updaters pushed form a duplicate-free list inside a finite set, which is counted per symbol of a production and list of positions |
| C95 | the parsers and IsLeftRecursive as sequences of calls of grammar methods (`model/Threads.v`) | packrat: a lookup marks `queued`; topdown: a lookup at a position is followed by a memo entry or by the end of the run, and without left recursion none is nested in another of the same key; IsLeftRecursive: a lookup marks `checked`, or the stack where a second lookup ends the run |
| C96 | Parse of both parsers | packrat: a descendant is the tree of a key below in the acyclic memo, and kind and extent determine the key; topdown: a repetition is a left recursion; height by induction with the list of kinds already used for the same number of lexemes |
| C97 | topdown's Parse building nodes in memory (`model/HeapTopdown.v`), with the value model's memo beside it | simulation of `td_accept`; every node and slice is labelled with the position it was made for, siblings with lexemes have disjoint labels, and slices still being filled are in no finished tree; the shared node by `vm_compute` |
| C98 | topdown's Parse (`model/Topdown.v`) | induction over the big-step outcomes of the parse; only kinds are compared |
| C99 | the value models of both parsers and packrat's set of symbols; `spec/Reach.v` | topdown by induction over outcomes; packrat by a lock-step simulation (`proofs/PackratRename.v`): the two runs differ by a partial bijection between the indexes of reachable symbols, and maps, stack, priorities and trees agree along it at every fuel |
| C100 | the value models of both parsers; `spec/Rename.v` | the simulation of C99 with renamed names (C99 renames nothing), and inductions over topdown's outcomes both ways |
| C101 | topdown's Parse; `spec/Shadow.v` says what may be left out | induction over outcomes both ways: a sequence fails where its beginning fails, and outcomes are unique |
| C102 | IsLeftRecursive and topdown's New | names: lock-step simulation with renamed sets at every fuel; order: witness by `vm_compute`, and C12's exactness, since left recursion itself does not depend on order |
| C103 | topdown.Parse and packrat.Parse on the same grammar and lexemes | witness by `vm_compute`; for prefix-free grammars topdown's tree is an earliest tree (induction over its runs, with completeness for the missed productions), and earliest trees are unique up to positions |
| C104 | both Parse methods on two grammars one of which has more productions | derivations of the smaller grammar are derivations of the larger one; soundness and completeness (C02, C03, C06, C09, C14); witness for topdown by `vm_compute` |
| C105 | two simple lexers with rules in different orders, or with a rule less | both cut the text by C38; at every place the best rule is the same, so the pieces are the same up to indexes, and so are the lexemes |
| C106 | both Parse methods on a grammar with and without productions that derive nothing | topdown: induction over its runs, a production that matches derives something (C09); packrat: the derivations are the same (C02, C03) |

The status of each property, its theorems, and for a partial one what is wrong
with the code or missing from the proof, is in `MANIFEST.json`. A property that
is false of the code has a theorem named `…_refuted` with a concrete witness and
theorems about what does hold, named `…_partial` where they are restricted
versions of the property.
