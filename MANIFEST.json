{
 "claims": [
  {
   "property": "C01",
   "status": "proved",
   "theorems": [
    "c01_packrat_total"
   ],
   "note": ""
  },
  {
   "property": "C02",
   "status": "proved",
   "theorems": [
    "c02_packrat_sound"
   ],
   "note": ""
  },
  {
   "property": "C03",
   "status": "proved",
   "theorems": [
    "c03_packrat_complete"
   ],
   "note": ""
  },
  {
   "property": "C04",
   "status": "proved",
   "theorems": [
    "c04_packrat_earliest"
   ],
   "note": ""
  },
  {
   "property": "C06",
   "status": "partial",
   "theorems": [
    "c06_packrat_empty_refuted",
    "c06_packrat_empty_partial"
   ],
   "note": "False of the code: on empty input Parse reads the zero treeDef and always returns a start node. The exact behaviour is proved."
  },
  {
   "property": "C07",
   "status": "proved",
   "theorems": [
    "c07_packrat_shape"
   ],
   "note": ""
  },
  {
   "property": "C08",
   "status": "partial",
   "theorems": [
    "c08_packrat_nonterminal_kind_refuted",
    "c08_packrat_wrong_tree_refuted",
    "c08_refused_partial"
   ],
   "note": "False of the code: update calls checkNonTerminal on the partial's own marker instead of the required one. Proved: Parse returns nil unless a lexeme is named like a non-terminal that may stand there and has a production of two or more symbols the first of which is nullable, which is when that call does something."
  },
  {
   "property": "C16",
   "status": "proved",
   "theorems": [
    "c16_grammar_round_trip"
   ],
   "note": ""
  },
  {
   "property": "C17",
   "status": "proved",
   "theorems": [
    "c17_grammar_history",
    "c17_grammar_new_history",
    "c17_grammar_wf"
   ],
   "note": ""
  },
  {
   "property": "C18",
   "status": "proved",
   "theorems": [
    "c18_lookup_invisible",
    "c18_lookup_no_write"
   ],
   "note": ""
  },
  {
   "property": "C19",
   "status": "proved",
   "theorems": [
    "c19_grammar_new"
   ],
   "note": ""
  },
  {
   "property": "C21",
   "status": "proved",
   "theorems": [
    "c21_interning"
   ],
   "note": ""
  },
  {
   "property": "C22",
   "status": "partial",
   "theorems": [
    "c22_by_idx_size_refuted",
    "c22_by_idx_negative_refuted",
    "c22_idx_adds_refuted",
    "c22_by_idx_partial",
    "c22_idx_partial"
   ],
   "note": "False of the code: ByIdx guards with idx > len and accepts negatives; Idx returns -1 instead of adding. Exact behaviour proved."
  },
  {
   "property": "C23",
   "status": "proved",
   "theorems": [
    "c23_load_grammar",
    "c23_load_lexemes"
   ],
   "note": ""
  },
  {
   "property": "C24",
   "status": "proved",
   "theorems": [
    "c24_production_iterator",
    "c24_productions_iterator"
   ],
   "note": ""
  },
  {
   "property": "C60",
   "status": "partial",
   "theorems": [
    "c60_string_copy_refuted",
    "c60_string_copy_partial"
   ],
   "note": "Documented promise fails for grammars built with Add whose symbols are not printable words; exact characterisation (iff) proved."
  },
  {
   "property": "C09",
   "status": "proved",
   "theorems": [
    "c09_topdown_sound"
   ],
   "note": ""
  },
  {
   "property": "C10",
   "status": "proved",
   "theorems": [
    "c10_topdown_ordered_choice",
    "c10_topdown_diverges",
    "c10_ordered_choice_unique"
   ],
   "note": ""
  },
  {
   "property": "C11",
   "status": "proved",
   "theorems": [
    "c11_topdown_terminates"
   ],
   "note": ""
  },
  {
   "property": "C12",
   "status": "partial",
   "theorems": [
    "c12_new_refuted",
    "c12_new_partial",
    "c12_new_parse_partial"
   ],
   "note": "False of the code: lrOp.check forgets nullability of checked symbols and only sees direct empty productions. Exact for grammars in which no longer production starts with a nullable symbol."
  },
  {
   "property": "C13",
   "status": "proved",
   "theorems": [
    "c13_is_left_recursive_total",
    "c13_no_false_alarm",
    "c13_new_total",
    "c13_new_no_false_alarm"
   ],
   "note": ""
  },
  {
   "property": "C14",
   "status": "partial",
   "theorems": [
    "c14_topdown_complete_refuted",
    "c14_topdown_complete_partial"
   ],
   "note": "False of the code (ordered choice never backtracks into a finished non-terminal). Proved for prefix-free grammars."
  },
  {
   "property": "C15",
   "status": "proved",
   "theorems": [
    "c15_topdown_then_packrat"
   ],
   "note": ""
  },
  {
   "property": "C25",
   "status": "proved",
   "theorems": [
    "c25_index",
    "c25_remove_child",
    "c25_remove_child_out",
    "c25_remove_children",
    "c25_remove_all"
   ],
   "note": ""
  },
  {
   "property": "C26",
   "status": "proved",
   "theorems": [
    "c26_promote_children_of",
    "c26_promote_children_of_out",
    "c26_promote_grand_children"
   ],
   "note": ""
  },
  {
   "property": "C27",
   "status": "proved",
   "theorems": [
    "c27_promote_child",
    "c27_promote_child_out",
    "c27_promote_single_child",
    "c27_promote_single_child_other",
    "c27_replace_with_child",
    "c27_replace_with_child_out"
   ],
   "note": ""
  },
  {
   "property": "C28",
   "status": "partial",
   "theorems": [
    "c28_out_of_bounds_refuted",
    "c28_in_range_partial",
    "c28_out_of_bounds_partial",
    "c28_wraps_partial"
   ],
   "note": "Fails for -2*len <= i < -len: PromoteChildValue normalises the index and RemoveChild normalises it again, so a child is removed although i is out of bounds. Holds for every other index; the wrapping case is characterised exactly."
  },
  {
   "property": "C31",
   "status": "proved",
   "theorems": [
    "c31_merge",
    "c31_merge_runs",
    "c31_chain",
    "c31_if"
   ],
   "note": ""
  },
  {
   "property": "C32",
   "status": "proved",
   "theorems": [
    "c32_slice_req",
    "c32_size",
    "c32_nil"
   ],
   "note": ""
  },
  {
   "property": "C05",
   "status": "proved",
   "theorems": [
    "c05_packrat_placed",
    "c05_packrat_linked"
   ],
   "note": "Leaves are the lexemes themselves by c02_packrat_sound."
  },
  {
   "property": "C29",
   "status": "proved",
   "theorems": [
    "c29_remove_child",
    "c29_replace_with_child",
    "c29_promote_child",
    "c29_promote_single_child",
    "c29_promote_children_of",
    "c29_promote_child_value",
    "c29_promote_grand_children",
    "c29_remove_children",
    "c29_remove_all",
    "c29_chain",
    "c29_if",
    "c29_if_nil",
    "c29_child_is",
    "c29_inside"
   ],
   "note": ""
  },
  {
   "property": "C30",
   "status": "proved",
   "theorems": [
    "c30_bottom_up",
    "c30_empty",
    "c30_input_untouched"
   ],
   "note": ""
  },
  {
   "property": "C35",
   "status": "partial",
   "theorems": [
    "c35_clone_positions_refuted",
    "c35_clone_partial"
   ],
   "note": "Clone drops positions: every copied node is at (0, 0). Kinds, values, shape, freshness and parent links proved."
  },
  {
   "property": "C36",
   "status": "partial",
   "theorems": [
    "c36_links_refuted",
    "c36_no_links",
    "c36_promote_child_partial",
    "c36_promote_grand_children_partial"
   ],
   "note": "RawReduce never sets P, so the result has no parent links at all; only the children rearranged by PromoteChild and PromoteGrandChildren are linked."
  },
  {
   "property": "C59",
   "status": "partial",
   "theorems": [
    "c59_parent_refuted",
    "c59_never_nil",
    "c59_parent_partial"
   ],
   "note": "Parent returns a nil *PN inside a non-nil interface; walking up panics. The pointer inside is right."
  },
  {
   "property": "C33",
   "status": "partial",
   "theorems": [
    "c33_round_trip_refuted",
    "c33_round_trip_exact_partial",
    "c33_round_trip_partial"
   ],
   "note": "String escapes with %q but New only undoes three escapes: values with control or unprintable characters (a tab) come back changed. Proved exactly: the round trip holds iff all values consist of printable characters and newlines."
  },
  {
   "property": "C34",
   "status": "partial",
   "theorems": [
    "c34_new_refuted",
    "c34_new_partial",
    "c34_bad_line_partial",
    "c34_line_total_partial"
   ],
   "note": "New panics on the empty string, on surplus closing braces and on an unclosed childless node. Exact characterisation of the trees returned for texts whose lines all match."
  },
  {
   "property": "C37",
   "status": "proved",
   "theorems": [
    "c37_lossless"
   ],
   "note": ""
  },
  {
   "property": "C38",
   "status": "proved",
   "theorems": [
    "c38_longest_match",
    "c38_unique",
    "c38_regexps"
   ],
   "note": "Any regexp whose matches do not depend on the text before the search position; concrete regular expressions shown to qualify."
  },
  {
   "property": "C39",
   "status": "partial",
   "theorems": [
    "c39_by_priority_refuted",
    "c39_by_priority_partial"
   ],
   "note": "priorityThenLength compares with the initial best priority -1, so no rule is ever selected after ByPriority and the whole input becomes one error lexeme. That behaviour is proved for every input."
  },
  {
   "property": "C40",
   "status": "partial",
   "theorems": [
    "c40_lines_refuted",
    "c40_lines_partial"
   ],
   "note": "Newlines in unmatched text are not counted; lines are right whenever unmatched stretches hold no newline, columns always. Error lexemes carry no position."
  },
  {
   "property": "C41",
   "status": "proved",
   "theorems": [
    "c41_errors"
   ],
   "note": ""
  },
  {
   "property": "C42",
   "status": "partial",
   "theorems": [
    "c42_reuse_refuted",
    "c42_broken",
    "c42_reuse_partial"
   ],
   "note": "After a Lex that met an error, the error kind occupies an index in the set; adding a rule of a new kind then leaves a nil rule and every later Lex panics (c42_broken: for every such history in which the error kind gets no rule). The property is proved for all histories that add no rule of a new kind after a Lex that met junk, unless the error kind of that Lex has a rule by then."
  },
  {
   "property": "C43",
   "status": "proved",
   "theorems": [
    "c43_add",
    "c43_new",
    "c43_new_refuses"
   ],
   "note": ""
  },
  {
   "property": "C61",
   "status": "partial",
   "theorems": [
    "c61_string_refuted",
    "c61_string_partial"
   ],
   "note": "An expression with an unescaped slash is cut short when read back."
  },
  {
   "property": "C44",
   "status": "proved",
   "theorems": [
    "c44_lossless",
    "c44_no_sub_lexer"
   ],
   "note": ""
  },
  {
   "property": "C45",
   "status": "partial",
   "theorems": [
    "c45_longest_refuted",
    "c45_longest_partial",
    "c45_regexps_partial"
   ],
   "note": "After an error the ends of cached matches are compared although they are relative to different search starts, so the match right after unmatched text need not be the longest. Longest match proved everywhere else, for any regexps whose matches do not depend on the text before the search position; concrete regular expressions shown to qualify."
  },
  {
   "property": "C46",
   "status": "partial",
   "theorems": [
    "c46_pop_refuted",
    "c46_push_refuted",
    "c46_stack_partial",
    "c46_safe_partial"
   ],
   "note": "Lex panics when a rule pops an empty stack with input left and when a rule pushes to an unknown sub-lexer. Exact stack behaviour proved, and no panic when the first sub-lexer does not pop and pushes are known."
  },
  {
   "property": "C47",
   "status": "partial",
   "theorems": [
    "c47_cyclic_refuted",
    "c47_bad_regexp_refuted",
    "c47_new_total_partial"
   ],
   "note": "New drops the errors of parse, so cyclic inheritance and bad regexps are never reported. New proved to return for all definitions."
  },
  {
   "property": "C48",
   "status": "partial",
   "theorems": [
    "c48_order_refuted",
    "c48_rules_partial",
    "c48_order_partial"
   ],
   "note": "Inherited rules are copied in the order of their kinds' indexes, which depends on the order in which the map of sub-lexers is iterated; priorities and so results vary from run to run. Proved for definitions in which inherited sub-lexers do not inherit and their kinds occur elsewhere only in the same order (exclusive kinds in particular)."
  },
  {
   "property": "C62",
   "status": "partial",
   "theorems": [
    "c62_positions_refuted",
    "c62_positions_partial"
   ],
   "note": "Newlines in unmatched text are not counted for the next lexeme, those of the next lexeme are counted for the error. Exact positions characterised (code_places); right when unmatched text and the matches after it hold no newline."
  },
  {
   "property": "C63",
   "status": "partial",
   "theorems": [
    "c63_literal_refuted",
    "c63_absent_group_refuted",
    "c63_values_partial"
   ],
   "note": "parseSubmatches keeps the quotes of literals although the readme shows them removed; a group that took no part makes Lex panic. Values characterised for groups that take part."
  },
  {
   "property": "C64",
   "status": "partial",
   "theorems": [
    "c64_priority_refuted",
    "c64_priority_partial"
   ],
   "note": "An earlier rule's empty match hides later rules. The earliest matching rule is taken otherwise, except right after unmatched text."
  },
  {
   "property": "C65",
   "status": "partial",
   "theorems": [
    "c65_start_refuted",
    "c65_start_partial"
   ],
   "note": "When the heading of the first sub-lexer is repeated, the start pointer keeps the discarded empty sub-lexer and the whole input is an error. Proved when the first heading is not repeated."
  },
  {
   "property": "C56",
   "status": "proved",
   "theorems": [
    "c56_run",
    "c56_one_result",
    "c56_panics",
    "c56_runner"
   ],
   "note": "For arbitrary stateful components that may panic; two-way characterisation by the relation ran."
  },
  {
   "property": "C66",
   "status": "proved",
   "theorems": [
    "c66_lex_error",
    "c66_accepts",
    "c66_rejects"
   ],
   "note": "Composition of C37-C41 (simple lexer), C01-C04 (packrat) and C56. Inputs that lex to nothing are left out of the rejecting case: packrat returns a node for them (C06)."
  },
  {
   "property": "C53",
   "status": "partial",
   "theorems": [
    "c53_analyze_total",
    "c53_unsound_refuted",
    "c53_incomplete_refuted",
    "c53_terminal_refuted",
    "c53_sound_partial",
    "c53_complete_partial",
    "c53_exact_partial",
    "c53_leftmost"
   ],
   "note": "HasFirst treats a symbol as skippable when any leftmost descendant is empty (false firsts), misses firsts through left recursion (memo read before it is filled), and answers false for a terminal that starts something asked about itself. Exact for non-terminals of grammars without left recursion in which skipped symbols are nullable; Analyze proved to return on every grammar."
  },
  {
   "property": "C54",
   "status": "partial",
   "theorems": [
    "c54_nonterminal_refuted",
    "c54_contains_refuted",
    "c54_nonterminal_yes",
    "c54_contains_yes",
    "c54_nonterminal_partial",
    "c54_contains_partial"
   ],
   "note": "NonTerminal tests for a non-nil list of firsts, so a non-terminal with only an empty production is denied; Contains denies terminals that start nothing. A yes is right for every grammar; exact characterisation without left recursion and blank non-terminals."
  },
  {
   "property": "C55",
   "status": "partial",
   "theorems": [
    "c55_nil_refuted",
    "c55_nil_yes",
    "c55_nil_partial"
   ],
   "note": "Fails through left recursion. A yes is right for every grammar; exact without left recursion."
  },
  {
   "property": "C49",
   "status": "proved",
   "theorems": [
    "c49_returns",
    "c49_language",
    "c49_repeat_language",
    "c49_productions",
    "c49_repeat_productions",
    "c49_start"
   ],
   "note": "For every tree of a grammar with operators whose generated names are distinct (C50) and whose groups are not empty. The productions are given exactly and in order; the first non-terminal stays the start symbol."
  },
  {
   "property": "C50",
   "status": "partial",
   "theorems": [
    "c50_names_refuted",
    "c50_empty_group_refuted",
    "c50_names_partial",
    "c50_not_symbols"
   ],
   "note": "Names do collide: the items of a group are joined by underscores, so (x y)* and (x_y)* share one, and the second repetition gets the first one's productions. An empty group makes its production disappear. Without underscores in symbols names are distinct, and a generated name is never a symbol."
  },
  {
   "property": "C51",
   "status": "proved",
   "theorems": [
    "c51_splices",
    "c51_dissolves",
    "c51_none_left",
    "c51_as_written"
   ],
   "note": "bludgeon described for all trees; for every parse tree of the built grammar the reduced tree is the parse tree with repetitions dissolved, and is a tree of the grammar as written with the same leaves."
  },
  {
   "property": "C67",
   "status": "proved",
   "theorems": [
    "c67_ready",
    "c67_calls",
    "c67_unique",
    "c67_writable",
    "c67_new",
    "c67_language",
    "c67_junk",
    "c67_else"
   ],
   "note": "Composition of C37-C41, C01-C04, C51 and C49 with the fact that the package's own grammar is unambiguous up to reduction. regexp.Compile is assumed to read the ten expressions of the lexer as written out in rg_table. Texts are bytes. The two guards of c67_language are the defects of C50. A comment on the first line of a text is a lexical error, because the expression for comments starts with a line break."
  },
  {
   "property": "C58",
   "status": "proved",
   "theorems": [
    "c58_ready",
    "c58_calls",
    "c58_value"
   ],
   "note": "For every text whose tokens are an expression. Floats, ParseFloat and regexp.Compile are parameters. How runs of operators of equal precedence associate is C90."
  },
  {
   "property": "C68",
   "status": "partial",
   "theorems": [
    "c68_blank_refuted",
    "c68_cases",
    "c68_junk",
    "c68_not_expression_partial",
    "c68_blank"
   ],
   "note": "A text without tokens evaluates to 0 without an error, because the parser returns a bare start node (C06). Exact for all other texts."
  },
  {
   "property": "C52",
   "status": "partial",
   "theorems": [
    "c52_ready",
    "c52_calls",
    "c52_fraction_refuted",
    "c52_escape_refuted",
    "c52_means_partial"
   ],
   "note": "Every description, with any nesting of If, after any calls and for any order of Merge's map iteration, makes a reducer with exactly its kinds whose reductions do the steps in order, provided the numbers are integers. Finding: the lexer accepts fractions and Atoi's error is dropped, so RemoveChild(1.5) removes child 0; finding: escapes in strings are not undone. Two rules for one kind: the last wins. regexp.Compile is assumed to read the expressions as written out in rg_table and rd_table."
  },
  {
   "property": "C69",
   "status": "proved",
   "theorems": [
    "c69_unique",
    "c69_cases",
    "c69_junk",
    "c69_not_description",
    "c69_description"
   ],
   "note": "The empty text is the description without rules. Words such as Nil or If, and numbers, cannot name a kind."
  },
  {
   "property": "C57",
   "status": "proved",
   "theorems": [
    "c57_tokens",
    "c57_document",
    "c57_unambiguous",
    "c57_again",
    "c57_total",
    "c57_lexer",
    "c57_ready"
   ],
   "note": "The package's variables are built by the models of simplelexer.New, regexgram.New, topdown.New and reducer.Parse from json.go's texts, for every order in which Merge may range; the formatted text has the same kinds and values, and is of the same document."
  },
  {
   "property": "C70",
   "status": "partial",
   "theorems": [
    "c70_refuted",
    "c70_refuted_more",
    "c70_rfc_partial",
    "c70_only_partial"
   ],
   "note": "False: signed numbers and exponents are refused, and leading zeros, .5, control characters in strings and form feeds are taken. Proved: a document of the RFC is formatted exactly when no number in it has a sign or an exponent, and a formatted text is a document of the RFC when its numbers, strings and keys are and it has no form feed. Missing: the equivalence, which the code does not have."
  },
  {
   "property": "C71",
   "status": "proved",
   "theorems": [
    "c71_layout",
    "c71_only",
    "c71_rejects",
    "c71_lex_error",
    "c71_parse_error"
   ],
   "note": "layout is a function of the document alone; which texts are documents is stated without the lexer and the grammar."
  },
  {
   "property": "C20",
   "status": "partial",
   "theorems": [
    "c20_language_refuted",
    "c20_still_left_recursive_refuted",
    "c20_terminates_refuted",
    "c20_usable_refuted",
    "c20_fresh_names_refuted",
    "c20_remove_left_recursion_partial",
    "c20_terminates_partial",
    "c20_diverges",
    "c20_ends_forward",
    "c20_ends_not_left_recursive",
    "c20_result_partial",
    "c20_result_only_partial",
    "c20_language_partial",
    "c20_not_left_recursive_partial",
    "c20_topdown_partial",
    "c20_direct_partial"
   ],
   "note": "False in five ways, each shown with a grammar that breaks one condition only: A -> A A x loses words, empty productions leave left recursion in place, unfolding a done left recursive non-terminal never ends, A -> A makes a non-terminal whose String panics, and a made-up name A' may be taken already. Proved under those five conditions, with the exact result, the exact condition for termination, the language and the absence of left recursion each under the conditions it needs. Missing: the statement without the conditions, which the code does not have."
  },
  {
   "property": "C72",
   "status": "proved",
   "theorems": [
    "c72_ready",
    "c72_calls",
    "c72_cases",
    "c72_junk",
    "c72_program",
    "c72_no_program"
   ],
   "note": "returns excludes panics, so the panics the readme warns of do not happen in Eval. What a program is, is stated on token kinds without the grammar text. float64 is a parameter; Pfloat.String and the command line tool are not modelled."
  },
  {
   "property": "C73",
   "status": "proved",
   "theorems": [
    "c73_machine",
    "c73_one_result"
   ],
   "note": "The machine reads tokens and knows nothing of trees; its result is unique. float64 operations, math.Pow, math.Mod and ParseFloat are parameters."
  },
  {
   "property": "C74",
   "status": "partial",
   "theorems": [
    "c74_parens_refuted",
    "c74_if_refuted",
    "c74_two_refuted",
    "c74_then_refuted",
    "c74_last_partial"
   ],
   "note": "False: (1 2) 3 gives 0 3, 5 2 1 0 ? loses the 5, 1 2 swap drop gives the empty stack and 1 2 swap 3 gives nil. Proved: after numbers and operators, one swap, drop or clear at the end acts on the machine's stack. Missing: every other place of these operators, where the code differs from the machine."
  },
  {
   "property": "C75",
   "status": "proved",
   "theorems": [
    "c75_machine",
    "c75_machine_last"
   ],
   "note": "The machine may take any number of values at a stack operator; which number the parser picks is not determined here. float64 is a parameter."
  },
  {
   "property": "C76",
   "status": "proved",
   "theorems": [
    "c76_packrat_split"
   ],
   "note": "ranked_tree also contains C04. Splits that are incomparable in this order (their parts' first productions tie) are left open."
  },
  {
   "property": "C77",
   "status": "partial",
   "theorems": [
    "c77_sop_refuted",
    "c77_sops_refuted",
    "c77_sop_partial"
   ],
   "note": "False: 1 -- 2 sum 3 * gives -1 6 where the whole stack would give 3, and 1 2 len 3 4 len 5 * gives 2 10 where it would give 15. Proved for one stack operator when the tokens after it run on an empty stack. float64 is a parameter."
  },
  {
   "property": "C78",
   "status": "proved",
   "theorems": [
    "c78_add",
    "c78_adds"
   ],
   "note": ""
  },
  {
   "property": "C79",
   "status": "partial",
   "theorems": [
    "c79_end_refuted",
    "c79_lost_refuted",
    "c79_exit_partial",
    "c79_no_exit_partial"
   ],
   "note": "False: at the end of the input the loop runs on with empty lines, printing the stack forever, and since each line gets a new bufio.Reader, lines that arrive in one Read (piped input) are lost. Proved: it returns exactly if a line it reads is exit, and runs on otherwise; it never panics."
  },
  {
   "property": "C80",
   "status": "partial",
   "theorems": [
    "c80_dot_refuted",
    "c80_inf_refuted",
    "c80_rounds_refuted",
    "c80_lines_partial"
   ],
   "note": "False: after 1, the line .5 gives 1.5; after 1 0 / every line, even clear, is Bad input since +Inf does not lex; 1 2 / then 2 * gives 0. Proved for sessions whose answers read back as printed, with lines that do not start with decimals and for which C73, C74 and C77 give the machine's stack. Printing numbers is a parameter."
  },
  {
   "property": "C81",
   "status": "proved",
   "theorems": [
    "c81_programs",
    "c81_machine"
   ],
   "note": "The cli library is not modelled; printing numbers is a parameter."
  },
  {
   "property": "C82",
   "status": "partial",
   "theorems": [
    "c82_origin_refuted",
    "c82_kinds_refuted",
    "c82_text_refuted",
    "c82_list_partial",
    "c82_lexed_partial",
    "c82_text_partial",
    "c82_copy"
   ],
   "note": "False: LexemeList leaves out the position (0, 0), and kinds may look like lines or positions. Proved: for kinds without newlines and quotes LexemeList determines kinds, values and the positions with a line or column above 0, so everything a simple lexer returns; Lexeme.String everything for kinds without quotes and parentheses."
  },
  {
   "property": "C83",
   "status": "partial",
   "theorems": [
    "c83_names_refuted",
    "c83_names_partial"
   ],
   "note": "False: a value with a comma looks like several lexemes. Proved for values without commas and kinds that have no commas or colons and do not begin with a bracket."
  },
  {
   "property": "C84",
   "status": "partial",
   "theorems": [
    "c84_simple_refuted",
    "c84_stack_refuted",
    "c84_simple_partial",
    "c84_run_partial",
    "c84_stack_partial"
   ],
   "note": "False: simplelexer never sets the position of an error, so every message says -1:0, and stacklexer's column is off when newlines are involved. Proved: the exact messages, with the junk, for simplelexer and Run; for stacklexer the right place where the columns are right (as in C62)."
  },
  {
   "property": "C85",
   "status": "partial",
   "theorems": [
    "c85_blank_refuted",
    "c85_value",
    "c85_error_partial",
    "c85_blank"
   ],
   "note": "False: arguments that are all blank print 0. Proved for everything else; operators of equal precedence are taken from the left. Printing a float64 is a parameter; error messages end without a newline."
  },
  {
   "property": "C86",
   "status": "proved",
   "theorems": [
    "c86_document",
    "c86_junk",
    "c86_not_json",
    "c86_cases"
   ],
   "note": "Regexp compilation is assumed to give patterns with the same matches as the ones written out, as in C57."
  },
  {
   "property": "C87",
   "status": "partial",
   "theorems": [
    "c87_nil_refuted",
    "c87_nils_refuted",
    "c87_nil_inside_refuted",
    "c87_partial",
    "c87_prods_partial"
   ],
   "note": "False for nil: a Set casts a nil production to a nil pointer, which panics when cast again, and productions with a nil one among them panic. Proved for everything else."
  },
  {
   "property": "C88",
   "status": "partial",
   "theorems": [
    "c88_negative_refuted",
    "c88_nil_refuted",
    "c88_partial"
   ],
   "note": "False: indexes below 0 panic, and a nil pointer has 0 symbols but panics for every index. Proved for everything else."
  },
  {
   "property": "C89",
   "status": "partial",
   "theorems": [
    "c89_refuted",
    "c89_partial"
   ],
   "note": "False: Productions.Production(i) shares its array, so two productions taken from one list and both extended overwrite each other's symbols when the array has room. Proved when, of the productions first made as one, at most one is ever extended."
  },
  {
   "property": "C90",
   "status": "proved",
   "theorems": [
    "c90_left",
    "c90_one"
   ],
   "note": "For every text whose tokens are an expression. Floats, ParseFloat and regexp.Compile are parameters."
  },
  {
   "property": "C91",
   "status": "partial",
   "theorems": [
    "c91_packrat_unbeaten_partial",
    "c91_packrat_unbeaten_refuted"
   ],
   "note": "False: for A -> A A | b | b b and the input b b b Parse returns b (b b) although (b b) b is better. A candidate is compared by what the memo holds for its children at that moment and is not compared again when they improve. Proved where the productions that derive the input have a best split."
  },
  {
   "property": "C92",
   "status": "partial",
   "theorems": [
    "c92_shared_refuted",
    "c92_shared_partial",
    "c92_ends"
   ],
   "note": "False: Productions of a symbol that the grammar does not know adds it to the grammar's maps, so two such calls race. Proved for parses with either parser, IsLeftRecursive and all reading methods when Productions is only called for symbols of the grammar. Calls of the grammar's methods are the atomic steps."
  },
  {
   "property": "C93",
   "status": "partial",
   "theorems": [
    "c93_simple_refuted",
    "c93_stack_refuted",
    "c93_simple_partial",
    "c93_stack_partial",
    "c93_simple_warm",
    "c93_stack_warm"
   ],
   "note": "False: the first Lex that meets junk adds the error kind to a simple lexer's set, and the first Lex of a stack lexer always does. Proved: exactly these calls change the lexer, and after one of them no call does."
  },
  {
   "property": "C94",
   "status": "proved",
   "theorems": [
    "c94_rounds",
    "c94_unbounded"
   ],
   "note": "parse_within is Parse with a limit on the rounds of its main loop. Guard: no lexeme is mistaken for a non-terminal (needed for Parse to return, see the packrat termination properties). Nested calls inside a round are not counted."
  },
  {
   "property": "C95",
   "status": "proved",
   "theorems": [
    "c95_packrat",
    "c95_topdown",
    "c95_is_left_recursive"
   ],
   "note": "Counts calls of methods of the caller's grammar. Topdown: for grammars without left recursion."
  },
  {
   "property": "C96",
   "status": "proved",
   "theorems": [
    "c96_packrat",
    "c96_topdown"
   ],
   "note": "Packrat: for inputs on which no lexeme is mistaken for a non-terminal. Topdown: for grammars without left recursion, where every derivation tree is like this."
  },
  {
   "property": "C97",
   "status": "partial",
   "theorems": [
    "c97_distinct_nodes_refuted",
    "c97_links_refuted",
    "c97_no_links",
    "c97_topdown_partial",
    "c97_no_tree",
    "c97_diverges",
    "c97_positions",
    "c97_clone",
    "c97_reduce"
   ],
   "note": "False of the code: topdown never sets P, and a non-terminal that matches nothing twice at one position is one shared node, so that an edit in one place shows in the other. Holds: the tree is new and whole, nothing else in memory changes, its nodes are distinct when every non-terminal node has a child, inner nodes are at (-1, 0), and Clone and RawReduce unshare it."
  },
  {
   "property": "C98",
   "status": "proved",
   "theorems": [
    "c98_topdown_shape",
    "c98_topdown_diverges"
   ],
   "note": "The same for packrat is C07."
  },
  {
   "property": "C99",
   "status": "proved",
   "theorems": [
    "c99_topdown",
    "c99_packrat"
   ],
   "note": ""
  },
  {
   "property": "C100",
   "status": "proved",
   "theorems": [
    "c100_packrat",
    "c100_topdown"
   ],
   "note": ""
  },
  {
   "property": "C101",
   "status": "proved",
   "theorems": [
    "c101_shadowed",
    "c101_start_counts"
   ],
   "note": ""
  },
  {
   "property": "C102",
   "status": "partial",
   "theorems": [
    "c102_names",
    "c102_order_refuted",
    "c102_order_partial"
   ],
   "note": "False for order: N -> nothing listed before A -> N A | a hides that A is left recursive, since a checked symbol is not known to derive nothing. Proved: names never matter, and order and repetition do not where no production of two or more symbols starts with a symbol that derives nothing."
  },
  {
   "property": "C103",
   "status": "partial",
   "theorems": [
    "c103_same_tree_refuted",
    "c103_same_tree_partial",
    "c103_topdown_earliest_partial",
    "c103_only_tree_partial"
   ],
   "note": "False in general: for S -> A T, A -> C b | a, C -> a b | a, T -> b | (empty), which has no recursion, topdown reads 'a b' as A(a) T(b) and packrat as A(C(a) b) T(). Proved for every grammar whose symbols are prefix free and of which no symbol derives itself; there topdown's tree also takes the first deriving production at every node. Also proved without these guards for non-empty lexemes that have a single tree."
  },
  {
   "property": "C104",
   "status": "partial",
   "theorems": [
    "c104_packrat",
    "c104_topdown_refuted",
    "c104_topdown_partial",
    "c104_topdown_start_partial"
   ],
   "note": "Proved for packrat. False for topdown: with S -> B d, B -> A | x y, A -> z it accepts x y d, and no longer when x is added as A's last production, since B never goes back to its second production. Proved for topdown when the larger grammar is not left recursive and either is prefix free or differs only in a start symbol that stands in no production."
  },
  {
   "property": "C105",
   "status": "proved",
   "theorems": [
    "c105_order",
    "c105_ties_matter",
    "c105_unused"
   ],
   "note": "For lexers that go by length, the default; ByPriority matches nothing at all (C39). c105_ties_matter shows that the guard is needed."
  },
  {
   "property": "C106",
   "status": "proved",
   "theorems": [
    "c106_topdown",
    "c106_topdown_same",
    "c106_topdown_diverges",
    "c106_packrat"
   ],
   "note": "For packrat the lexemes' kinds must be terminals. c106_topdown_diverges shows why the guard on left recursion is there: a dead production may keep topdown from returning."
  }
 ]
}