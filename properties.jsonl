{"id": "C01", "title": "Recognition is sound", "statement": "If `Parser::new(&grammar)` succeeds and `parser.parse_stream(w)` returns true, then w is derivable from the grammar's first rule, for grammars whose `!` nodes are never followed by another node (which every grammar! input satisfies) and that do not use EndOfStream as a terminal.", "quantifier": "every grammar over every token/label type, every input sequence of every length", "why_tests_cant": "An unsound table entry shows only on a particular stack/lookahead combination; tests sample a handful of grammars and strings.", "anchors": ["lr_table/src/parse_simulator.rs: Parser::new, Parser::parse_stream", "lr_table/src/lr_table.rs: LRTable::build, get_action, get_goto", "lr_table/src/closure.rs"]}
{"id": "C02", "title": "Recognition is complete", "statement": "If `Parser::new(&grammar)` succeeds and w is derivable from the first rule then `parse_stream(w)` returns true.", "quantifier": "every accepted grammar, every sentence of its language", "why_tests_cant": "The set of sentences is infinite and a missing lookahead affects only particular nestings of empty productions.", "anchors": ["lr_table/src/parse_simulator.rs: Parser::parse_stream", "lr_table/src/first_map.rs: FirstTable::propagate_map", "lr_table/src/closure.rs: closure_follow_sets"]}
{"id": "C03", "title": "Table construction always terminates", "statement": "`Parser::new` / `LRTable::build` returns (Ok or Err) after finitely many steps for every grammar whatsoever, including cyclic, left-recursive, nullable and useless productions.", "quantifier": "every grammar", "why_tests_cant": "Non-termination on some grammar cannot be observed by finitely many finite runs; state discovery is a work list that grows while it is consumed.", "anchors": ["lr_table/src/lr_table.rs: LRTable::generate_actions", "lr_table/src/first_map.rs: build_from_grammar", "lr_table/src/closure.rs: closure_follow_sets", "lr_table/src/indexed_grammar.rs: verify_connected"]}
{"id": "C04", "title": "Table construction never panics", "statement": "`Parser::new` never panics (no failed expect, debug assertion or out-of-range index) on any grammar.", "quantifier": "every grammar, in debug and release builds", "why_tests_cant": "The two `expect`s and dozens of index expressions are justified only by comments about what kernels can contain.", "anchors": ["lr_table/src/lr_table.rs: LRTableEntryBuilder::try_build_from_partitions", "lr_table/src/indexed_grammar.rs: build_from_grammar", "lr_table/src/bit_set.rs"]}
{"id": "C05", "title": "Parsing always terminates and never panics", "statement": "`parse_stream` returns true or false on every input after finitely many steps and never panics, for every successfully built parser.", "quantifier": "every successfully built grammar, every input sequence", "why_tests_cant": "An infinite chain of empty reductions is possible in principle in any LR machine; only an argument over all viable prefixes excludes it.", "anchors": ["lr_table/src/parse_simulator.rs: Parser::parse_stream"]}
{"id": "C06", "title": "Accepted grammars are unambiguous", "statement": "If table construction succeeds, no input has two different parse trees.", "quantifier": "every accepted grammar, every pair of parse trees", "why_tests_cant": "Ambiguity is undecidable in general; only conflict-freedom of the full automaton establishes it.", "anchors": ["lr_table/src/lr_table.rs: try_insert based conflict detection", "lr_table/src/first_map.rs"]}
{"id": "C07", "title": "A grammar is accepted exactly when it is LR(1)", "statement": "`LRTable::build` returns Ok iff no viable prefix has two conflicting valid LR(1) items (Knuth/textbook definition).", "quantifier": "every indexed grammar; all viable prefixes (infinitely many)", "why_tests_cant": "The definition quantifies over infinitely many viable prefixes.", "anchors": ["lr_table/src/lr_table.rs: LRTable::build", "lr_table/src/closure.rs"]}
{"id": "C08", "title": "Conflict errors are genuine", "statement": "When `LRTable::build` fails, the reported error names rule(s) and a lookahead for which a viable prefix really has the two conflicting items, so the message points at a real problem; a ShiftConflict is never reported.", "quantifier": "every grammar for which construction fails", "why_tests_cant": "The error is produced by whichever of many partitions happens to be processed second.", "anchors": ["lr_table/src/lr_table.rs: add_reduce_action, add_shift_action, try_build_from_partitions", "lr_table/src/error.rs: LRTableError"]}
{"id": "C09", "title": "Grammar validation errors are exact", "statement": "`IndexedGrammar::build` returns EmptyGrammar / RootProductionRepeated / RootProductionReferenced / UnrecognizedLabel / NotConnected exactly under the documented condition (with the documented precedence), and Ok otherwise; NotConnected lists exactly the unreachable labels.", "quantifier": "every list of production rules", "why_tests_cant": "Each error has an iff over all positions of the faulty rule in the grammar.", "anchors": ["lr_table/src/indexed_grammar.rs: build_from_grammar, verify_connected"]}
{"id": "C10", "title": "Indexing loses nothing", "statement": "In an indexed grammar every original rule appears exactly once, under its `original_index`, with its symbol and nodes mapped back exactly by `orig_production_label` and `id_to_token`; rules of one label are contiguous and keep source order; rule 0 is the first rule.", "quantifier": "every accepted grammar", "why_tests_cant": "Permutation/grouping errors need specific interleavings of labels.", "anchors": ["lr_table/src/indexed_grammar.rs: build_from_grammar, production_rule_ids_for_label, orig_production_label"]}
{"id": "C11", "title": "The vocabulary is a bijection", "statement": "Token ids are dense, `id_to_token(token_to_id(t)) = t`, two tokens have the same id iff equal, ids of Epsilon/EndOfStream never collide with user tokens, and unknown tokens are reported as unrecognized.", "quantifier": "every sequence of insertions", "why_tests_cant": "Collisions depend on the insertion history.", "anchors": ["lr_table/src/vocabulary.rs: VocabularyBuilder::get_id_or_insert, AugmentedVocab, Label for AugmentedVocabToken"]}
{"id": "C12", "title": "BitSet is a finite set", "statement": "After any sequence of set/clear/merge operations, has() reports exactly the members, for_each() yields them once each in increasing order, merge() returns true iff the set grew, full() iff every element below len is present, and equality of values is equality of sets.", "quantifier": "every capacity (including 0 and multiples of 64), every operation history", "why_tests_cant": "Word-boundary bugs appear only at particular capacities and bits.", "anchors": ["lr_table/src/bit_set.rs: BitSet", "lr_table/src/vocabulary.rs: VocabSet"]}
{"id": "C13", "title": "Sparse maps are insertion-ordered maps", "statement": "SparseFixedSizeMap behaves like a finite map: get returns the value inserted, try_insert never overwrites and returns the existing value, get_mut_or_insert_with inserts once, iteration yields each key once in insertion order.", "quantifier": "every capacity and operation history", "why_tests_cant": "The two-level index is consistent only as an invariant over histories.", "anchors": ["lr_table/src/fixed_map.rs: SparseFixedSizeMap"]}
{"id": "C14", "title": "FIRST sets are exact", "statement": "The FIRST set computed for a production label contains exactly the tokens that can begin a string derived from it, and epsilon exactly when it derives the empty string.", "quantifier": "every grammar, every label", "why_tests_cant": "The fixpoint loop's exit condition matters only for dependency chains of specific shapes.", "anchors": ["lr_table/src/first_map.rs: FirstTable::propagate_map, build_from_grammar"]}
{"id": "C15", "title": "State items are the LR(1) closure", "statement": "The positions and follow sets the builder holds for a state reached by a viable prefix are exactly the items valid for this prefix: each is justified and none is missing.", "quantifier": "every grammar, every viable prefix", "why_tests_cant": "Closure fixpoints are over all label dependency graphs.", "anchors": ["lr_table/src/closure.rs: closure_follow_sets, partition_closure_by_next_node", "lr_table/src/position.rs: follow_set_for_rule"]}
{"id": "C16", "title": "States are minimal and canonical", "statement": "No two states of a built table stand for the same kernel, every state is reachable from the root state, and the kernel built from a set of positions does not depend on the order in which they were collected.", "quantifier": "every accepted grammar, every ordering", "why_tests_cant": "Requires comparing all pairs of states of all grammars.", "anchors": ["lr_table/src/kernel.rs: Kernel::new", "lr_table/src/kernel_table.rs: KernelTable::get_or_insert", "lr_table/src/lr_table.rs: generate_actions"]}
{"id": "C17", "title": "Table accessors agree and stay in range", "statement": "For every state and every token id/label of the grammar, get_action/get_goto succeed (no index panic), agree with what state_actions/goto_actions enumerate, and the targets they name are existing states.", "quantifier": "every built table, state, token, label", "why_tests_cant": "Row-major offsets are wrong only for particular vocabulary/label counts.", "anchors": ["lr_table/src/lr_table.rs: get_action, get_goto, state_actions, goto_actions, into_vecs"]}
{"id": "C18", "title": "The state map never fails on a built table", "statement": "`LRStateMap::build_from_lr_table` returns Ok for every table built by `LRTable::build`, and `state_type` of a state is Root for state 0 and otherwise the unique symbol on every edge into the state.", "quantifier": "every built table; every HashMap iteration order", "why_tests_cant": "The error branches are reachable only if two edges disagree in some automaton.", "anchors": ["lr_table/src/lr_state_map.rs: build_from_lr_table, verify_compatible, state_type"]}
{"id": "C19", "title": "Back edges are exact", "statement": "`back_edges(s)` lists exactly the states with a shift or goto edge into s, without duplicates (plus the root itself for the root).", "quantifier": "every built table, every HashMap iteration order", "why_tests_cant": "Needs all edges of all automata.", "anchors": ["lr_table/src/lr_state_map.rs: back_edges"]}
{"id": "C20", "title": "Errors are reported at the first impossible token", "statement": "When the generated parser returns ParseError{next_token}, the tokens consumed before it are a prefix of some sentence, and no sentence of the grammar continues this prefix with next_token (or, for None, the prefix itself is not a sentence).", "quantifier": "every grammar, every rejected input", "why_tests_cant": "Quantifies over all continuations of a prefix.", "anchors": ["parser_generator_impl/src/code_gen/state_action_builder.rs: generate_actions (return_err)", "src/error.rs: ParserError::ParseError"]}
{"id": "C21", "title": "The generated parser's unsafe code is never undefined behaviour", "statement": "No execution of a generated parser reaches `unreachable_unchecked` or pops / peeks an empty stack through `unwrap_unchecked`, and `verify_empty_stack` never fails.", "quantifier": "every generated parser, every token stream (including failing ones), every constructor behaviour", "why_tests_cant": "Undefined behaviour is not observable by tests; absence must hold on all reachable stacks.", "anchors": ["parser_generator_impl/src/code_gen/reduce_rule.rs: extract_state, apply_goto", "src/parser_state.rs: ParserState::state, pop_state, verify_empty_stack"]}
{"id": "C22", "title": "The parse result is the bottom-up evaluation of the parse tree", "statement": "If the tokens form a sentence with parse tree t, the generated parser returns the value obtained by running the rule constructors over t, each on the values of its own nodes in rule order (or the first constructor error in that order).", "quantifier": "every accepted grammar, every sentence, all constructors", "why_tests_cant": "Depends on every pop/bind position of every rule in every state.", "anchors": ["parser_generator_impl/src/code_gen/reduce_rule.rs: bind_production_nodes_to_locals, apply_goto", "parser_generator_impl/src/code_gen/state_action_builder.rs"]}
{"id": "C23", "title": "The generated parser returns a value only for sentences", "statement": "If the generated parser returns Ok(v), the token sequence is a sentence of the grammar and v is the evaluation of a parse tree of exactly these tokens.", "quantifier": "every accepted grammar, every token stream", "why_tests_cant": "All inputs outside the language must be rejected.", "anchors": ["parser_generator_impl/src/code_gen/parse_loop.rs: generate_parse_loop", "parser_generator_impl/src/code_gen/state_action_builder.rs"]}
{"id": "C24", "title": "Constructors run exactly once per reduction, in post-order", "statement": "During a successful parse the sequence of constructor calls (rule, arguments) is exactly the post-order traversal of the parse tree.", "quantifier": "every sentence of every grammar", "why_tests_cant": "Order and multiplicity must hold for all trees.", "anchors": ["parser_generator_impl/src/code_gen/reduce_rule.rs: apply_goto", "parser_generator_impl/src/code_gen/constructor.rs: build_constructor"]}
{"id": "C25", "title": "Input stream errors are propagated", "statement": "If the input stream yields Err(e), parse_fallible never returns Ok; it returns UserError(e) unless the tokens before it already caused an error, and nothing after the Err is read.", "quantifier": "every stream with an error at any position", "why_tests_cant": "Position of the error vs parser state is unbounded.", "anchors": ["parser_generator_impl/src/code_gen/state_action_builder.rs: generate_actions (peek_next)", "src/error.rs: into_user_error"]}
{"id": "C26", "title": "Input is read lazily with one token of lookahead", "statement": "The generated parser calls next() on the input exactly once more than the number of tokens it has shifted, never calls next() again after it returned None, and never skips or re-reads a token.", "quantifier": "every stream, every execution", "why_tests_cant": "History property of the iterator protocol.", "anchors": ["src/parser_stream.rs: ParserStream::new, advance, peek_next", "parser_generator_impl/src/code_gen/state_action_builder.rs"]}
{"id": "C27", "title": "Overlapping token patterns are diagnosed in debug builds", "statement": "In debug builds a token that matches two patterns expected in the current state is reported as OverlappingTokenMatchers instead of being resolved arbitrarily; when no token overlaps, debug and release builds return the same result, independently of hash iteration order.", "quantifier": "every grammar with patterns, every token stream, every hash order", "why_tests_cant": "Depends on all pattern pairs and states.", "anchors": ["parser_generator_impl/src/code_gen/state_action_builder.rs: debug_check_token_conflict", "src/error.rs: OverlappingTokenMatchers"]}
{"id": "C28", "title": "Code generation never panics", "statement": "For every grammar whose table was built, generating the parser hits none of its `expect`s/unreachable!s: goto exists for every state that can be uncovered, state sets are nonempty, shift tokens are user tokens.", "quantifier": "every accepted macro grammar", "why_tests_cant": "The `expect`s encode global automaton facts.", "anchors": ["parser_generator_impl/src/code_gen/reduce_rule.rs: apply_goto, bind_production_nodes_to_locals", "parser_generator_impl/src/code_gen/state_action_builder.rs: shift_match_and_yield, token_matcher"]}
{"id": "C29", "title": "Generated match arms are well typed", "statement": "Whenever the generated code pops a node of a rule, all states it matches carry the same payload type, namely that of the rule's node at this index.", "quantifier": "every state, rule and node index of every table", "why_tests_cant": "Would only show as a compile error for some grammar.", "anchors": ["parser_generator_impl/src/code_gen/reduce_rule.rs: bind_production_nodes_to_locals", "parser_generator_impl/src/code_gen/states_enum.rs: state_type"]}
{"id": "C30", "title": "grammar! admits `!` only alone and never EndOfStream", "statement": "Every grammar produced by the macro front end has Epsilon only as the sole node of a rule, no EndOfStream terminals and no empty rule, so the hypotheses of C01-C07 hold for it.", "quantifier": "every macro input token stream", "why_tests_cant": "All token streams.", "anchors": ["parser_generator_impl/src/annotated_grammar/production_rule.rs: parse_rule", "parser_generator_impl/src/annotated_grammar/terminal.rs: Terminal::parse"]}
{"id": "C31", "title": "The grammar! front end parses what was written", "statement": "Parsing the token sequence that spells a list of production declarations (names, optional types, alternatives, patterns, constructors) gives back exactly these rules in order.", "quantifier": "every well-formed declaration list", "why_tests_cant": "Round trip over all grammars.", "anchors": ["parser_generator_impl/src/annotated_grammar/parse_grammar.rs: parse_grammar", "parser_generator_impl/src/annotated_grammar/production_rule.rs", "parser_generator_impl/src/symbol.rs: tokenize_from_stream"]}
{"id": "C32", "title": "A label has one return type", "statement": "If the front end accepts, all rules of a label declare the same return type (by token text), and label_type returns it for every label of the grammar without panicking; a mismatch is rejected.", "quantifier": "every macro input", "why_tests_cant": "All pairs of rules.", "anchors": ["parser_generator_impl/src/annotated_grammar/label_type_map.rs: LabelTypeMap"]}
{"id": "C33", "title": "Constructor substitution binds the right nodes", "statement": "In a constructor body `#name` is replaced by the variable of the unique node with that label, `#n` by that of node n, at any nesting depth, everything else is unchanged; ambiguous, unknown, out-of-range and `!` references are rejected.", "quantifier": "every rule and constructor body", "why_tests_cant": "Nested token groups of any depth.", "anchors": ["parser_generator_impl/src/code_gen/constructor.rs: SubstitutionMap"]}
{"id": "C34", "title": "Generated constructors refer only to bound variables", "statement": "Every `__v{i}` used by the constructor generated for a rule is bound by the code that pops the rule's nodes.", "quantifier": "every rule with or without a constructor", "why_tests_cant": "All rules, incl. the default constructor.", "anchors": ["parser_generator_impl/src/code_gen/constructor.rs: generate_default_constructor, build_constructor", "parser_generator_impl/src/code_gen/reduce_rule.rs: bind_production_nodes_to_locals"]}
{"id": "C35", "title": "Grammar strings parse to what they spell", "statement": "`Grammar::from_grammar_str` applied to the text of a grammar (label -> nodes per line) returns exactly that grammar, and it returns Err iff some line lacks `->`, has a non-uppercase label, or has a node that is neither `!`, all-uppercase nor a single ASCII byte.", "quantifier": "every grammar and every ASCII string", "why_tests_cant": "All strings.", "anchors": ["lr_table/src/grammar.rs: Grammar::from_grammar_str"]}
{"id": "C36", "title": "Epsilon nodes do not change the language", "statement": "Inserting or deleting Epsilon nodes in the right-hand sides of a grammar's rules does not change which inputs are accepted.", "quantifier": "every grammar, every insertion point", "why_tests_cant": "Each insertion point yields different positions/kernels.", "anchors": ["lr_table/src/position.rs: Position::next_node, advance, next_production_label", "lr_table/src/grammar.rs: rules_excluding_epsilon"]}
{"id": "C37", "title": "Unknown tokens are rejected", "statement": "An input containing a token that does not occur in the grammar is never accepted, whatever precedes it.", "quantifier": "every grammar, every input", "why_tests_cant": "All positions of the foreign token.", "anchors": ["lr_table/src/parse_simulator.rs: parse_stream", "lr_table/src/vocabulary.rs: augmented_token_to_id"]}
{"id": "C38", "title": "Simulator and generated parser agree", "statement": "On tokens that match exactly one terminal each, the generated parser (with constructors that succeed) returns Ok iff the simulator's parse_stream accepts the corresponding terminal sequence.", "quantifier": "every grammar, every input", "why_tests_cant": "Two independent interpreters of the same table on all inputs.", "anchors": ["lr_table/src/parse_simulator.rs: parse_stream", "parser_generator_impl/src/code_gen/parse_loop.rs"]}
{"id": "C39", "title": "parse is parse_fallible on an infallible stream", "statement": "`Parser::parse(tokens)` equals `parse_fallible(tokens.map(Ok))` and never returns a stream error.", "quantifier": "every parser, every input", "why_tests_cant": "All inputs.", "anchors": ["src/parser.rs: Parser::parse"]}
{"id": "C40", "title": "Symbol tokenization is faithful", "statement": "Tokenizing a macro token stream yields one symbol per token except that the pairs `=`,`>` and `:`,`:` (joint) are fused; no token is dropped or duplicated in an error-free stream of well-formed spacing.", "quantifier": "every token stream", "why_tests_cant": "All streams.", "anchors": ["parser_generator_impl/src/symbol.rs: PunctBuilder::consume_next, tokenize_from_stream"]}
{"id": "C41", "title": "Generated parsers terminate", "statement": "On a finite token stream a generated parser returns after finitely many steps: it does not reduce forever without consuming a token.", "quantifier": "every generated parser, every finite stream of tokens", "why_tests_cant": "An endless chain of (epsilon) reductions can occur for one lookahead in one state of one grammar; a test only shows that the inputs it tries end.", "anchors": ["parser_generator_impl/src/code_gen/parse_loop.rs:30-44", "src/parser.rs:18-24"]}
{"id": "C42", "title": "Expanding grammar! always returns", "statement": "For every token stream the macro expansion ends with code, a reported error, or a panic; it panics only if the first rule mentions its own label or a character literal is a terminal of an enum_terminal grammar.", "quantifier": "every token stream, every iteration order of the hash maps, debug and release builds of the generator", "why_tests_cant": "All token streams, including ill-formed ones; panics inside a proc macro show up only for the inputs one thought of.", "anchors": ["parser_generator_impl/src/lib.rs: build_grammar", "parser_generator_impl/src/annotated_grammar/parse_grammar.rs: parse_grammar", "parser_generator_impl/src/code_gen"]}
{"id": "C43", "title": "The expanded parser parses the grammar that was written", "statement": "If tokens that declare a grammar expand to a parser, then the parser returns a value only for sentences of that grammar, namely the value of a parse tree computed by the written constructors, and it does so for every sentence.", "quantifier": "every declared grammar the macro accepts, every token stream given to the parser, every type of token and every behaviour of the constructors", "why_tests_cant": "Composition of front end, table construction, code generation and run time over all grammars and inputs.", "anchors": ["parser_generator_impl/src/lib.rs: build_grammar", "parser_generator_impl/src/code_gen/code_gen.rs", "src/parser.rs"]}
{"id": "C44", "title": "The macro accepts exactly the valid LR(1) grammars", "statement": "An input that declares a grammar is accepted by the front end if and only if the grammar is valid (labels defined and reachable, root not used) and LR(1).", "quantifier": "every declared grammar", "why_tests_cant": "All grammars; LR(1) is a property of all viable prefixes.", "anchors": ["parser_generator_impl/src/annotated_grammar/parse_grammar.rs: parse_grammar", "lr_table/src/lr_table.rs"]}
{"id": "C45", "title": "The printed table shows the table", "statement": "Printing a built table (`Display for LRTable`) never panics; the text has a header with the ids of exactly the tokens that have an action in some state, in order, and one row per state with its number, its action under each of these tokens and its goto for each label; the words of a column start at the same place in the header and in every row; and tables that print the same are the same.", "quantifier": "every grammar for which the table is built; both build modes", "why_tests_cant": "Column widths, chunking of the flat arrays and the set of shown tokens depend on all entries of tables of any size (e.g. ids with more digits than any shown action would break the header's alignment).", "anchors": ["lr_table/src/lr_table.rs: Display for LRTable, Action, GotoState; actions_iter, gotos_iter", "lr_table/src/vocabulary.rs: Display for TokenId, AugmentedVocabToken"]}
{"id": "C46", "title": "Exactly the grammar's symbols label the edges of the automaton", "statement": "The vocabulary of an indexed grammar contains exactly the tokens of its rules, and a symbol labels an edge (shift or goto) of the built table iff it occurs on some right-hand side and is not epsilon.", "quantifier": "every grammar for which the table is built, every symbol", "why_tests_cant": "A symbol could be lost or spuriously added only in grammars of a certain shape; all grammars are meant.", "anchors": ["lr_table/src/indexed_grammar.rs: build_from_grammar, verify_connected", "lr_table/src/lr_table.rs: build", "lr_table/src/position.rs", "lr_table/src/closure.rs"]}
{"id": "C47", "title": "Errors in the input of grammar! are reported where they are", "statement": "The front end either accepts an input whose symbols have the right form, or reports an error: at the first symbol that no correct input continues with (and every symbol the message says was expected would have been right there), or at tokens that are no symbol, or at the first `!` beside other nodes, or at the type that differs from an earlier declaration of the label (at the earlier one if there is none now); the message is the text for that kind of error, with the notes added by `intercept`.", "quantifier": "every token stream that comes from source text, with any spans", "why_tests_cant": "The place of an error depends on everything before it; a test shows one place in one input. The property needs that no correct continuation exists, which quantifies over all inputs.", "anchors": ["parser_generator_impl/src/symbol.rs: tokenize_from_stream, SymbolMeta::merge, make_err", "parser_generator_impl/src/symbol_stream.rs", "parser_generator_impl/src/annotated_grammar: parse_grammar, production_rule, production_ref, terminal, label_type_map, util", "parser_generator_impl/src/error.rs: intercept"]}
{"id": "C48", "title": "An input that is too short is reported at its end", "statement": "If the input of grammar! ends too early, the error points at the last symbol of the input.", "quantifier": "every token stream that is the beginning of a correct input but none itself", "why_tests_cant": "Which span is recorded depends on which of the two ways each symbol was read.", "anchors": ["parser_generator_impl/src/symbol_stream.rs: expect_symbol, peek_expect_symbol, current_span", "parser_generator_impl/src/annotated_grammar/parse_grammar.rs"]}
{"id": "C49", "title": "Messages tell the error", "statement": "The message that grammar! reports for an input it rejects before generating code is the text of the error with notes; errors of lr_table are reported at the macro with exactly their `Display` text; and an input that is accepted gives the same grammar whatever its spans are.", "quantifier": "every token stream, any spans; both build modes", "why_tests_cant": "Each error has its own path to the message, through any number of notes.", "anchors": ["parser_generator_impl/src/error.rs", "parser_generator_impl/src/annotated_grammar/parse_grammar.rs", "lr_table/src/error.rs: Display"]}
{"id": "C50", "title": "Errors found while generating code are reported where they are", "statement": "A constructor is accepted iff every `#` in it refers to one node that has a value; otherwise the first bad reference is reported, at the name or number after the `#` (at the `#` if there is neither), with the message for that kind of error. A block with other delimiters is reported at the block, a missing constructor at the rule, a terminal that is no literal at the macro. What is reported for a grammar is wrong with a rule that some action reduces or a terminal that some state acts on; spans influence nothing else.", "quantifier": "every rule and constructor with any spans; every grammar with a table, every hash order, both build modes", "why_tests_cant": "References can be nested in any number of groups and follow any other tokens; a test shows one place in one body.", "anchors": ["parser_generator_impl/src/code_gen/constructor.rs", "parser_generator_impl/src/code_gen/reduce_rule.rs", "parser_generator_impl/src/code_gen/state_action_builder.rs", "parser_generator_impl/src/code_gen/code_gen.rs", "parser_generator_impl/src/annotated_grammar/terminal.rs: as_literal"]}
{"id": "C51", "title": "What code generation reports does not depend on hash orders", "statement": "Whether a parser is generated, and the error that is reported otherwise, do not depend on the order in which hash maps are iterated; a parser is generated iff nothing that is used is wrong.", "quantifier": "every grammar with a table whose names are usable and whose first rule does not mention its own label, any hash orders, both build modes", "why_tests_cant": "The order changes from run to run; a test sees one.", "anchors": ["parser_generator_impl/src/code_gen/state_action_builder.rs: reduce_match_and_return", "parser_generator_impl/src/code_gen/constructor.rs"]}
{"id": "C52", "title": "The emitted Rust code runs as the generated program does", "statement": "The item the macro emits (struct, state enum, one function per state, the loop), run by the semantics of the Rust fragment it is written in, does what the program of the model does on every input and returns the same result, if constructors do not name its internal variables `__peeked_val` and `__parser_generator_state`. So it is never undefined, and `Ok(v)` is returned only for a sentence whose value is `v`.", "quantifier": "every grammar for which a parser is generated, every hash order and build mode, every visibility, name, error type and root type, every input (any length, with errors), every meaning of constructors, any number of steps", "why_tests_cant": "A template is instantiated for every state, rule and token of any grammar; tests compile and run a few grammars.", "anchors": ["parser_generator_impl/src/code_gen/code_gen.rs", "parser_generator_impl/src/code_gen/state_action_builder.rs", "parser_generator_impl/src/code_gen/reduce_rule.rs", "parser_generator_impl/src/code_gen/constructor.rs", "src/parser.rs", "src/parser_state.rs"]}
{"id": "C53", "title": "Names in the emitted code do not clash", "statement": "Variants and state functions have different names; every variable, variant and function that the emitted code names is declared by it, or was written by the user; every match is exhaustive. Names of the emitted code do not capture what the user wrote: constructors see only the variables of their nodes, and types and functions they name are those of the user.", "quantifier": "every grammar for which a parser is generated, every visibility, name, error type and root type", "why_tests_cant": "It takes a user's name that happens to be one the generator uses, or a state number that collides.", "anchors": ["parser_generator_impl/src/code_gen/state_action_builder.rs:333", "parser_generator_impl/src/code_gen/parse_loop.rs", "parser_generator_impl/src/code_gen/states_enum.rs", "parser_generator_impl/src/code_gen/util.rs"]}
{"id": "C54", "title": "The macro emits the parser that was asked for", "statement": "The item `grammar!` or `pub_grammar!` emits has the declared name, token type and error type (or `NoUserErrorType`), its values have the type of the first rule (or unit), it is public iff the macro is `pub_grammar!`, and nothing else depends on that. Running it returns a value only for a sentence of the written grammar, namely the value of a parse tree, and returns the value or error of every sentence.", "quantifier": "every token stream with any spans, every hash order and build mode, every fuel for which the macro returns an item; every input of the emitted parser, every meaning of constructors, any number of steps", "why_tests_cant": "It composes tokenizing, parsing, table construction, code generation and the run of the code for any grammar; tests compile a few grammars.", "anchors": ["parser_generator_impl/src/lib.rs:28-56", "parser_generator_impl/src/code_gen/code_gen.rs:15-70", "parser_generator_impl/src/annotated_grammar/parse_grammar.rs"]}
{"id": "C55", "title": "What is wrong with the macro's input is reported where it is", "statement": "If the macro reports an error, the message and place are right: it is about a symbol of the input (C47), or the grammar is rejected (reported at the macro), or a rule or terminal that is used is bad (C50), where the place of a rule is that of its nodes, the place of a block is that of the block, and the place of a reference is that of the token in the block. The place is always the macro as a whole or made up of tokens of the input.", "quantifier": "every token stream with any spans and any way to join spans, every hash order and build mode, every fuel for which the macro returns an error", "why_tests_cant": "Tests do not look at places of messages, and there are unboundedly many inputs with errors.", "anchors": ["parser_generator_impl/src/lib.rs:28-56", "parser_generator_impl/src/error.rs", "parser_generator_impl/src/annotated_grammar/production_rule.rs", "parser_generator_impl/src/code_gen/constructor.rs"]}
{"id": "C56", "title": "The macro emits an item iff the grammar is valid and LR(1)", "statement": "Expanding the macro ends; it panics only if the first rule mentions its own label or a character is a variant of an enum. If constructors and terminals are good, an item is emitted iff the grammar is valid and LR(1), and otherwise an error is reported.", "quantifier": "every token stream with any spans, every hash order and build mode", "why_tests_cant": "Whether a grammar is LR(1) is a statement about infinitely many derivations; tests try a few grammars.", "anchors": ["parser_generator_impl/src/lib.rs:28-56", "parser_generator_impl/src/annotated_grammar/parse_grammar.rs", "lr_table/src/lr_table.rs"]}
{"id": "C57", "title": "Parsing takes linearly many steps", "statement": "For every grammar from which a parser is built there is one constant C such that parsing ends within C * (n + 1) rounds of the main loop (each a shift or a reduction) on every input of n tokens, sentence or not. The constant is the grammar's alone: it does not depend on the tokens, on what constructors do, or on the build.", "quantifier": "every grammar (no EndOfStream terminal, epsilon only at the end of rules) from which a parser is built, one constant for all inputs of any length; for generated parsers every interpretation of types and constructors and every stream that ends or fails", "why_tests_cant": "A bound that holds for inputs of all lengths, and the absence of reduction cycles and of unbounded runs of empty reductions, cannot be observed on finitely many inputs.", "anchors": ["lr_table/src/parse_simulator.rs:27-100", "src/parser.rs", "parser_generator_impl/src/code_gen/code_gen.rs"]}
{"id": "C58", "title": "Every error of a generated parser has its cause", "statement": "When a generated parser gives an error, the tokens before the last one it asked for are those of parse trees of the grammar, and exactly the constructors of these trees have been run, each once, in order and on the values of the nodes of its rule. The error is then either a parse error that carries what came next, or says that the next token is matched by two terminals (debug builds, enum tokens), or is the converted error of the stream, or is the error returned by the last of these constructors, all others having succeeded.", "quantifier": "every accepted grammar, every interpretation of tokens and constructors, every finite or infinite stream, every run that ends in an error", "why_tests_cant": "Tests see the errors of a few inputs; that no error is ever made up, swallowed or taken from another constructor is a statement about all runs.", "anchors": ["src/error.rs:9-59", "parser_generator_impl/src/code_gen/state_action_builder.rs:105-150", "parser_generator_impl/src/code_gen/state_action_builder.rs:254-314", "parser_generator_impl/src/code_gen/constructor.rs:19-34"]}
{"id": "C59", "title": "The text of an error tells what was wrong", "statement": "The text of an error of a generated parser names the token at which the parser stopped (or None at the end), or is the text of the user's error; an error of the stream is always reported by its own text. Different errors have different texts, provided Debug tells tokens apart and the user's texts are not those of the parser.", "quantifier": "every accepted grammar, run and stream, all texts of tokens and of user errors", "why_tests_cant": "No error path compares texts for more than a few inputs; distinctness is a statement about all pairs of errors.", "anchors": ["src/error.rs:19-26", "src/error.rs:69-99", "parser_generator_impl/src/code_gen/state_action_builder.rs:136-143"]}
{"id": "C60", "title": "The derive macro implements the error traits for the declared type", "statement": "derive(ParserUserError) writes implementations of From<Infallible> and ParserUserError for exactly the type it is applied to, with all its parameters.", "quantifier": "every name and every list of generic parameters", "why_tests_cant": "The tests derive it for three types without parameters.", "anchors": ["parser-user-error/src/lib.rs:6-25"]}
{"id": "C61", "title": "Labels, and sets and maps of fixed size", "statement": "A label is got back from its id, for every type of labels; a FixedSizeSet holds exactly the labels put into it and is full iff all ids are taken; a FixedSizeMap gives the last value written to a label, or the one it was made with, and panics for labels beyond its capacity.", "quantifier": "every label, every capacity, every sequence of insertions and writes, both build modes", "why_tests_cant": "All capacities and sequences of operations; the one label of u8 that fails is at the very end of its range.", "anchors": ["lr_table/src/fixed_map.rs:7-119", "lr_table/src/fixed_map.rs:200-207", "lr_table/src/vocabulary.rs:42-60", "lr_table/src/indexed_grammar.rs:35-52", "lr_table/src/indexed_grammar.rs:109-129"]}
{"id": "C62", "title": "Emitted parsers are well typed", "statement": "If the user's part of a grammar is right (literals, patterns and variants fit the token type, conversions exist, constructors have the types of their labels), the item that the macro emits is well typed: every expression has the type its context needs, matches are exhaustive, patterns bind what their arms use, functions are called with their parameter types and names are declared once.", "quantifier": "every grammar accepted by grammar! or pub_grammar!, every iteration order of hash maps, every user code", "why_tests_cant": "Tests compile a handful of grammars; a template that is ill typed for some combination of payloads, types and states shows up only as a compile error in somebody else's crate.", "anchors": ["parser_generator_impl/src/code_gen/code_gen.rs:15-70", "parser_generator_impl/src/code_gen/parse_loop.rs:13-45", "parser_generator_impl/src/code_gen/states_enum.rs:50-81", "parser_generator_impl/src/code_gen/state_action_builder.rs", "parser_generator_impl/src/code_gen/constructor.rs", "parser_generator_impl/src/annotated_grammar/terminal.rs"]}
{"id": "C63", "title": "Emitted parsers compute the meaning of their input", "statement": "Read each rule of a grammar as an inference rule for the values of its label. Then an input has at most one meaning, and the parser that the macro emits returns it, in linearly many steps. If the input has none, the parser returns an error: that of the constructor that fails on tokens which, with the next token, still begin a sentence, whatever comes later; or, if no constructor fails, one that shows the first token that no sentence has there.", "quantifier": "every token input accepted by grammar! or pub_grammar!, every order of hash maps, every user code, every list of tokens each of which matches at most one terminal", "why_tests_cant": "Tests evaluate a few inputs of a few grammars; this relates what a user reads in the grammar to what the parser returns, for all of them.", "anchors": ["parser_generator_impl/src/lib.rs:18-60", "parser_generator_impl/src/code_gen/code_gen.rs:15-70", "parser_generator_impl/src/code_gen/constructor.rs", "src/parser.rs", "src/error.rs"]}
{"id": "C64", "title": "The brainfck parser accepts exactly the programs whose brackets match", "statement": "The parser of tests/brainfck.rs returns the list of instructions it is given if their brackets match; otherwise it returns a parse error that shows the first closing bracket that closes none, or the end of the input if all close one.", "quantifier": "every list of instructions, every build mode and order of hash maps", "why_tests_cant": "The tests run two programs; nesting is unbounded.", "anchors": ["tests/brainfck.rs:7-60", "tests/brainfck.rs:255-330"]}
{"id": "C65", "title": "The calculator of the tests evaluates sums of products; the error of AOrB shows the first odd token", "statement": "The parser of tests/test_simple.rs returns the value modulo 2^32 of every sum of products of decimal numbers and a parse error at the first wrong character of every other text. The parser of tests/error_messages.rs accepts one or more tokens that are all A or all B, and otherwise reports the first token that differs.", "quantifier": "every text, every list of tokens, every build mode and order of hash maps", "why_tests_cant": "The tests evaluate one sum and three lists of tokens.", "anchors": ["tests/test_simple.rs", "tests/error_messages.rs"]}
{"id": "C66", "title": "The request, non-LALR and letter parsers of the tests accept exactly their languages", "statement": "The parser GetReq of tests/sanity_tests.rs reads 'GET ' or 'HEAD ', a colon and one or more letters, and returns the kind and the text after the blank; TestNonLALR accepts four words and tells them apart; the parser of tests/test_large_or.rs accepts one letter. Each other input gives a parse error at the first wrong character.", "quantifier": "every text, every build mode and order of hash maps", "why_tests_cant": "The tests read one request, four words and some letters; nothing tests what is rejected.", "anchors": ["tests/sanity_tests.rs", "tests/test_large_or.rs"]}
{"id": "C67", "title": "Emitted parsers obey the rules of ownership", "statement": "If the user's part of a grammar is right, then in every function that the macro emits no variable is used after its value was moved, no value is moved twice (also not by a loop), no reference to a dropped value is returned, and the parser state is not changed (pop, push, advance) while a reference into it, as the peeked token, can still be used.", "quantifier": "every grammar accepted by grammar! or pub_grammar!, every iteration order of hash maps, every user code", "why_tests_cant": "Tests compile a handful of grammars; whether a template violates the borrow rules depends on which of shifts, reductions, default constructors and goto tables a state has, and shows up as a compile error in somebody else's crate.", "anchors": ["parser_generator_impl/src/code_gen/parse_loop.rs:13-45", "parser_generator_impl/src/code_gen/states_enum.rs:50-81", "parser_generator_impl/src/code_gen/state_action_builder.rs", "parser_generator_impl/src/code_gen/constructor.rs", "src/parser_state.rs:24-47", "src/parser_stream.rs:15-22"]}
{"id": "C68", "title": "The error of an emitted parser whose stream of tokens fails", "statement": "If the stream gives some tokens and then an error, the emitted parser returns an error: that of the constructor that fails before all tokens have been looked at, if there is one; else a parse error with the first token that no sentence of the grammar has there; and the stream's error, converted to the user's type of errors, if the tokens begin a sentence. In particular the stream's error is never lost, replaced or preferred to an earlier error, nothing after it is read, and no input with a stream error is accepted.", "quantifier": "every grammar accepted by grammar! or pub_grammar!, every iteration order of hash maps, every user code, every finite sequence of tokens, every error and everything after it", "why_tests_cant": "tests/fallible_input_stream.rs reads one stream with an error, at one place of one grammar; whether the error is seen before or after the reductions that precede it depends on the tables.", "anchors": ["src/parser_stream.rs:15-22", "src/error.rs", "parser_generator_impl/src/code_gen/parse_loop.rs:13-45", "parser_generator_impl/src/code_gen/states_enum.rs:50-81"]}
{"id": "C69", "title": "The parsers of the tests with errors, and the smallest ones, compute what they should on every input", "statement": "TestSimple of tests/sanity_tests.rs accepts only 'a'; tests/auto_into.rs accepts 'a' and 'b' and converts their values; tests/fallible_ctor.rs and tests/into_error_type.rs return the value 1 for a, b (and c), the user's error for y, z (and x) if the input ends there, and otherwise a parse error at the first wrong character; AddMul computes sums of products of 2 and 3; tests/fallible_input_stream.rs adds two digits, reports the first wrong character, and the stream's error if it comes before any wrong character. These grammars are accepted in every order of hash maps.", "quantifier": "every text, every stream error and every place of it, every build mode and order of hash maps", "why_tests_cant": "The tests read one to six texts for each grammar, one stream with an error, and never an input that is longer than a word, where the user's error and the parse error compete.", "anchors": ["tests/sanity_tests.rs:5-72", "tests/auto_into.rs", "tests/fallible_ctor.rs", "tests/into_error_type.rs", "tests/fallible_input_stream.rs"]}
{"id": "C70", "title": "Tokens that stand for several terminals: results are those of one reading, and doubtful tokens are reported", "statement": "Patterns of terminals may overlap, so that a token can be read as one terminal or another. Whatever the stream holds, the result of a generated parser is explained by one reading of the tokens before it stopped: a reading that begins a sentence; a value is that of a parse tree over this reading; a parse error means that no terminal the next token can stand for goes on with a sentence. A debug build with an enum of tokens never reads past a token that is doubtful, i.e. for which sentences go on with two terminals it matches, and reports the first such token and nothing else as overlapping. Sentences that can be read without meeting a doubtful token are evaluated, in both builds, even if their tokens match several terminals. The same for the items the macros emit.", "quantifier": "every accepted grammar, order of hash maps, build mode of generator and of parser, every stream of tokens and errors, every meaning of patterns and constructors", "why_tests_cant": "tests/disjoint_token_pattern.rs reads three single tokens with one grammar; whether a token is doubtful depends on everything read before it, and the release build silently takes one of the readings.", "anchors": ["parser_generator_impl/src/code_gen/state_action_builder.rs", "src/error.rs", "tests/disjoint_token_pattern.rs"]}
{"id": "C71", "title": "The parsers of the tests with patterns compute what they should on every input", "statement": "tests/token_pattern.rs accepts exactly the eight tokens 'public static void name == value ;', where name and the semicolon are alone, and returns name and value; otherwise it reports the first token after which these cannot be completed, or the end. tests/disjoint_token_pattern.rs accepts one token that one of the two patterns matches; a token that both match is reported as overlapping if the parser was built with debug assertions and accepted if not; everything else is a parse error at the right token. Both grammars are accepted in every order of hash maps, by both macros.", "quantifier": "every list of tokens with any fields, every way of printing tokens that gives different patterns different texts, every build mode of the macro and of the parser, every order of hash maps", "why_tests_cant": "The tests read three inputs each, and one build mode at a time; names, literals and the numbers in the fields are unbounded.", "anchors": ["tests/token_pattern.rs", "tests/disjoint_token_pattern.rs", "parser_generator_impl/src/annotated_grammar/terminal.rs"]}
{"id": "C72", "title": "The notes of a message of grammar! tell the part of the input with the error, and are true", "statement": "A message is a text and notes. If the input ends or has tokens that are no symbol, or has a wrong symbol, in the name option, the note explains this option; likewise for the terminal, enum_terminal and error_type options after their keyword; before the note of an option stands 'expected type' if no symbol follows a beginning of its type, and in a return type this is the only note. A missing keyword after the name option and a missing token after the terminal option have a note of their own. No other message has a note, and what the notes say is true.", "quantifier": "every well-spaced stream of tokens with any spans, every way of joining spans and of printing types", "why_tests_cant": "No test checks a message of the macro. Which notes are added depends on the nesting of calls of intercept on the way to the error, for every place where an input can end.", "anchors": ["parser_generator_impl/src/annotated_grammar/parse_grammar.rs:172-223", "parser_generator_impl/src/error.rs:48-61", "parser_generator_impl/src/type_symbol.rs:20-40"]}
{"id": "C73", "title": "FIRST sets are complete if what can vanish is spelled out early, and exactly if the table obeys the rules", "statement": "Labels are numbered in the order of their first rules. The FIRST table computed for a grammar contains all that it should iff it obeys the rules: whatever follows by one rule from what it says is in it too. It does so for every grammar in which each label that occurs in a rule and derives the empty word has a rule made of epsilons and of labels whose first rule comes before all rules of the label and which are such labels themselves, and in which, if there is such a label, some rule has a token after such nodes only.", "quantifier": "every grammar over every type of tokens and labels, every budget, both build modes", "why_tests_cant": "The tests compute FIRST sets of a few grammars. The loop stops after a pass that adds no token even if it added an epsilon, so what is computed depends on the order of the rules, for grammars of every size.", "anchors": ["lr_table/src/first_map.rs:16-61", "lr_table/src/indexed_grammar.rs:183-309"]}
{"id": "C74", "title": "The order of the rules after the first does not matter", "statement": "If two grammars have the same first rule and the same other rules in another order, then both or neither are accepted, and the parsers built for them accept the same inputs.", "quantifier": "every two such grammars whose first rule does not mention its own label, with epsilons at the ends of rules only, every input, both build modes", "why_tests_cant": "No test reorders the rules of a grammar. The claim relates two runs of the generator, over all permutations of all grammars and all inputs.", "anchors": ["lr_table/src/first_map.rs:16-61", "lr_table/src/indexed_grammar.rs:183-309", "lr_table/src/lr_table.rs"]}
{"id": "C75", "title": "The texts of sets, kernels and maps tell what they hold", "statement": "The text of a set lists its members in increasing order; the text of a kernel lists its items by rule and place, items of the same rule and place as given; sets and kernels have the same text just if they are the same. The text of a map lists its keys with their values, and maps that hold the same have the same text.", "quantifier": "every set after every history of set, clear and merge; every kernel of positions with such sets; every map after every sequence of writes or insertions; every way of showing keys and values; both build modes", "why_tests_cant": "The tests never look at these texts. That no two of infinitely many kernels print alike cannot be tested.", "anchors": ["lr_table/src/vocabulary.rs:234-244", "lr_table/src/position.rs:172-190", "lr_table/src/kernel.rs:18-37", "lr_table/src/fixed_map.rs:108-119", "lr_table/src/fixed_map.rs:226-238"]}
{"id": "C76", "title": "The order of the declarations after the first does not matter to the parsers that grammar! makes", "statement": "If two inputs of grammar! have the same kind of terminals, the same first rule, and the same other rules with the same constructors in another order, then both or neither give a parser; and on all tokens the two parsers return the same value, or the same error: that of the same constructor, or one that shows the same token.", "quantifier": "every two such inputs, all types of values and tokens and all constructors of the user, every list of tokens each of which at most one terminal matches, all hash orders (different ones for the two), both build modes of the generator and of the parser", "why_tests_cant": "No test reorders a grammar. The claim relates two expansions of the macro and two runs of the emitted code, over all permutations, all tokens and all constructors.", "anchors": ["parser_generator_impl/src/lib.rs:18-60", "parser_generator_impl/src/code_gen/code_gen.rs:15-70", "parser_generator_impl/src/code_gen/constructor.rs", "lr_table/src/first_map.rs:16-61", "src/parser.rs"]}
{"id": "C77", "title": "The names of tokens and labels do not matter", "statement": "If every token and every label of a grammar gets another name, and no two get the same one, then building a parser gives the same table, rule for rule and state for state; or the same error with the new names; or the same panic; or it does not end either. The parser for the renamed grammar gives on renamed tokens the verdict that the other gives on the tokens, in the same number of steps, and the labels of its rules are the renamed labels.", "quantifier": "all types of tokens and labels, before and after, all injective renamings, all grammars (also those that are rejected), all lists of tokens, both build modes, every number of steps", "why_tests_cant": "The claim relates two runs for all renamings between any two types, and so rules out that comparisons, orders or hashes of names ever influence a table; tests use fixed names of two types.", "anchors": ["lr_table/src/indexed_grammar.rs:183-309", "lr_table/src/vocabulary.rs:88-127", "lr_table/src/lr_table.rs", "lr_table/src/parse_simulator.rs"]}
{"id": "C78", "title": "The names of labels leave no trace in what grammar! emits", "statement": "If two inputs of grammar! declare the same name, types and rules, but with other names for the labels (in heads of rules, in nodes and in the references #A of constructors, no two labels getting the same name), then the macro emits the same code for both, token by token; or reports an error in both; or panics in both with the same message. In particular no name of a label can clash with names of terminals, types or variables of the user or of the emitted code.", "quantifier": "every two such inputs with any spans, all injective renamings, all types and bodies of constructors (with groups nested to any depth), all hash orders, both build modes, grammar! and pub_grammar!", "why_tests_cant": "It relates two expansions for all renamings; a name that leaked into the emitted code would only be noticed with an unlucky choice of names.", "anchors": ["parser_generator_impl/src/code_gen/constructor.rs:36-191", "parser_generator_impl/src/code_gen/states_enum.rs:35-81", "parser_generator_impl/src/code_gen/state_action_builder.rs", "parser_generator_impl/src/annotated_grammar/parse_grammar.rs:150-169", "lr_table/src/indexed_grammar.rs:183-309"]}
{"id": "C79", "title": "Grammars that say something twice are rejected", "statement": "If a grammar has a rule written twice (up to epsilon nodes), or a label that derives itself by one or more rules, or a label that derives some word in two ways, then no parser is built for it, by Parser::new as well as by grammar! and pub_grammar!; an error is reported (or a panic, for the documented causes). The part about rules written twice and labels that derive themselves is false of the code as it is: with FIRST sets that miss something such grammars get a parser, and so they do where the label can only be used beside one that derives no word.", "quantifier": "all grammars over all types of tokens and labels (and all inputs of the macros that are read, with any spans), all numbers of steps, both build modes, all hash orders", "why_tests_cant": "The property is about every way in which a grammar can be redundant: cycles of any length through labels that derive the empty word, and labels anywhere below the root; that none gets past conflict detection needs the correctness of the whole construction.", "anchors": ["lr_table/src/lr_table.rs:95-325", "lr_table/src/first_map.rs:30-60", "lr_table/src/error.rs", "lr_table/src/indexed_grammar.rs:183-309", "parser_generator_impl/src/lib.rs"]}
{"id": "C80", "title": "The interpreter of the brainfck tests runs programs as they are meant", "statement": "The programs that the parser of tests/brainfck.rs accepts are those written with operations and loops. None of them makes the interpreter panic. What its iterator returns, call after call, is what is to be seen of the program: bytes written, or failures (no input left, going left of the first place), after which the program goes on, and the end; and all that is to be seen is returned. The last sentence is false of the code as it is, when a loop is in another: jumps go to the nearest bracket instead of the matching one.", "quantifier": "all programs (for the meaning: all without loops in loops), all inputs, as any iterator, all numbers of calls", "why_tests_cant": "The two tests run one program each on one or two inputs, neither with nested loops; the claim is about all programs, all inputs, and runs of any length, also after failures.", "anchors": ["tests/brainfck.rs:38-89", "tests/brainfck.rs:113-236", "tests/brainfck.rs:250-307"]}
{"id": "C81", "title": "Parts of accepted grammars are accepted", "statement": "If a parser is built for a grammar, then one is built for every valid grammar with the same first rule and some of the others, in any order; and for every valid grammar with a new first rule leading to one of the labels and some of the rules. What a parser with fewer rules accepts is accepted by the one with all; what the parser for a label accepts is derived from it. So with grammar!: with alternatives left out, an input that gives a parser still gives one, and every value that this returns is returned by the first, too. The first sentence is false of the code as it is: with FIRST sets that miss something, dropping a rule can bring a conflict to light; for another first rule also where a label derives no word.", "quantifier": "all grammars over all types of tokens and labels, all choices of rules, all labels, all lists of tokens, all inputs of grammar!, all constructors, both build modes", "why_tests_cant": "It relates the tables of a grammar and of each of its (exponentially many) parts, for all grammars: a conflict may never depend on a rule being present elsewhere.", "anchors": ["lr_table/src/lr_table.rs:95-325", "lr_table/src/closure.rs", "lr_table/src/first_map.rs:30-60", "lr_table/src/indexed_grammar.rs:183-309"]}
{"id": "C82", "title": "Incomplete FIRST sets are due to one statement", "statement": "FIRST sets that miss something, and what follows from them (sentences rejected, ambiguous grammars accepted, C02, C06, C07), are due to line 49 of first_map.rs alone, where epsilon is put into a set without noting that something changed. If it were noted, and nothing else changed, then for every grammar the FIRST sets would be exact; with epsilon only at the ends of rules, the grammars accepted would be exactly the valid LR(1) ones, all errors real conflicts, and the parsers would accept exactly the sentences. Where the FIRST sets are complete as it is, and only there, this changes nothing: neither sets nor tables nor errors; and nothing would be accepted that is rejected now.", "quantifier": "all grammars over all types of tokens and labels, all lists of tokens, both build modes", "why_tests_cant": "Tests show that a repair helps some grammars; that one statement is the only cause, and that grammars for which all was well get the same tables, is about all grammars.", "anchors": ["lr_table/src/first_map.rs:16-61", "lr_table/src/lr_table.rs:263-324", "lr_table/src/parse_simulator.rs:19-104"]}
{"id": "C83", "title": "Accepted grammars between tokens are accepted", "statement": "If a grammar is accepted, it stays accepted with a new first rule that puts tokens before and after what it was about, as long as the first of those after it, if there are any, does not occur in it; and what is accepted between tokens, whatever they are, is accepted by itself. The new parser accepts exactly those inputs that consist of the tokens before, an input the old parser accepts, and the tokens after. (So brackets around, or an end mark after, whatever is parsed cannot cause conflicts, and nothing after the end mark can be taken for a part of it.)", "quantifier": "all grammars over all types of tokens and labels, all lists of tokens before and after, all lists of tokens parsed, both build modes", "why_tests_cant": "A test puts brackets around some grammars; that a closing token never makes a conflict is about the LR(1) automata of all grammars, and whether it holds turns on lookaheads, which tests of single grammars hardly reach.", "anchors": ["lr_table/src/lr_table.rs:263-324", "lr_table/src/closure.rs:19-136", "lr_table/src/parse_simulator.rs:19-104", "lr_table/src/first_map.rs:16-61"]}
{"id": "C84", "title": "The texts of operators, symbols and conflicts tell what they are", "statement": "The text of an operator is what it is written with, and no two operators have the same. Symbols have the same text just if they are the same, as far as the texts of the tokens in groups tell; tokens between delimiters are shown as such, with the delimiters. The text of a conflict tells which conflict it is: its kind, its rules, and the token or end of the stream at which it is, which is one of the grammar's tokens; so do the messages of grammar! about conflicts.", "quantifier": "every operator with its tokens, every two symbols, every way of printing streams of tokens; every two errors of lr_table, every way of showing tokens and labels; every grammar, and every two inputs of grammar!, with a conflict; both build modes", "why_tests_cant": "The tests never look at these texts. That no two of infinitely many symbols or conflicts have the same text cannot be tested; escapes in literals, and tokens whose text is that of the end of the stream, are corner cases.", "anchors": ["parser_generator_impl/src/symbol.rs:52-91", "parser_generator_impl/src/symbol.rs:213-224", "lr_table/src/error.rs:117-150", "lr_table/src/vocabulary.rs:68-76"]}
{"id": "C85", "title": "The example program prints the table of a calculator", "statement": "The example program print_lr_table, given any text for its grammar, prints the table of the grammar spelled if that grammar is accepted, and prints nothing otherwise; it always ends, and prints the same for two texts only if their tables are the same. With its own text it prints a table and does not panic. The parser of that table accepts just the words in which letters (a, b, c) and operators (p, x) alternate, beginning and ending with a letter, and each of these words has one tree, which groups x tighter than p and both to the left.", "quantifier": "every text; every word of characters; every two operations for p and x and every values for the letters; every budget from 50 on; both build modes", "why_tests_cant": "The program is no test and nothing looks at its output. Which of infinitely many words its table accepts, and that every one of them is grouped by precedence, cannot be found by trying words.", "anchors": ["lr_table/examples/print_lr_table.rs:3-19", "lr_table/src/grammar.rs:68-105", "lr_table/src/lr_table.rs:415-499"]}
