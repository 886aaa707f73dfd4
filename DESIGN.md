# Design of the verification of parser_generator

## What is modelled

The Rust sources are transcribed, function by function, into total Gallina
functions (`rocq/theories/Model`).  Conventions:

* A Rust call returns an `outcome`: `Ok v`, `Err e` (a returned `Result::Err`),
  `Panic why` (failed `expect`/`unwrap`/`debug_assert`/index, undefined behaviour
  of an `unchecked` function), or `Diverge` (the step budget of an unbounded Rust
  loop ran out).  `Panic` and `Diverge` are values, so "never panics" and
  "terminates" are theorems.
* Unbounded `while`/`loop`s take a `fuel : nat` bounding the number of iterations
  of each loop.  Theorems are about *all* fuel values (partial correctness) plus
  "there is a fuel value from which on the result is never `Diverge`".
* `debug_assert!` and `cfg(debug_assertions)` are controlled by an implicit
  boolean (`BuildMode`); theorems quantify over it.  The generator and the
  generated parser may be built in different modes.
* `usize`, `u32` counters are `nat`; 64-bit words of `BitSet` are `N`.
  Arithmetic overflow of `usize` and memory exhaustion are not modelled.
* `HashMap`s are association lists.  Where Rust iterates over a `HashMap` /
  `HashSet`, the model takes the order as an argument, with the hypothesis that it
  is a permutation of the entries, so results hold for every iteration order.
* Token type `T` and label type `L` are arbitrary types with decidable equality
  (Rust: `Eq + Hash + Clone` with lawful instances).
* Error messages are represented by the data they format, not the text, and spans
  are left out, except in Model/Diagnostics.v and Model/CodeGenDiagnostics.v: the
  front end and code generation once more with spans (of any type, with any `join`)
  and messages, proved to agree with the others.

| Model file | Rust source |
|---|---|
| BitSet, FixedMap, Vocabulary | lr_table/src/{bit_set,fixed_map,vocabulary}.rs |
| Error | lr_table/src/error.rs (the kinds of errors) |
| GrammarStr (with Spec/Grammar) | lr_table/src/grammar.rs |
| IndexedGrammar | lr_table/src/indexed_grammar.rs |
| FirstMap, Position, Closure | lr_table/src/{first_map,position,kernel,kernel_table,closure}.rs |
| LRTable, TableText | lr_table/src/{lr_table,kernel_table}.rs |
| ParseSimulator | lr_table/src/parse_simulator.rs |
| StateMap | lr_table/src/lr_state_map.rs |
| TokenTree, Symbol | proc_macro2's token trees; parser_generator_impl/src/{symbol,symbol_stream,type_symbol,ident,util}.rs |
| Terminal, FrontEnd | parser_generator_impl/src/annotated_grammar |
| Constructor | parser_generator_impl/src/code_gen/constructor.rs |
| CodeGen | the rest of parser_generator_impl/src/code_gen: what is emitted, as data (`program`) |
| ErrorText, Diagnostics | lr_table/src/error.rs (`Display`), parser_generator_impl/src/error.rs; spans and messages of the front end |
| FixedSize | lr_table/src/fixed_map.rs (`from_id`, `FixedSizeSet`, `FixedSizeMap`, `Debug`) |
| DebugText | lr_table/src/{vocabulary,position,kernel}.rs (`Display`, `Debug` of sets, positions, kernels) |
| SymbolText | parser_generator_impl/src/symbol.rs (`Display` of operators and symbols) |
| PrintTable | lr_table/examples/print_lr_table.rs |
| ParserErrorText | src/error.rs (`Display`, `Debug`) |
| DeriveUserError | parser-user-error/src/lib.rs |
| CodeGenDiagnostics | parser_generator_impl/src/code_gen: spans and messages of the errors |
| Expand | parser_generator_impl/src/lib.rs: the two macros, from tokens with spans to an item or a message |
| Runtime | src/{parser,parser_state,parser_stream,error}.rs and the meaning of the emitted code |
| Emit | the `quote!` templates of parser_generator_impl/src/code_gen, filled in: the emitted item as syntax |
| TestGrammars | the grammars in tests/*.rs as token trees, and the meaning of the code in their constructors |
| Brainfck | the interpreter in tests/brainfck.rs |
| Rust | syntax and meaning of the fragment of Rust that is emitted, and of the functions of src/ it calls |

How the emitted code is modelled: `generate_parser` builds a `program`, the data
that parametrises the fixed `quote!` templates (match arms with their patterns,
states, pops, constructors).  `Runtime` interprets a `program` as the emitted Rust
code would run: match arms are tried in order, `unreachable_unchecked` and
`unwrap_unchecked` on an empty stack are `Panic`.  What the code of the user does
(type of tokens, whether a literal or pattern matches a token, what constructors
return) is a record `rust` of arbitrary functions.  `Emit` builds the code itself, as
syntax, from the same `program`; C52 proves that running it (`Rust`) is what
`Runtime` does, so that the step from the templates to their meaning is not trusted.

Parameters rather than models: `TokenStream::to_string` (`print`), whether
`Literal::from_str` accepts a text (`literal_ok`) and what it says if not (`lex_error`).

Not modelled: `Display`/`Debug` output other than that of the table, of errors, of operators and symbols, and of sets, positions, kernels and maps, hashing itself, memory,
the Rust compiler (what it checks in the emitted code is covered
by C62's and C67's rules, by C34 and C53),
`proc_macro_error` (`abort!` is a result, `CompileError`), syn's reading of the input of the `parser-user-error` derive, the test code other than the grammars in tests/*.rs and the interpreter in
tests/brainfck.rs (overflow of `u32` in the grammars wraps around, as in release builds), trivial
accessors and constructors (folded into their callers).

## Specification (rocq/theories/Spec)

Small and independent of the model: grammars as lists of rules over tokens and
labels; `derives` (derivation of a word with its parse tree), `language`,
textbook `nullable`/`first`, textbook valid LR(1) items of a viable prefix, the
`LR1` predicate, `productive`, bottom-up evaluation of a tree, post-order,
substitution in constructors, texts of grammar strings, symbols and declarations
of the macro's input, types of the emitted code.

## Proof structure

1. Data structure refinements (bit sets -> predicates, sparse maps -> finite maps).
2. FIRST computation: always sound; terminates; exact iff closed under one more round.
3. Closure: the computed positions/follow sets are the least sets closed under
   the closure rules (relative to the computed FIRST table).
4. Table construction: invariant of the work list: states = distinct kernels,
   edges; at the end, for every viable prefix the state's items are exactly the
   inductively defined item sets.  Termination by a pigeonhole argument over the
   finite universe of kernels.
5. Abstract LR machine over viable prefixes; soundness, completeness,
   termination, viable prefix property are proved once for it, and the
   simulator and the generated parser are shown to follow it step by step.
6. Front end: a parser is sound and complete for an inductive grammar of
   declarations; totality by the length of the stream.

`Properties/*.v` contain only the property theorems, each closed by `exact` of a
lemma, with `Print Assumptions` and an `Example` that meets the hypotheses.

## Plan per property

* C01 soundness: invariant "stack symbols derive the consumed input". Hypotheses: `!` only at the end of rules, no EndOfStream terminal. Without them: refuted by witness (`S -> ! a`).
* C02 completeness: false in general (FIRST loop stops early); `_refuted` witness, and proof under the condition that the computed FIRST table is closed (decidable), plus syntactic sufficient condition (epsilon only direct).
* C03 termination: pigeonhole; unconditional.
* C04 no panic: false (`S -> S a`); refuted, and proved when the first rule does not mention its own label.
* C05 parser termination: forward progress lemma on lookahead justification; refuted for EndOfStream terminals.
* C06 unambiguity: from completeness with trees; refuted in general because of FIRST.
* C07 acceptance iff LR(1): both directions under closed FIRST (reverse: productive).
* C08 conflicts genuine: from closure correctness.
* C09, C10 indexing: list induction; C11 vocabulary.
* C12, C13 data structures: refinement over operation histories.
* C14 FIRST exactness: refuted + soundness + exactness criterion.
* C15, C16, C17: the table construction invariant.
* C18, C19: from C16/C17; quantified over hash orders.
* C20-C29: generated parser, simulation of the abstract machine with values.
* C41: with a closed FIRST table, a chain of reductions made on changing lookaheads is a chain on its last lookahead (a reduction that leaves room for a terminal is also made on it), and those end; with checked tokens the lookahead cannot change. Otherwise refuted: a parser that never ends, by an invariant of its stack.
* C30-C32, C40: front end; C33, C34 constructors, against an inductive relation.
* C35 grammar strings over ASCII strings.
* C36: refuted (witness), true for trailing epsilons.
* C37, C38, C39: corollaries.
* C42-C44: composition of front end, table, code generation and run time. C43, C44 (and C54, C56) in full: refuted by written grammars, to which the witnesses of C07 and C22 carry over.
* C45: rows are the chunks of the flat arrays; the words and their columns are read off by functions defined on the text alone. The header is aligned because every token is shifted somewhere, to distinct states, so some shift has at least as many digits as any id.
* C46: every position before a symbol occurs in some state, by induction over reachability of labels.
* C47: the parser is run beside a language of continuations: the words it still accepts are exactly those that continue what was read to a correct input (correct inputs are a regular expression over symbols). An error is at the first symbol that leaves none.
* C48: refuted by a witness (`expect_symbol` does not record the span). Proved exactly: the place is that of the last symbol that was peeked at before it was read (Spec/Lookahead.v marks these in the syntax), or the macro's.
* C49: the two models in lock step.
* C50: code generation with spans in lock step with the one without; a bad constructor is characterised by its first bad reference (`bad_at`), in both directions.
* C51: refuted for the error that is reported. For whether a parser is generated: an error is wrong with something that is used, and everything used is looked at.
* C52: simulation of the program by the emitted code, step by step: every template evaluates to the step it stands for (match arms by induction over the arms, pops by induction over the nodes of a rule); the machine (stream and stack) is the state of the program. Then C20, C21, C22 carry over.
* C53: refuted for capture of the user's names (variables, types, functions; three witnesses). For the rest: free names, patterns and calls of the syntax, by induction over it; distinct states have distinct decimal names.
* C54: the models with and without spans in lock step for the whole macro, then C43 and C52; the type of values is that of the first declaration, since that is the first entry of the map of types.
* C55: C47 and C50 put together. The parser of declarations is run beside a relation that tells which symbols a rule, its nodes and its block are written with (Spec/Places.v), so the spans C50 speaks of are those of the input.
* C56: C42, C44 and C51 put together; refuted in full, as C44.
* C57: reductions after which the stack is as high as before depend only on the two topmost states, so from finitely many stacks, one for each state (Proofs/Linear.v), one gets a number K that bounds them all; by C05/C41 each such run is finite. An amortised count (Proofs/Amortize.v) then gives a bound linear in the input. For generated parsers runs on several lookaheads are first turned into runs on one (Proofs/MixedRuns.v). Refuted in full for generated parsers, as C41.
* C58: the simulation of C20-C29 says how a run ends; all trees on the stack have values, because the parser moved on after each of them. Spec/Causes.v lists the causes.
* C59: from C58 for runs; distinctness by cancelling fixed prefixes and suffixes.
* C60: refuted for a type with a parameter (`impl ... for E` lacks it); proved to hold iff there are none.
* C61: refuted for `u8` (the assertion in `from_id` excludes 255); the rest by induction over histories, as C12 and C13.
* C62: typing rules for the emitted fragment (Spec/Typing.v: references, binding modes, exhaustiveness, `?`, the signatures of the functions called); what the user writes is typed by a record `user_code` of arbitrary predicates.  The templates are typed piece by piece; the types of the states come from C29's invariant.  Refuted in four ways by written grammars, each of which breaks one hypothesis.  Not checked: moves and borrows (C67), visibility, a type of the user named like the enum of states, and that `overlapping_token_matchers` exists only if the crate is built with debug assertions.
* C63: meanings are an inductive relation without parse trees (Spec/Meaning.v).  `meaning_iff` relates it to the values of parse trees; with the soundness, completeness, linearity and error theorems of generated parsers and C52 this gives the statement about emitted items.  Which constructor fails is stated without trees too (`constructor_fails`); to relate it to runs, a sentence is cut after the rule whose constructor fails (`cut`, Proofs/Cuts.v): `cut_sim` runs the machine to a cut, `reduce_cut` finds the cut of a reduction, and Proofs/FailMain.v combines both with the values.  False without complete FIRST sets (two grammars as witnesses).
* C64 - C66: the token trees of the grammars in tests/*.rs are model data; the languages (Spec/TestLanguages.v) are described without grammars.  `test_results` (Proofs/TestGrammars.v) discharges all conditions of C63 by computation, for any way of printing tokens; what remains, meaning = language, is by induction for each grammar.  That these grammars are accepted, for every order of hash maps and every way of printing (`always_made`), is `tests_always_made` (Proofs/TestAccepted.v), from C56; without it the statements about accepted grammars could be vacuous.  The expectations of all the tests are Examples (Proofs/TestExamples.v).
* C67: rules of ownership for the emitted fragment (Spec/Ownership.v: variables that may be used afterwards, moves, shared and exclusive loans of the parser state, also by temporaries; methods take `self` as declared in src/).  They use the types of C62.  Each template is checked piece by piece (Proofs/Ownership.v); what matters is which variables a piece can use afterwards.  Refuted for a constructor that names `__peeked_val`; wrong orders (pop while peeked, two uses of one value) are shown to be rejected (Proofs/OwnershipExamples.v).  That the rules suffice for memory safety is not proved.
* C68: a run on a stream that fails does the same as one on the tokens before the error, as long as it asks for no more of them (`stream_agrees`, Proofs/FailStreams.v); C63's lemmas count the calls of the stream, which tells whether a constructor fails before the error is seen.  Refuted as C63.
* C69: as C64 - C66.  Which words a grammar has is that grammar's meaning with constructors that cannot fail (`total_rust`, Proofs/TestFailures.v), so that errors of constructors and first wrong tokens can be told apart; the failing constructors are found by an induction like that for meanings (`fail_rules`, Proofs/TestSmall.v).
* C70: a stack of trees is an explanation (Spec/Overlaps.v): its leaves say as which terminals the tokens were read.  The invariant `good` (Proofs/Overlaps.v) keeps such a stack along a run, with the states of C29 and the viable prefixes of C54; that a doubtful token is reported is C27 for the state reached, whose terminals are those with which sentences go on (complete FIRST sets, productive grammars).  Decided sentences: the run follows the tree (`follow_on`, Proofs/GenPath.v), since at each step only one matching terminal is expected.  Refuted by the grammar of C22.
* C71: as C64 - C66, but a printed pattern is part of a terminal's name, so that nothing can be computed while the way of printing is arbitrary.  The declarations are read with an abstract `print`; the grammar is then renamed (Proofs/Rename.v: productive, valid and LR(1) are kept) to the one whose patterns are printed by a fixed injective function, and computed there.  The only condition is that different patterns of the grammar get different texts (`tells_apart`).  The overlapping patterns are decided by C70.
* C72: the parser of declarations is run once more, beside a relation `run L N` that keeps the language of what was read and the notes that may be added after each beginning of it. `intercept` appends a note; lemmas for binds put beginnings together. The statement is a table of notes (Spec/Notes.v) over regular expressions. Refuted in one point: after the terminal option a token that is no symbol is reported with "Unexpected end of stream". Of the texts for misfits (epsilon, return types) only that they have no note is said; their places are C47.
* C73: what a pass of `propagate_map` adds at least is shown for nodes, rules and labels in turn (Proofs/FirstEarly.v). Labels are visited in the order of their numbers, which is that of their first rules (an invariant of the grouping loop), so an induction over the labels of the first pass gives epsilon to all early labels. The criterion "complete iff the table obeys the rules" uses the soundness of C14 in one direction and closedness in the other.
* C74: a permutation of the rules gives an injection on their numbers, along which items, lookaheads and derivations are carried over; with complete FIRST sets acceptance is conflict-freedom (C07) and verdicts are the language (C01, C02). Two swaps of rules refute the full statement.
* C75: texts are read from the left: numerals end where a character that is no digit follows, so equal texts have equal parts; sets and maps by C12, C13 and C61. Two orders of insertion refute that equal maps have equal texts; a map with all 256 bytes for keys has no text in debug builds.
* C76: rule numbers are carried over as in C74; meanings, failing constructors and beginnings of sentences are inductive definitions over the rules (C63), so they are carried over in both directions; the parsers compute them (C63), and where a parser stops is determined by the beginnings of sentences. Acceptance by C56. Two swaps of declarations refute the full statement. `renumber` keeps the constructors with their rules, since the model names them by the numbers of the rules.
* C77: a relational lifting: every function from the grammar to the table is shown to take related arguments to related outcomes, where names are related by the renaming and numbers by equality; after the vocabulary is built nothing depends on names. In Rust the labels that NotConnected lists are in hash order, in the model in the order of the vocabulary. In Rust some errors hold texts that were made from names; the model's errors hold the names, and these are compared. That the renaming is injective is needed (example).
* C78: with C77 the two inputs have the same table and indexed grammars that differ in the names of labels only; the rest of code generation looks at these names in look-ups of types and references only, which a renaming does not change. The types of labels are those of their first rules (C31), so that nothing has to be assumed of the maps of types. Messages name labels, so only that there is one is compared.
* C79: all three kinds of redundancy (Spec/Redundant.v) give a label with two trees for a word: rules written twice as their labels derive something, labels that derive themselves by comparing the sizes of trees along the cycle. Validity says that the label is reachable and productivity that the rest derives something, so some sentence has two trees, against C07's uniqueness of trees. Refuted in full by three grammars that get a parser: twice by the FIRST bug, once by a label that derives nothing. Lifted to the macros as they emit an item only if there is a parser for the declared grammar (Proofs/ExpandMain.v).
* C80: programs are lists of commands (Spec/Brainfck.v), run by a step relation on what is left to do and an endless row of bytes. Each call of `advance` is one step: `]` is the test of the loop for another round. The invariant says where the program counter is in the text of the program (outside loops, or in the body of one), and that the tape is the part of the row visited so far. No panics: a bracket has its partner on the right side, if perhaps not where the interpreter jumps to. Refuted for nested loops by `[[].]` and `[[-]+]`.
* C81: with C07, it is about `conflict_free`. Derivations with fewer rules are derivations, so items, lookaheads and hence conflicts of the part are ones of the whole. For another first rule, some viable prefix of the whole calls for the label, with some token to follow if labels derive words; items of the part come after this prefix, with that token for the end of the stream. A conflict with accepting would mean that the label derives itself, against C79. Refuted by grammars where dropping a rule makes the computation of FIRST sets go round once more, and by the grammars of C79. For the macros (`PartsMacro`): what is reported by code generation is about rules and terminals of the part alone, so a table is enough for an item; values are compared by C63 and the transfer of meanings of C76, one way.
* C82: `Spec/Repair.v` has the functions from `propagate_rule` to `parser_new` once more, with the one statement changed; it is a hypothetical program, not a model of code that exists, and no theorem outside C82 but C83_repaired is about it. A round of the repaired function that reports no change has changed nothing, so the table is closed under the FIRST equations at the end, unconditionally; the number of rounds is bounded as before, since every reported change adds something. The proofs about tables and runs (C01-C08) take any FIRST table that is sound, and closed where completeness is claimed; they are used with this one. There is only one table that is sound and closed, hence the agreement with the code where that is complete.
* C83: with C07, about `conflict_free` again. The items of the grammar between tokens `u` and `v` are those of the new rule, at prefixes of `u` label `v`, and those of the grammar, after `u`, with the first token of `v` for the end of the stream. The root label occurs in no rule, so at no viable prefix do both kinds of items call for something at the same time except where the label is looked for; a new first token of `v` cannot be a lookahead or be shifted inside. Each item of the grammar is found again, hence the converse, for which `v` may be any. Sentences: the languages differ by the tokens, and C01, C02. Refuted by the FIRST bug (a token before makes the computation of FIRST sets go round once more, and the ambiguous grammar of C06 is rejected; the grammar of C02 that loses sentences loses them only without brackets), and for a closing token that the grammar uses. With the one statement of C82 changed, acceptance of the two is equivalent without a condition on FIRST sets.
* C84: `Model/SymbolText.v` models the texts of operators and symbols, with the escapes of `Debug` for strings (bytes beyond ASCII are
  written as they are); the texts of conflicts are in `Model/ErrorText.v`. That no escape is the beginning of another is computed for all pairs
  of bytes, so that escaped strings can be read in one way. Refuted: groups in braces are shown in two pairs of braces (symbol.rs:218 puts the text of
  a `Group`, which has its braces, in braces), and a token `$` looks like the end of the stream in the text of a conflict (vocabulary.rs:68-76);
  the first text is not used by the macro; terminals of the macro are identifiers, possibly with an argument, or quoted, so that
  its conflicts are told apart (unless a pattern is printed as the wildcard is). That the token of a conflict is one of the grammar follows from the invariants of C08 and C11.
* C85: `Model/PrintTable.v` models the example program, for its own text and for any other. That it prints the table of the grammar
  spelled follows from C35 and C45 (and that it ends from C03, that trees are unique from C06). The language of its grammar is found by induction over derivations (every derivation from a label
  means a calculation of its kind, with the value of its tree) and, the other way, by induction over the operators of a calculation,
  where a sum is taken as ending with a product. C01, C02 and C05 then give what the parser accepts. Both operations are arbitrary, so
  equal values mean equal grouping.

## Trusted base

* The Coq 8.16.1 kernel (and `vm_compute` for the witnesses).
* `Print Assumptions` is run beneath each property theorem; the output for every
  one is "Closed under the global context".  (`coqchk`/`vcheck` list seven axioms
  `Coq.ssr.ssrunder.Under_rel.*` of the standard library: they are in a module
  loaded by `Lia`, and no theorem depends on them.)
* The transcription of Rust into Gallina by hand, including the meaning of the
  std collections and of `cknittel_util::iter_ones` (yields set bits in
  increasing order) and `collect_result_vec` (first error wins), and of the
  fragment of Rust that is emitted (Model/Rust.v; its types in Spec/Typing.v and
  moves and borrows in Spec/Ownership.v, which are not those of a real compiler:
  rules for the fragment only; those of ownership are stricter than Rust's).

## Testing the theorems

`seeded/LOG.jsonl`: wrong programs.  A mutation edits one model definition in a
scratch copy, and everything is rebuilt.  Theorems that do not compile any more
are listed as failed.  Since a broken proof script is not yet evidence that the
*statement* is false, a set of observable results (tables, languages and runs on
concrete grammars) is also computed with the model and with the mutant and
compared; the log says for which claims the mutant was seen to give a result that
the theorem rules out, and for which it was not.
In the later rounds less was rebuilt.  For m371-m393 only the files of C84 and of
C85 were, up to the first lemma that breaks; the failed theorems are those that
rest on this lemma or become false, named by hand.  For m406-m414 only the models
were compiled and run.  These entries name no failed theorem; the field
`expected_to_fail` has the theorems whose claims the run contradicts, judged by
hand and not by a failed build.
For m394-m405 and m415-m420 the property files of the theorems were rebuilt up to
the first lemmas that break.
A mutant under which every theorem is still provable although its claim is false
leads to a tightened theorem.

The model is itself tested against the tests of the project: all 57 unit tests of
lr_table (Proofs/UnitTests.v) and the 31 tests in tests/ (Proofs/TestExamples.v;
what the programs of brainfck.rs print, in Proofs/BrainfckExamples.v) are Examples and hold in the model, in debug and
in release mode.
