{"id": "C01", "title": "Accepted inputs are sentences", "statement": "If `parser!` expands without panicking and `Entry::parse(iter)` returns `Ok(_)`, then the tokens the iterator produced form a sentence of the user-written non-terminal `Entry` in the user-written grammar.", "quantifier": "every accepted macro input with distinct non-terminal names and no one-element tuple pattern, every `pub` non-terminal, every token iterator, every set of semantic actions", "why_tests_cant": "ranges over all grammars and all token sequences; tests try a handful of sentences of a handful of grammars", "anchors": ["src/lr_codegen.rs: generate_lr1_parser (generated parse_generic, lines 174-228)", "src/lr1.rs: generate_lr1_automaton, build_lr1_table", "src/lower.rs: lower"]}
{"id": "C02", "title": "The returned value is the value of a parse tree", "statement": "If `Entry::parse(iter)` returns `Ok(v)`, there is a parse tree of exactly the consumed tokens such that v is the result of running the production's semantic actions over the tree, children left to right before their parent, each exactly once, with every binder `<x:Sym>` bound to the value of its own child.", "quantifier": "every accepted macro input, entry point, token iterator, semantic actions with arbitrary side effects", "why_tests_cant": "side-effect order, binder-to-child pairing and stack discipline must be right for all tree shapes and depths", "anchors": ["src/lr_codegen.rs: generate_lr1_parser (generated parse_generic, lines 174-228)", "src/codegen.rs: generate_semantic_action_table"]}
{"id": "C03", "title": "Success means the whole input was consumed", "statement": "`Ok` is returned only after the iterator has returned `None`; no token is skipped, and the iterator is left exactly in the state after that `None`.", "quantifier": "every accepted macro input, entry point and iterator (finite or infinite, fused or not)", "why_tests_cant": "needs all inputs, including those with valid prefixes followed by trailing tokens", "anchors": ["src/lr_codegen.rs: generate_lr1_parser (generated parse_generic, lines 174-228)", "src/lr1.rs: build_lr1_table (Rule 2.c)", "src/lr_common.rs: add_accept"]}
{"id": "C04", "title": "The generated parser never panics by itself", "statement": "A generated `parse` never reaches `Stuck! (2)`, never unwraps an empty stack, never indexes ACTION/GOTO/SEMANTIC_ACTIONS/TERMINAL_STRS/EXPECTED_TERMINALS out of bounds and never hits `unreachable!()` in a value extractor; the only panic possible is one raised by a user action.", "quantifier": "every accepted macro input, every token stream, every number of steps", "why_tests_cant": "absence of a panic over an infinite input space and unbounded stack depth", "anchors": ["src/lr_codegen.rs: generate_lr1_parser (generated parse_generic, lines 174-228)", "src/codegen.rs: semantic_action_result_type, generate_semantic_action_table"]}
{"id": "C05", "title": "Parsing terminates", "statement": "`Entry::parse` returns after finitely many steps on every token stream that ends, for every accepted grammar whose non-terminals occurring after the first symbol of some right-hand side derive a string of tokens, and which is LR(1) (or, for grammars that are not, whose nullable non-terminals are visible to FIRST: either none is reached through first symbols from such positions, or every nullable non-terminal has an empty production of its own); without the side condition the generated parser can loop forever.", "quantifier": "every accepted macro input satisfying the side condition, every finite stream, every action", "why_tests_cant": "non-termination cannot be observed by a test and the bound depends on grammar and input", "anchors": ["src/lr_codegen.rs: generate_lr1_parser (generated parse_generic, lines 174-228)", "src/first.rs: generate_first_table", "src/lr1.rs: compute_lr1_closure"]}
{"id": "C06", "title": "Lexer errors are reported verbatim and first-come", "statement": "If the iterator yields `Err(e)` when the parser asks for the next token, `parse` returns `LexerError(e)` with that e, no semantic action runs after it is seen and the iterator is not advanced again; conversely `LexerError(e)` is returned only when the iterator yielded `Err(e)` after a run of `Ok` tokens.", "quantifier": "every accepted macro input, every iterator, every position of the error", "why_tests_cant": "error position and iterator implementations are unbounded", "anchors": ["src/lr_codegen.rs: generate_lr1_parser (generated parse_generic, lines 174-228)"]}
{"id": "C07", "title": "A bad token is detected immediately", "statement": "When `parse` returns `ParserError` because of a token (or end of input), no semantic action ran, no token was shifted and `next()` was not called between reading that token and returning the error, for grammars whose non-terminals occurring after the first symbol of some right-hand side derive a string of tokens and whose nullable non-terminals are visible to FIRST (as in C05); being LR(1) is not enough.", "quantifier": "every accepted macro input with the side condition, every stream", "why_tests_cant": "is a statement about all reachable stacks and all bad tokens", "anchors": ["src/lr_codegen.rs: generate_lr1_parser (generated parse_generic, lines 174-228)", "src/lr1.rs: compute_lr1_closure"]}
{"id": "C08", "title": "`found` names the offending token", "statement": "In `ParserError { found, .. }`, `found` is the string of the `enum Token` entry whose pattern is the first to match the offending token, or `end-of-input` if the iterator returned `None`.", "quantifier": "every accepted macro input and stream ending in a parser error", "why_tests_cant": "all token values and all grammars", "anchors": ["src/lr_codegen.rs: generate_lr1_parser (generated parse_generic, lines 174-228)", "src/codegen.rs: generate_token_to_text, token_terminal_idx_fn"]}
{"id": "C09", "title": "`expected` lists exactly the tokens that could come next", "statement": "In `ParserError { expected, .. }`, `expected` is the declaration-order, `, `-separated list of exactly those token entries that, had one of them been read instead of the offending token, the parser would have shifted rather than failed (side condition of C05); end of input is never listed even when it would have been accepted.", "quantifier": "every accepted macro input and stream ending in a parser error, every terminal", "why_tests_cant": "an if-and-only-if over all alternative continuations at all reachable configurations", "anchors": ["src/codegen.rs: generate_expected_state_tokens", "src/lr_codegen.rs: generate_lr1_parser (generated parse_generic, lines 174-228)"]}
{"id": "C10", "title": "One token of lookahead, never past the end", "statement": "`parse` calls `next()` exactly once per token it consumes plus once for the lookahead; it never calls `next()` again after `None` or `Err` has been returned.", "quantifier": "every accepted macro input, every iterator implementation, every prefix of the run", "why_tests_cant": "iterators are arbitrary state machines; misuse shows only on non-fused iterators", "anchors": ["src/lr_codegen.rs: generate_lr1_parser (generated parse_generic, lines 174-228)"]}
{"id": "C11", "title": "Completeness for LR(1) grammars", "statement": "If the user-written grammar is LR(1) for each `pub` non-terminal and its nullable non-terminals are not hidden from FIRST (following first symbols from non-terminals in tail positions never meets a nullable one), then every sentence of the entry non-terminal is accepted, and value and side effects are those of its parse tree (or the parser panics because evaluating that tree panics).", "quantifier": "every such accepted grammar, every sentence, every parse tree, every iterator and semantic action", "why_tests_cant": "all sentences of all grammars", "anchors": ["src/lr_codegen.rs: generate_lr1_parser (generated parse_generic, lines 174-228)", "src/lr1.rs: compute_lr1_closure, generate_lr1_automaton, build_lr1_table"]}
{"id": "C12", "title": "Exactness for LR(1) grammars", "statement": "For an LR(1) grammar whose nullable non-terminals are not hidden from FIRST (as in C11; in particular for one with no empty production), and actions that do not panic, `parse` accepts exactly the sentences of the entry non-terminal.", "quantifier": "every epsilon-free LR(1) grammar, every token sequence, every iterator", "why_tests_cant": "an equivalence over all inputs", "anchors": ["src/first.rs: generate_first_table", "src/lr1.rs"]}
{"id": "C13", "title": "Accepted LR(1) grammars are unambiguous", "statement": "In an accepted LR(1) grammar each sentence has exactly one parse tree, so the value returned by `parse` is determined by the grammar alone. (Acceptance alone does not imply this.)", "quantifier": "every such grammar and every pair of parse trees", "why_tests_cant": "ambiguity is undecidable by testing", "anchors": ["src/lr_common.rs: LRTableBuilder", "src/lr1.rs: build_lr1_table"]}
{"id": "C14", "title": "Every sentence of an accepted, conflict-free LR(1) grammar parses (in general)", "statement": "If the macro accepts a grammar that is LR(1), every sentence of the entry point is accepted.", "quantifier": "every accepted LR(1) grammar", "why_tests_cant": "all grammars with nullable non-terminals", "anchors": ["src/first.rs: generate_first_table lines 73-95"]}
{"id": "C15", "title": "Reduce/reduce conflicts are always rejected at expansion time", "statement": "If some automaton state contains two different complete items of non-entry non-terminals with the same lookahead, the macro panics instead of generating a parser, whatever the hash order.", "quantifier": "every grammar, state and pair of items", "why_tests_cant": "all grammars and all states", "anchors": ["src/lr_common.rs: add_reduce"]}
{"id": "C16", "title": "Shift/reduce conflicts are never resolved silently", "statement": "If some reachable state has both a shift and a reduce on the same terminal, the macro panics.", "quantifier": "every grammar (holds if the shifting production is declared before the one to reduce; refuted in general)", "why_tests_cant": "depends on item iteration order; all grammars and all declaration orders", "anchors": ["src/lr_common.rs: add_shift lines 74-85, add_accept"]}
{"id": "C17", "title": "In an accepted grammar a shift always wins", "statement": "In every generated parser, ACTION[s][t] is a shift whenever some item of s expects terminal t next, an accept whenever s holds the completed entry item and t is end of input, and a reduce by (A, p) only if s contains the complete item for (A, p) with lookahead t.", "quantifier": "every accepted grammar, state and terminal", "why_tests_cant": "all states of all automata", "anchors": ["src/lr1.rs: build_lr1_table", "src/lr_common.rs"]}
{"id": "C18", "title": "No spurious conflict panics", "statement": "If the user's grammar has no conflict of the kinds the macro reports - in particular if it is LR(1) - expansion does not panic with a conflict diagnostic.", "quantifier": "every grammar", "why_tests_cant": "all grammars", "anchors": ["src/lr_common.rs: LRTableBuilder", "src/lr1.rs: build_lr1_table"]}
{"id": "C19", "title": "FIRST sets are sound", "statement": "Every terminal in the FIRST entry of X really starts some string derived from X, and the empty flag is set only if X derives the empty string.", "quantifier": "every grammar, non-terminal and terminal", "why_tests_cant": "all grammars", "anchors": ["src/first.rs: generate_first_table"]}
{"id": "C20", "title": "FIRST sets are complete", "statement": "Every terminal that starts a string derived from X is in its FIRST entry and the flag is set whenever X derives the empty string.", "quantifier": "every grammar (holds for epsilon-free grammars; refuted in general)", "why_tests_cant": "all grammars", "anchors": ["src/first.rs: generate_first_table lines 76-95"]}
{"id": "C21", "title": "Expansion always terminates", "statement": "For every grammar, FIRST computation, item-set closure and automaton construction finish: the macro either panics with a diagnostic or emits a parser.", "quantifier": "every macro input", "why_tests_cant": "termination of three nested fixpoints on all grammars", "anchors": ["src/first.rs: generate_first_table", "src/lr1.rs: compute_lr1_closure, generate_lr1_automaton"]}
{"id": "C22", "title": "Expansion is independent of hash iteration order", "statement": "The emitted tables do not depend on the iteration order of any hash set or hash map used during generation.", "quantifier": "every macro input, every pair of iteration orders", "why_tests_cant": "tests only see one hash function", "anchors": ["src/lr1.rs: compute_lr1_closure, generate_lr1_automaton", "src/first.rs", "src/collections.rs"]}
{"id": "C23", "title": "Automaton states are the canonical LR(1) item sets", "statement": "The state reached from the entry state of S by a string of symbols contains exactly the items LR(1)-valid for that string, and a transition on X exists iff some item of the state has X next.", "quantifier": "every grammar, entry point and symbol string (every item is valid in general; all valid items are present under the side condition of C11, refuted in general)", "why_tests_cant": "all strings over the grammar's symbols", "anchors": ["src/lr1.rs: compute_lr1_closure, compute_lr1_goto, generate_lr1_automaton"]}
{"id": "C24", "title": "States are distinct and reachable", "statement": "No two automaton states have the same item set, and every state is reachable from the entry state of some `pub` non-terminal.", "quantifier": "every macro input", "why_tests_cant": "all grammars", "anchors": ["src/lr1.rs: generate_lr1_automaton (state_indices)"]}
{"id": "C25", "title": "The emitted arrays represent the table", "statement": "ACTION has n_states rows of n_terminals+1 entries (end of input last), GOTO n_states rows of n_non_terminals entries; each entry is exactly the LR table's entry, and each stored state, non-terminal and action index is in range of the array it indexes.", "quantifier": "every accepted macro input, every state, terminal and non-terminal", "why_tests_cant": "all table sizes", "anchors": ["src/lr_codegen.rs: action_table_vec, generate_goto_vec, generate_action_array, generate_goto_array"]}
{"id": "C26", "title": "Narrowing never truncates", "statement": "If the macro succeeds, every number emitted as u16/u32 (states, symbol counts, non-terminal and action indices) is below 2^16 or 2^32: oversize grammars panic at expansion.", "quantifier": "every macro input, of any size", "why_tests_cant": "needs grammars with >65535 symbols or productions", "anchors": ["src/lr_codegen.rs: generate_action_array", "src/codegen.rs: generate_semantic_action_table"]}
{"id": "C27", "title": "Each production runs its own action", "statement": "The semantic action index stored with production p of non-terminal A selects in SEMANTIC_ACTIONS the function generated from exactly that production, and different productions get different indices.", "quantifier": "every grammar, non-terminal and production", "why_tests_cant": "all grammars", "anchors": ["src/codegen.rs: generate_semantic_action_table"]}
{"id": "C28", "title": "Generated action functions bind the right children", "statement": "Running the function generated for a production on a value stack whose top entries are the values of its right-hand side pops exactly those entries, evaluates the action with each named symbol bound to its own value (leftmost binding wins for a repeated name) and pushes one value of the non-terminal's variant; entries below are untouched.", "quantifier": "every production, every value stack", "why_tests_cant": "all right-hand-side lengths and stack contents", "anchors": ["src/codegen.rs: generate_semantic_action_table lines 51-100"]}
{"id": "C29", "title": "Result variants separate types", "statement": "Two non-terminals share a SemanticActionResult variant iff their declared types are the same, and variants are numbered consecutively from 0.", "quantifier": "every grammar", "why_tests_cant": "all grammars", "anchors": ["src/codegen.rs: semantic_action_result_type"]}
{"id": "C30", "title": "Token classification is first-match and consistent", "statement": "A token is classified by the first `enum Token` entry whose pattern matches it; the value pushed for it is built by the same entry and consists of exactly the sub-values selected by `<T>` in left-to-right order.", "quantifier": "every token enum without one-element tuple patterns, every token value", "why_tests_cant": "all patterns and all token values", "anchors": ["src/codegen.rs: token_terminal_idx_fn, token_value_fn, pattern_ignore, generate_pattern_syn_with_idents, pattern_types"]}
{"id": "C31", "title": "Lowering preserves the language and the actions", "statement": "For grammars with distinct non-terminal names, the lowered entry non-terminal of a `pub` non-terminal derives exactly the token strings the user-written non-terminal derives, through corresponding trees with the same actions and binders.", "quantifier": "every AST accepted by lowering", "why_tests_cant": "all grammars and all derivations", "anchors": ["src/lower.rs: lower, add_symbol"]}
{"id": "C32", "title": "Lowering rejects exactly the unsupported inputs", "statement": "Lowering panics iff a terminal is declared twice, a symbol refers to an undeclared terminal or non-terminal, a repetition (`*`, `+`, `?`) is used or an action is fallible.", "quantifier": "every AST", "why_tests_cant": "all grammars", "anchors": ["src/lower.rs: lower, add_symbol"]}
{"id": "C33", "title": "Duplicate non-terminals are rejected or merged", "statement": "Declaring a non-terminal twice is reported, or at least every declared production stays usable from the entry point.", "quantifier": "every AST with repeated non-terminal names (refuted; holds vacuously for distinct names, see C31)", "why_tests_cant": "all declaration orders", "anchors": ["src/lower.rs: lower lines 29-75"]}
{"id": "C34", "title": "Entry points are independent", "statement": "A parser is generated for exactly the `pub` non-terminals, with their declared types, and each recognises its own non-terminal (C01, C11): an accept entered for another entry point is never taken by it.", "quantifier": "every macro input with several `pub` non-terminals, every input", "why_tests_cant": "all combinations of entry points sharing states", "anchors": ["src/lr1.rs: generate_lr1_automaton, build_lr1_table", "src/lr_codegen.rs lines 79-119"]}
{"id": "C35", "title": "Viable prefix", "statement": "At any point of a run, the tokens consumed so far are a prefix of a sentential form derived from the entry non-terminal; so an input that is not a prefix of any sentence form is never read past the first offending token.", "quantifier": "every accepted macro input, every run prefix", "why_tests_cant": "all reachable configurations", "anchors": ["src/lr_codegen.rs: generate_lr1_parser (generated parse_generic, lines 174-228)", "src/lr1.rs"]}
{"id": "C36", "title": "Actions run before an error are those of completed subtrees", "statement": "Whenever `parse` stops (with any result), the side effects performed are exactly those of evaluating, left to right, a forest of complete subtrees whose leaves are the consumed tokens.", "quantifier": "every accepted macro input, stream and semantic actions with side effects", "why_tests_cant": "all run prefixes", "anchors": ["src/lr_codegen.rs: generate_lr1_parser (generated parse_generic, lines 174-228)", "src/codegen.rs: generate_semantic_action_table"]}
{"id": "C37", "title": "Top-level declarations", "statement": "Expansion panics iff `enum Token` is missing or repeated or `type State` is repeated (or lowering/table construction panics); the relative order of the three kinds of items does not matter.", "quantifier": "every list of grammar items", "why_tests_cant": "all item lists", "anchors": ["src/lib.rs: parser"]}
{"id": "C38", "title": "Declaration order does not change the parser", "statement": "For grammars with the conditions of C11 and non-overlapping token patterns, permuting non-terminal, production or token declarations does not change which inputs are accepted, the value, the side effects or where the iterator is left.", "quantifier": "every such pair of grammars", "why_tests_cant": "all permutations", "anchors": ["src/lower.rs", "src/lr1.rs", "src/lr_common.rs"]}
{"id": "C39", "title": "What expansion can panic with", "statement": "If `parser!` panics, it is with a diagnostic about the declarations, a conflict report, a number that does not fit its integer type, or the rejection of a raw identifier (`r#name`) as the name of the token type or of a `pub` non-terminal; never an index out of bounds, a failed assertion or an unwrapped None inside the macro. A number fails to fit only if there are more than 2^32 tokens or states, more than 65536 productions or non-terminals (entry points counted in both), or a production of 65536 or more symbols. A raw identifier as the name of the token type or of a `pub` non-terminal always makes it panic.", "quantifier": "every macro input, every hash order", "why_tests_cant": "The claim is about the absence of internal panics on every grammar, including ones nobody wrote a test for.", "anchors": ["src/lib.rs parser", "src/lower.rs lower", "src/lr1.rs generate_lr1_automaton", "src/lr_common.rs LRTableBuilder", "src/codegen.rs", "src/lr_codegen.rs"]}
{"id": "C40", "title": "Correct prefix property", "statement": "For LR(1) grammars with the conditions of C11 whose non-terminals all derive something: the tokens consumed at any return start a sentence of the entry point; on `ParserError` the consumed tokens together with the offending one do not (or, at end of input, are not a sentence), and `expected` lists exactly the token entries that could come next in some sentence.", "quantifier": "every such grammar, every token stream and action", "why_tests_cant": "Whether a prefix can be completed to a sentence quantifies over all completions.", "anchors": ["src/lr_codegen.rs generate_parser, EXPECTED_TERMINALS", "src/lr1.rs", "src/lr_common.rs"]}
{"id": "C41", "title": "Syntax of the grammar language", "statement": "The macro reads an input as given declarations if and only if the input is written in the syntax of the grammar language (items, rules, productions, symbols with binders and repetitions, actions, token enum, token patterns) as those declarations; in particular always when productions are separated by commas. That reading is unique, and nothing after the last item is ignored. The syntax is more liberal than documented in two places: the comma between two productions (or lifetimes) may be missing where the Rust expression in front ends by itself, and a stray non-string literal is dropped (C45).", "quantifier": "every token stream; every parser of Rust types, expressions and paths with the stated prefix laws", "why_tests_cant": "The unit tests of src/ast.rs try about twenty strings; the claim ranges over all nested inputs.", "anchors": ["src/ast.rs: Parse impls of FieldPattern..Parser, symbol0"]}
{"id": "C42", "title": "Which grammars can be written", "statement": "A list of declarations is the reading of some input iff all its names are Rust identifiers and its types, expressions and paths can be written (and an infallible action does not begin with `?`).", "quantifier": "every AST", "why_tests_cant": "All ASTs, in both directions.", "anchors": ["src/ast.rs: Parse impls"]}
{"id": "C43", "title": "The macro is total on tokens", "statement": "On every token stream the macro terminates with a module, a compile error or a panic; whether and to what it expands depends only on the declarations read from the tokens, and is the same for every hash iteration order (up to the order of the entry-point structs).", "quantifier": "every token stream, every hash order", "why_tests_cant": "Termination and determinism over all inputs.", "anchors": ["src/lib.rs: parser", "src/ast.rs: Parse impls"]}
{"id": "C44", "title": "Panics while reading the input", "statement": "Reading the input panics (instead of reporting a compile error) exactly for: `type X` with X other than State; a token pattern that begins with none of the allowed tokens (also a missing one); something after `..` in a struct pattern; a struct-pattern field followed by neither comma, `..` nor `}`; each wherever nested after well-formed input. Well-formed input never panics, and every input that is neither well-formed nor in this list is a compile error.", "quantifier": "every token stream", "why_tests_cant": "The panicking inputs are an infinite nested family.", "anchors": ["src/ast.rs: Pattern::parse, TypeDefKind::parse"]}
{"id": "C45", "title": "Non-string literals in productions (defect)", "statement": "A literal that is not a string literal (5, 'c', true, -1) directly in front of a non-terminal in a production is silently dropped: the input is read exactly as if it were not there, instead of being rejected.", "quantifier": "every such literal, every surrounding production", "why_tests_cant": "All literals and productions.", "anchors": ["src/ast.rs: symbol0"]}
{"id": "C46", "title": "Names, types, binders and actions do not influence the tables", "statement": "Consistently renaming non-terminals and token entries (without identifying two names, raw identifiers staying raw), and changing the name of the token type, patterns, binders, return types and action expressions arbitrarily, changes neither whether the macro expands nor the ACTION and GOTO tables, entry states and number of actions; the expected-token strings and terminal names are renamed, diagnostics name the corresponding names. Renaming non-terminals and replacing each action e by f(e) gives exactly the same module with the parsers renamed and the actions replaced, and its parsers run exactly as before: same results, tokens taken, calls made.", "quantifier": "every grammar, every injective renaming that keeps raw identifiers raw, every replacement of actions, every input and user state", "why_tests_cant": "Independence of all names and actions is a statement about all pairs of grammars.", "anchors": ["src/lower.rs: lower", "src/first.rs: generate_first_table", "src/lr1.rs: generate_lr1_automaton", "src/lr_common.rs: build_lr1_table", "src/codegen.rs: generate_lr1_parser"]}
{"id": "C47", "title": "Repeated declarations are merged into the last one", "statement": "A block that declares a non-terminal several times behaves as the block in which the last declaration of the name holds the productions of all of them in order, and each earlier one, under a fresh name (raw if the old one is), has none: same code, same conflicts. There is one entry point per pub declaration; the one of a declaration repeated later accepts nothing, the one of the last declaration recognises the merged grammar.", "quantifier": "every block, every input", "why_tests_cant": "Ranges over all grammars and inputs.", "anchors": ["src/lower.rs: lower (nt_indices)"]}
{"id": "C48", "title": "Values pass through a parser untouched; actions are type-safe", "statement": "Take any relation between the values of two versions of the user's code (per declared Rust type, per token entry), respected by all actions and by the tokens. Then running the same generated parser with the two versions on related inputs gives related results, worlds and calls. In particular, if each action computes a value of its non-terminal's declared type from variables of the types of the bound symbols, then the value returned by Entry::parse has Entry's type, and no action is ever run on variables of other types: changing what actions do on ill-typed variables changes no outcome.", "quantifier": "every grammar, every pair of user semantics (values, worlds, lexer errors, iterators of any types), every relation respected by actions and tokens, every input, finished or still running", "why_tests_cant": "Quantifies over all semantics of actions and all relations between them; a test fixes one value type and one set of actions.", "anchors": ["src/lr_codegen.rs: generate_lr1_parser (parse_generic)", "src/codegen.rs: generate_semantic_action_table", "src/codegen.rs: generate_semantic_action_result_type"]}
{"id": "C49", "title": "The outcome depends on the responses of next() only", "statement": "The calls of next() recorded during a parse are all the calls made, in order, and the iterator left behind is the one after the last of them; any other iterator, of any type, that answers those calls in the same way leads to the same result, the same effects and the same sequence of calls, both for finished and for unfinished runs. So a parser can be fed from a vector, a lexer or a channel alike, and what the iterator would say later is irrelevant.", "quantifier": "every grammar, every two iterators, every input, every user state, finished or still running", "why_tests_cant": "Quantifies over all iterators, including ones that react to being called; tests use vectors and lexers.", "anchors": ["src/lr_codegen.rs: generate_lr1_parser (parse, parse_generic)"]}
{"id": "C50", "title": "Payloads and computed values do not influence parsing", "statement": "With actions that do not panic, two runs of a parser that are answered with tokens of the same entries (and lexer errors at the same place) call the same actions in the same order, read the same number of tokens and end in the same kind of result with the same error strings, whatever the payloads of the tokens, the values computed and the state of the user's world.", "quantifier": "every grammar, every pair of token streams of the same token entries, every pair of user semantics without panics", "why_tests_cant": "Independence from all payloads and all action results cannot be sampled.", "anchors": ["src/lr_codegen.rs: generate_lr1_parser (parse_generic)", "src/codegen.rs: token_terminal_idx, token_value"]}
{"id": "C51", "title": "Parsing takes time linear in the number of tokens read", "statement": "For every grammar satisfying the conditions under which parsing terminates (C05) there is a constant K, depending on the grammar only, such that for every input, iterator, token payload and user semantics: after n iterations of the parse loop at least n/K calls of next() have been made; when parse returns, at most K semantic actions were called per call of next(); and on an iterator that ends after m tokens parse returns within K*(m+1) iterations.", "quantifier": "every such grammar, every entry point, every iterator, token sequence and user semantics, every number of iterations", "why_tests_cant": "An asymptotic bound over all inputs: tests measure a few lengths of a few inputs.", "anchors": ["src/lr_codegen.rs: generate_lr1_parser (parse_generic)", "src/lr1.rs: build_lr1_table"]}
{"id": "C52", "title": "Generated identifiers mean what they should", "statement": "The identifiers the expansion makes up resolve as intended: every name listed in SEMANTIC_ACTIONS is declared once, as the function for that production; that function calls extraction methods that are declared once and yield the types declared for the symbols it binds, and wraps the action's value in a variant declared once with the non-terminal's type; an entry point's method yields the type parse returns. Module items have pairwise different names exactly if no pub non-terminal uses a name the module takes for itself (ParseError, LRAction, SemanticActionResult, the statics, token_value, parse_generic, nt<i>p<j>_action, <token type in lower case>_terminal_idx), nothing the generated code takes from the prelude or the token type is hidden exactly if no pub non-terminal (and no token type) gets in the way, and value_stack means the value stack in every function exactly if no symbol is bound to that name. Without these restrictions the claims fail: pub ParseError and value_stack:\"a\" are accepted by the macro and generate broken code.", "quantifier": "every grammar with distinct names that expands, every production, symbol, entry point, and every choice of names", "why_tests_cant": "Names are chosen by the user and numbers grow without bound; collisions such as nt1p11 / nt11p1 or with an entry point's name need a proof over all of them.", "anchors": ["src/codegen.rs: generate_semantic_action_table, generate_semantic_action_result_type, generate_token_value_fn, generate_token_terminal_idx_fn", "src/lr_codegen.rs: generate_lr1_parser"]}
{"id": "C53", "title": "The truncating cast of non-terminal indices never changes a usable module", "statement": "Non-terminal indices are cut to 32 bits by an unchecked cast when a non-terminal is added. The macro with that cast and the macro without it generate exactly the same modules, for every grammar, as long as the module has at least one entry point: a grammar large enough for the cast to wrap around is rejected by a later checked conversion.", "quantifier": "every grammar of every size, every hash order", "why_tests_cant": "The cast only matters for grammars with more than four billion non-terminals.", "anchors": ["src/grammar.rs: add_non_terminal", "src/lower.rs: lower", "src/lr_codegen.rs: generate_goto_vec"]}
{"id": "C54", "title": "A generated parser is the canonical LR(1) machine of the grammar", "statement": "For every accepted grammar where nullable symbols are not hidden in front of tail non-terminals, LR(1) or not, parse behaves exactly as Knuth's shift-reduce machine over the declared grammar, whose moves are defined by derivations and one token of lookahead (shift first, then accept, then reduce): the same next() calls, the same production actions with the same arguments in the same order, the same value, error (with found and expected tokens), panic, iterator position and side effects, and it is still running after n moves exactly if the machine is.", "quantifier": "every such grammar, entry point, actions, iterator (finite or not), world; every number of moves", "why_tests_cant": "equivalence of two machines on all inputs and all prefixes of infinite ones", "anchors": ["src/lr_codegen.rs: parse_generic template", "src/lr1.rs", "src/lr_common.rs", "src/codegen.rs"]}
{"id": "C55", "title": "A parser depends only on the rules below its entry point", "statement": "If two accepted grammars with the same token entries have the same productions, in any order, for an entry point and everything mentioned from it, then the two parsers of that entry point make the same next() calls, run the same action expressions in the same order and give the same outcome, on every input. Other rules, other entry points, pub on other rules, declared types and declaration order have no influence (for grammars as in C54).", "quantifier": "every such pair of grammars, every input, actions, world, every number of moves", "why_tests_cant": "all pairs of grammars and all inputs", "anchors": ["src/lower.rs", "src/first.rs", "src/lr1.rs", "src/lr_common.rs"]}
{"id": "C56", "title": "The canonical LR(1) machine, with user code that does anything", "statement": "next(), semantic actions and the clone() of a lexer error may share and change one state (so the lexer may react to what actions did) and may panic at any call, as long as no action expression leaves its function by return. For every accepted grammar as in C54, after n iterations parse has returned exactly if Knuth's machine performing the same calls has stopped, with the same result (value, error with found and expected, panic) and the same shared state; otherwise both have the same lookahead token and state: effects happen in the same order, no call is added, dropped, repeated or reordered, and nothing is called after a panic. An action expression that uses return breaks this: the push is skipped and parse can return Ok with a value computed for another symbol.", "quantifier": "every such grammar, entry point, shared-state user code, initial state, every number of iterations", "why_tests_cant": "all grammars, all user code and all interleavings of lexer and action effects", "anchors": ["src/lr_codegen.rs: parse_generic template", "src/codegen.rs: generate_semantic_action_table"]}
{"id": "C57", "title": "No panic but the user's, for any user code and any accepted grammar", "statement": "For every accepted grammar and every user code that shares state and may panic (but does not return out of an action expression): if parse panics, the last call was a call of next(), of the action of a declared production or of clone() that panicked, or the token matches no entry of enum Token. If it returns, next() had returned tokens that begin a sentential form of the entry point and then one more result: end of input after a sentence for Ok, the offending token or end of input for ParserError, the error that was cloned for LexerError. With an action that returns early this is false: generated code panics on its value stack.", "quantifier": "every accepted grammar, entry point, shared-state user code and initial state, every number of iterations", "why_tests_cant": "absence of a panic over all grammars, inputs and user code", "anchors": ["src/lr_codegen.rs: parse_generic template", "src/codegen.rs: generate_semantic_action_table, generate_semantic_action_result_type"]}
{"id": "C58", "title": "Effects reach the parser only through results", "statement": "Every run with user code that shares state is, iteration by iteration, a run on an iterator and actions that merely return the recorded results; recording can be added to any user code without the parser noticing. Hence the properties of runs carry over: in particular, under the conditions of C05, there is a constant K of the grammar such that n iterations need at least n/K calls of next(), and if at most m tokens are to come parse returns within K*(m+1)+1 iterations.", "quantifier": "every accepted grammar (for the bound: as in C05), user code, initial state, every number of iterations", "why_tests_cant": "all inputs, user code and histories", "anchors": ["src/lr_codegen.rs: parse_generic template"]}
{"id": "C59", "title": "Every accepted grammar: the LR(1) machine of the computed FIRST sets", "statement": "Without any side condition on the grammar: there are FIRST sets (a may-be-empty mark and a set of tokens per non-terminal) that contain nothing wrong and account for every production up to the skipping of leading non-terminals marked empty, such that every parser of the module is the LR(1) shift-reduce machine whose lookaheads come from these sets - same calls, outcome, lists of expected tokens, panics, non-termination - for pure and for shared-state user code. On grammars whose tails do not begin with nullable non-terminals their lookaheads are exactly the true ones.", "quantifier": "every accepted grammar with distinct names, every entry point, user code, input and number of iterations", "why_tests_cant": "equivalence of two machines on all inputs of all grammars", "anchors": ["src/first.rs: generate_first_table", "src/lr1.rs: compute_lr1_closure, build_lr1_table", "src/lr_codegen.rs: parse_generic template"]}
{"id": "C60", "title": "Which grammars are accepted", "statement": "A grammar with distinct non-terminal names whose numbers fit the chosen integer types is accepted exactly if it has one enum Token, at most one user state type, uses only declared and supported constructs, has no raw names for the token type or entry points, and no LR(1) conflict of the reported kinds among the items of the computed FIRST sets; conversely a conflict diagnostic is given only if there is such a conflict.", "quantifier": "every grammar with distinct names", "why_tests_cant": "an equivalence over all grammars", "anchors": ["src/lib.rs: parser", "src/lr_common.rs: LRTableBuilder", "src/lr1.rs: build_lr1_table", "src/lower.rs: lower"]}
{"id": "C61", "title": "Messages of parser! are truthful", "statement": "Whatever message the macro stops with, what it says is the case: the declaration it names is doubled or missing, the symbol it names is used but not defined (or the construct is unsupported and used), and a conflict message '(s, la): Overriding A with B' means that for some entry point and some sequence of symbols the automaton is in state s, and there, with lookahead la, the two actions printed (the productions with the printed indices, the shift to the printed state, accepting) are both possible in the user's grammar. Every stop carries such a message except for numbers that are too large and raw names; a grammar has one message; a state number stands for one state; token names are printed unambiguously.", "quantifier": "every grammar with distinct names and every iteration order of hash maps", "why_tests_cant": "every message for every grammar", "anchors": ["src/lr_common.rs: add_shift, add_reduce", "src/lower.rs: lower", "src/lib.rs: parser", "src/lr1.rs: build_lr1_table"]}
{"id": "C62", "title": "The order of token entries, and unused entries, do not matter", "statement": "If two accepted blocks have the same rules and differ only in the entries of enum Token, then the parsers of an entry point make the same calls and return the same value, error, iterator and world on every iterator whose tokens the two blocks classify alike; only the order of the tokens listed in a parser error may differ, and does not if the entries in use come in the same order. In particular permuting non-overlapping entries, and adding entries for tokens that do not occur, change nothing. Adding, removing or permuting entries does not change whether the block is accepted as long as every mentioned entry is declared.", "quantifier": "every pair of grammars with the same rules (no condition on FIRST sets or LR(1)), all actions, iterators and inputs", "why_tests_cant": "all permutations and extensions of all grammars; FIRST sets are computed in rounds that do depend on the order of the rules", "anchors": ["src/lower.rs: lower", "src/first.rs: generate_first_table", "src/lr_common.rs: LRTableBuilder", "src/codegen.rs: token_value_fn"]}
{"id": "C63", "title": "What a parser depends on", "statement": "A parser is determined by the productions of its entry point and of everything mentioned from there, and the FIRST sets computed for these: two accepted blocks in which these agree (whatever other rules and token entries they have, and in whatever order) give parsers that make the same calls and return the same outcome on every iterator whose tokens both classify alike; only the order of tokens in a parser error may differ. The computed FIRST sets themselves, however, are not determined by these productions: a rule that nothing refers to can change what a parser accepts. Adding rules to an LR(1) grammar can only help: whatever the parser did on an input, other than reporting a parser error, it still does; if the grammar is not LR(1), rules that nothing refers to can make a parser reject a sentence that it accepted.", "quantifier": "every pair of accepted grammars (no condition on FIRST sets or LR(1)), all actions, iterators and inputs", "why_tests_cant": "all pairs of grammars and all inputs; the counterexample needs a chain of rounds in the FIRST computation", "anchors": ["src/first.rs: generate_first_table", "src/lr1.rs: compute_lr1_closure", "src/lr_codegen.rs: generate_lr1_parser"]}
{"id": "C64", "title": "The emitted Rust code does what the model of it does", "statement": "Evaluate the text the macro emits as Rust code: calling parse of an entry point, with any token iterator and any action expressions (which may share state and panic), returns the value, ParserError or LexerError, or panics, exactly as the table-driven machine over the computed tables does, with the same effects and after the same number of loop iterations. Every name the code mentions means one item, every call and operation is applicable. So for an LR(1) grammar without empty productions the emitted parse returns Ok exactly on the sentences of the entry point, with the value of a parse tree, and it never panics by itself. This holds when entry points and binders avoid the names the module uses; otherwise the code does not compile although the macro accepts the grammar.", "quantifier": "every accepted grammar with usable names, every entry point, all user code, inputs and numbers of iterations", "why_tests_cant": "all grammars: the emitted program is different for each", "anchors": ["src/lr_codegen.rs: generate_lr1_parser, generate_action_array, generate_goto_array", "src/codegen.rs: generate_semantic_action_table, token_terminal_idx_fn, token_value_fn, semantic_action_result_type, generate_token_to_text"]}
{"id": "C65", "title": "No variable of the emitted code is called like a constant", "statement": "The identifiers the emitted module binds with let, patterns and parameters are never names of statics, unit structs or unit variants in scope (such code does not compile), exactly if no entry point is called like a variable of the templates, a binder or f0, f1, .., and no binder is called like a static of the module or None. The macro does not check this.", "quantifier": "every accepted grammar", "why_tests_cant": "all names in all grammars", "anchors": ["src/lr_codegen.rs: generate_lr1_parser", "src/codegen.rs: generate_semantic_action_table"]}
{"id": "C66", "title": "Every action is in the module once", "statement": "The action expressions that occur in the emitted module are those of the grammar, each once, in the order of the grammar, and no others: none is dropped, duplicated or attached twice (also not for entry points, which are lowered to two non-terminals).", "quantifier": "every accepted grammar", "why_tests_cant": "all grammars", "anchors": ["src/codegen.rs: generate_semantic_action_table", "src/lower.rs: lower"]}
{"id": "C67", "title": "The emitted module is well-typed exactly if the user's code is", "statement": "For an accepted grammar whose names avoid those of the module and the prelude, the emitted module passes Rust's name resolution and type checking (types of all expressions, trait bounds and derives, exhaustive matches, signatures) exactly if: every action expression, in its binders with the types declared for their symbols, has the type declared for its non-terminal; every token pattern fits the token type with the types written in it; the patterns cover the token type; types written in the grammar implement Debug; no return type of an entry point mentions E; each lifetime of the token type occurs in a type of the grammar; and there is at least one token. In particular no type error can come from the generated code itself. The last three conditions are not checked by the macro and not documented: it accepts such grammars and emits code rustc rejects.", "quantifier": "every accepted grammar with usable names, all types of user code", "why_tests_cant": "all grammars: the emitted program is different for each; a test that compiles covers one", "anchors": ["src/lr_codegen.rs: generate_lr1_parser, generate_action_array, generate_goto_array", "src/codegen.rs: generate_semantic_action_table, token_terminal_idx_fn, token_value_fn, semantic_action_result_type"]}
{"id": "C68", "title": "If it compiles, it works", "statement": "For every accepted grammar (whose token type is a type of the user's own), the emitted module passes name resolution and type checking exactly if the user has seen to everything: no entry point is called like an item, variable or prelude name the generated code uses, no binder like a constant or value_stack, and the conditions of C67 on types. So if the module compiles then, with no further condition on names, each public non-terminal has a parse function that does what the parser model does: a value it returns is the value of a parse tree of the tokens read; on an LR(1) grammar as in C12 it returns Ok exactly on sentences; and it never panics unless the user's code does (given that rustc is right that the patterns cover the token type). Nothing goes wrong silently by a clash of names.", "quantifier": "every accepted grammar, all user code and types, all inputs", "why_tests_cant": "all grammars and names: a clash of names that compiles and misbehaves would be a different grammar from any tested", "anchors": ["src/lr_codegen.rs: generate_lr1_parser", "src/codegen.rs: generate_semantic_action_table, token_terminal_idx_fn, token_value_fn", "src/lib.rs: parser"]}
{"id": "C69", "title": "End to end: from the tokens of the macro call to calls of parse", "statement": "Every token stream given to parser! becomes, after finitely many steps and (up to the order of the entry points' items) whatever the iteration order of hash maps, exactly one of: a module, if it is a grammar in the documented syntax that the later stages accept; a compile error, if it is not in the syntax; a panic of the reader, on the two forms it panics on; a panic of a later stage. If it is a module and it passes name resolution and type checking, then for each pub non-terminal the parse function of that module, evaluated by the rules of Rust: returns only values of parse trees of the tokens read, with actions run in order; on an LR(1) grammar as in C12 returns Ok exactly on sentences; on an LR(1) grammar with productive non-terminals decides, failing with an error at the first wrong token; and does not panic unless the user's code does.", "quantifier": "every token stream, every hash order, all user code and types that compile, all inputs of the parser", "why_tests_cant": "all macro calls and all inputs of all generated parsers, through all stages at once", "anchors": ["src/lib.rs: parser", "src/ast.rs: Grammar::parse", "src/grammar.rs: lower", "src/lr1.rs", "src/lr_codegen.rs: generate_lr1_parser", "src/codegen.rs"]}
{"id": "C70", "title": "In which order a parser calls the lexer and the actions", "statement": "If no action contains `return`, then whatever the lexer and the actions share (any mutable state), what parse has done at any moment is: call next() once, then walk some parse trees from left to right, children before parents, where a token is taken and next() called once for the token after it, and an action is called once after its children; the roots walked so far begin a sentential form of the entry point. It ends with Ok(v) exactly after walking one parse tree of the entry point to the end of the tokens, v being the value of its root; or with an error about the current token; a clone of the lexer's error; or with a panic of user code at the point reached. On an LR(1) grammar as in C12 the converse holds: whenever walking a parse tree is possible, parse does that. The same holds of the emitted module, if it compiles.", "quantifier": "every accepted grammar, all user code with any shared state, every input and number of steps", "why_tests_cant": "all grammars, all stateful lexers and actions and all interleavings of their calls (for example a lexer that depends on what actions declared)", "anchors": ["src/lr_codegen.rs: generate_parse_generic_fn, generate_semantic_action_fns"]}
{"id": "C71", "title": "How many entries the stacks of a parser hold", "statement": "If no action contains `return`: (1) the state stack always has one entry more than the value stack. (2) If numbers h can be given to the non-terminals such that a production of n has at most h(n) symbols and a non-terminal m after k symbols has k + h(m) <= h(n), then parse never holds more than max(1, h(entry point)) values, whatever the input, the lexer and the actions. (3) A grammar whose only recursion is left recursion has such a bound; and on LR(1) grammars as in C12 without useless symbols these are the only ones: with any other recursion there are token strings that need stacks as large as one likes. (4) During a run that returns Ok, the sizes the value stack takes are exactly the lengths of the left parts of the parse tree walked (complete subtrees left of a cut). (5) Without empty productions the value stack has fewer entries than next() has returned results; on the grammars of C58, at most K times as many.", "quantifier": "every accepted grammar, all user code with any shared state, every input and number of steps", "why_tests_cant": "memory use for inputs of every length and for all grammars; unboundedness is a statement about infinitely many inputs", "anchors": ["src/lr_codegen.rs: generate_parse_generic_fn (state_stack, value_stack)"]}
{"id": "C72", "title": "Errors when the lexer and the actions share a state", "statement": "If no action contains `return`, with lexer and actions that share and change any state: (1) if every non-terminal derives some token string, then at every moment of a parse the tokens already pushed begin a sentence of the entry point. (2) Under the conditions of C07, after next() has returned the token that parse reports, parse calls no user code: it returns in the state that call left, and reports the entry matching that token (end-of-input at the end). (3) On LR(1) grammars as in C40 the error is reported at the first token with which what was read does not begin a sentence, or at the end of an incomplete sentence, and the list of expected tokens is exact. (4) If moreover user code does not panic, every token matches an entry and tokens come to an end, then parse returns, and whether it returns Ok, a parse error or a lexer error is decided by what next() returned.", "quantifier": "every accepted grammar, all user code with any shared state, every input and number of steps", "why_tests_cant": "all grammars, all inputs, and all lexers and actions that influence each other through a shared state", "anchors": ["src/lr_codegen.rs: generate_parse_generic_fn, generate_expected_state_tokens"]}
{"id": "C73", "title": "Grammars of the same language are interchangeable", "statement": "Take two blocks as in C40 (LR(1), all non-terminals productive) and an entry point of each such that both derive the same strings of token entries, tokens being classified alike by both. If actions do not panic, then on every iterator: when one parser returns so does the other, both made the same calls of next() and left the iterator in the same state; both return Ok, or both the same lexer error, or both a parser error with the same found and the same tokens expected (in the order of the respective enum Token; the same string if the entries come in the same order). If for every sentence the values of the two parse trees are related by R, so are the values returned and the effects.", "quantifier": "every such pair of grammars, all actions and worlds, every iterator including infinite ones", "why_tests_cant": "all pairs of grammars of the same language and all inputs", "anchors": ["src/lr1.rs", "src/lr_common.rs: build_lr1_table", "src/lr_codegen.rs: generate_lr1_parser"]}
{"id": "C74", "title": "LR(1), LALR(1), SLR(1) and LL(1) grammars of the textbooks are handled", "statement": "(1) The LR(1) condition that the other properties ask for is Knuth's of 1965: what to reduce in a right-sentential form is determined by what is on its left and one token (if the symbols of right-hand sides derive token strings; that LR(1) by items implies Knuth's holds always). (2) SLR(1) grammars are LALR(1), LALR(1) grammars are LR(1), LL(1) grammars with productive symbols are LR(1). (3) So parser! never reports a conflict for a grammar in one of these classes (for each of its entry points), and under tails_plain its parsers return Ok on exactly the sentences. (4) There is a grammar parser! accepts that is not LALR(1).", "quantifier": "every grammar and entry point, all sentential forms; for exactness all actions that do not panic and all iterators", "why_tests_cant": "all grammars of a class, each with infinitely many sentential forms and viable prefixes", "anchors": ["src/lr1.rs: generate_lr1_automaton", "src/lr_common.rs: build_lr1_table", "src/first.rs"]}
{"id": "C75", "title": "Exactly which sentences a parser of an LR(1) grammar accepts", "statement": "For every LR(1) grammar that parser! accepts (no condition on tails): parse returns Ok(v) exactly if there is a parse tree of the entry point, walking which yields v, such that at each node the token that follows it is among the lookaheads the generator has for the node's production (those that follow from the FIRST sets src/first.rs computes). So the parser accepts all sentences if the generator has every true lookahead of every complete production, and (if all symbols are productive and every used token entry matches a token) only then. That is so when tails are plain, and for some grammars with other tails.", "quantifier": "every LR(1) grammar and entry point, every input, lexer and actions (also such that share a state and panic)", "why_tests_cant": "all grammars and all inputs; which sentences are lost to missing lookaheads depends on infinitely many contexts", "anchors": ["src/first.rs: generate_first_table, FirstSet", "src/lr1.rs: compute_lr1_closure", "src/lr_common.rs: build_lr1_table", "src/codegen.rs: generate_parser"]}
{"id": "C76", "title": "Exactly what a parser of any accepted grammar accepts, and which parse tree it chooses", "statement": "For every supported grammar that is accepted (LR(1) or not, ambiguous or not): parse returns Ok exactly if the tokens have a parse tree at each node of which the token that follows is among the production's lookaheads as the generator computed them, and at which there is nothing to shift or accept instead; the value is that of this tree. At most one parse tree of a token sequence is chosen, however many there are: silently resolved conflicts prefer shifts (the dangling else goes to the inner if). At every moment of a run the trees built so far are chosen. The same holds of the emitted Rust.", "quantifier": "all supported grammars the macro accepts, public non-terminals, lexers and actions sharing a state, token sequences, runs and moments of a run", "why_tests_cant": "A test compares a few token sequences with an expected tree; which of several trees an ambiguous grammar yields, for every sentence, depends on every state and lookahead of the table.", "anchors": ["src/lr1.rs: build_lr1_automaton, generate (actions, add_shift/add_reduce)", "src/first.rs", "src/lr_codegen.rs: generate_parser (parse)"]}
{"id": "C77", "title": "FOLLOW sets (src/follow.rs)", "statement": "The FOLLOW table that src/follow.rs computes (the file is in the repository but not compiled into the macro) holds nothing wrong: a terminal is in the entry of n only if it comes right after n in something a non-terminal derives, and the end mark is set only if n comes last in something the first non-terminal derives. It is exact if the FIRST sets it is given are exact, in particular if no right-hand side begins with a non-terminal that derives the empty string; otherwise terminals can be missing, as they are in FIRST. The computation terminates on every lowered grammar and the table does not depend on the order of hash sets.", "quantifier": "all grammars (termination: all that are lowered), hash orders, non-terminals and lookaheads", "why_tests_cant": "FOLLOW is a least fixpoint over all derivations; a test compares a few sets.", "anchors": ["src/follow.rs: generate_follow_table, FollowTable", "src/grammar.rs: production_indices"]}
{"id": "C78", "title": "LR(0) automaton (src/lr0.rs)", "statement": "The automaton that src/lr0.rs computes (the file is in the repository but not compiled into the macro) is the LR(0) automaton of the grammar: the state that a string of symbols leads to has exactly the items valid for that string, a string leads to a state iff some item is valid for it, every state is reached, and no two states have the same items. The valid items are Knuth's, given by rightmost derivations from production 0 of the first non-terminal, if every symbol after the first of a right-hand side derives strings of terminals; without that, none is missing. The construction terminates on every lowered grammar whose first non-terminal has a production and panics if it has none; hash orders change nothing but the numbers of the states.", "quantifier": "all grammars (termination: all that are lowered), hash orders, strings of symbols, items", "why_tests_cant": "Valid items quantify over all viable prefixes and derivations; a test compares one automaton.", "anchors": ["src/lr0.rs: compute_lr0_automaton, compute_lr0_closure, compute_lr0_goto, LR0AutomatonBuilder", "src/grammar.rs: non_terminal_production_indices"]}
{"id": "C79", "title": "SLR(1) table (src/lr0.rs)", "statement": "The table that src/lr0.rs builds from its automaton and the FOLLOW table has, in the state that a string of symbols leads to: a shift to the state of the longer string iff some valid item has that terminal next; accept at the end of the input iff the item of production 0 of the first non-terminal with its cursor after the first symbol is valid; and otherwise a reduction iff an item with its cursor at the end is valid and the lookahead is in the FOLLOW entry of its non-terminal; its gotos are those of the automaton. Shifts replace reductions that come earlier in item order. The table is built iff no valid item asks for a reduction at a lookahead for which an earlier valid item asks for something; otherwise the builder panics.", "quantifier": "all grammars, hash orders, FOLLOW tables computed by src/follow.rs, strings of symbols, lookaheads, actions", "why_tests_cant": "The table is characterised over all viable prefixes; a test looks at a few entries.", "anchors": ["src/lr0.rs: build_slr_table", "src/lr_common.rs: LRTableBuilder::add_shift, add_reduce, add_accept, add_goto"]}
{"id": "C80", "title": "Parsing with SLR(1) tables (simulate)", "statement": "Take a grammar whose first non-terminal has one production, of one symbol, and is not used below itself. If simulate (src/lr_common.rs) comes to an end with the table that src/lr0.rs builds, the input is a sentence and has been read to its end. If the grammar is SLR(1) and the FOLLOW table is exact (C77), the table can be built and simulate ends on every sentence: it accepts exactly the language.", "quantifier": "all grammars with the stated properties, hash orders, inputs of any length", "why_tests_cant": "Quantifies over all inputs and all derivations.", "anchors": ["src/lr_common.rs: simulate", "src/lr0.rs: build_slr_table, compute_lr0_automaton", "src/follow.rs: generate_follow_table"]}
{"id": "C81", "title": "Printed grammars, sets, automata and tables", "statement": "Printing (Display) the lowered grammar, its FIRST table, the LR(1) and LR(0) automata and the table never panics on what the macro computes. If the names of non-terminals are identifiers, the text can be read back: two grammars, FIRST tables, automata or tables that print the same have the same content up to the names of symbols, whatever order hash maps are walked in; and where no name is used twice, the line of an item determines the item. Not up to the symbols themselves: a user's A1 beside `pub A` has the name of a generated non-terminal, so grammars with different languages print the same.", "quantifier": "all grammars, automata, tables and hash orders", "why_tests_cant": "Two different structures printing the same is an existential over pairs; tests compare a few texts.", "anchors": ["src/grammar.rs: impl Display for Grammar, ProductionDisplay, SymbolKindDisplay", "src/first.rs: FirstSetDisplay, FirstTableDisplay", "src/lr1.rs: LR1ItemDisplay, LR1StateDisplay, LR1AutomatonDisplay", "src/lr_common.rs: LRTableDisplay, LRActionDisplay", "src/lr0.rs: LR0ItemDisplay, LR0AutomatonDisplay"]}
{"id": "C82", "title": "A parser takes linear time or never returns", "statement": "For every generated parser (whatever its tables, in particular for every accepted grammar, with no condition on it) there is a number K such that, for all actions, iterators, tokens and worlds: once more than K iterations per call of next() have been made, next() is never called again and parse never returns but by a panic of an action; and when parse returns otherwise, at most K actions were called per call of next(). So with actions that do not panic, on an iterator that ends, parse has returned after K * (tokens + 1) iterations or never will: whether it terminates is decided by waiting. The first statement also holds when next(), actions and clone() share a state, panic, or actions return.", "quantifier": "all generated modules, entry points, iterators of any length, actions, worlds", "why_tests_cant": "A statement about all inputs and about runs that never end.", "anchors": ["src/lr_codegen.rs: generate_parser_struct, parse_generic"]}
{"id": "C83", "title": "A compiled parser and user code with state: it returns in linear time or never, and what it returns is decided by what next() returned", "statement": "For the Rust module that the macro call becomes, if it compiles: for user code of any kind whose iterator, actions and clone() share a state, do not panic, and read tokens of the token type that come to an end, there is a number K (of the module alone) such that a call of parse has returned after K iterations of its loop per token, or never will, whatever the grammar; and for LR(1) grammars as in C40 it does return: Ok exactly if the tokens that next() returned before None are a sentence, the lexer's error (cloned) if next() returned one, and otherwise the error naming the first token with which what was read does not begin a sentence.", "quantifier": "all token sequences of macro calls, modules, types of the user, stateful user code, entry points", "why_tests_cant": "A statement about all programs and inputs, at the level of the emitted Rust code, including calls that never return.", "anchors": ["src/lib.rs: parser", "src/lr_codegen.rs: generate_parser_struct, parse_generic", "src/codegen.rs: generate_semantic_action_fns"]}
{"id": "C84", "title": "How large the tables are, and how long the macro can run, in the size of the grammar", "statement": "An accepted grammar's tables have at most one row for each set of LR(1) items, that is at most 2 to the number of items (positions of the dot in the productions, two more for each pub declaration, times the number of tokens and the end of the input); every ACTION row has one column for each token and one for the end of the input, and every GOTO row one for each non-terminal and one for each entry point. Expanding any grammar, accepted or not, each loop of the macro that runs until nothing changes makes at most N(T+1) + I + 2^I(N+T+1) iterations, where N counts the non-terminals and entry points, T the tokens and I the LR(1) items: the macro terminates within a bound that can be computed from the declarations.", "quantifier": "all token sequences read as grammars, accepted or rejected; all hash orders", "why_tests_cant": "Termination and size bounds quantify over all grammars; a test expands a few and cannot bound the next one.", "anchors": ["src/lr_common.rs: LRTableBuilder", "src/lr1.rs: generate_lr1_automaton, compute_lr1_closure, build_lr1_table", "src/first.rs: generate_first_table"]}
{"id": "C85", "title": "Replacing the grammar of a compiled program by one of the same language", "statement": "Take two macro calls, possibly with different token enums, rules, actions and types, that become modules which compile, with LR(1) grammars as in C40, and a pub non-terminal of each, such that both derive the same strings of token entries and tokens are classified alike. If actions do not panic, then for every iterator: if a call of parse of the one module returns, so does a call of the other; they leave the iterator in the same state, and both return Ok, or both the same lexer error, or both a parse error with the same `found` and the same tokens listed as expected. If values of the two parse trees of a sentence are always related by R, so are the values returned and what the actions did.", "quantifier": "all pairs of token sequences of macro calls, modules, types of the user, lexers, actions, entry points", "why_tests_cant": "A statement about pairs of programs and all their inputs, also infinite ones; tests compare two programs on some inputs.", "anchors": ["src/lib.rs: parser", "src/lr_codegen.rs: generate_parser_struct, parse_generic", "src/lr1.rs: build_lr1_table"]}
