# A Rocq model of osa1/parsegen

`parser! { ... }` is a proc macro: it reads a grammar, computes FIRST sets, the canonical LR(1)
automaton and the action/goto table, and emits Rust code: static tables, semantic-action functions,
token classification functions and a table-driven `parse_generic`.  The model has the same two
stages: `macro` (expansion time; AST -> generated module *as data*, or a panic) and `parse` (run
time; generated module + token iterator -> outcome).

## Files (rocq/theories)

Model (every definition cites the lines of /repo it models):

| file | models |
|---|---|
| `Base.v` | results (`Ok`/`Panic`/`OutOfFuel`), association maps (FxHashMap), insertion-ordered sets (FxHashSet), sorted sets (BTreeSet), checked narrowing (`try_from`) |
| `Grammar.v` | src/grammar.rs |
| `Items.v` | items, their derived order, and the hash-order oracle |
| `Ast.v`, `Lower.v` | the AST types of src/ast.rs, src/lower.rs |
| `First.v` | src/first.rs |
| `Lr1.v` | src/lr1.rs, the table builder of src/lr_common.rs |
| `Follow.v` | src/follow.rs (in the repository, not compiled into the macro) |
| `Lr0.v` | src/lr0.rs: LR(0) automaton and SLR(1) table (in the repository, not compiled into the macro) |
| `Simulate.v` | `simulate` of src/lr_common.rs (compiled for the unit tests only) |
| `Display.v` | the `Display` implementations of src/grammar.rs, src/first.rs, src/lr1.rs, src/lr_common.rs, src/lr0.rs |
| `Codegen.v` | src/codegen.rs and the table emission of src/lr_codegen.rs |
| `Pattern.v` | token patterns as generated, with the match semantics of Rust patterns |
| `Runtime.v` | the generated `parse_generic` / `Entry::parse` (src/lr_codegen.rs 101-232) |
| `Macro.v` | src/lib.rs, from the AST on |
| `Effects.v` | the generated parser with user code that shares one state, may panic anywhere and may `return` from an action |
| `Wrap.v` | lowering with the truncating cast of src/grammar.rs:122 |
| `Names.v` | the identifiers of the generated module (the other files number functions, variants and methods) |
| `Message.v` | the texts of the macro's own panics, src/lr_common.rs:63-145, src/lower.rs:23, 90, 111, 123, 130, src/lib.rs:35, 42, 53 |
| `Rust.v` | the fragment of Rust in the `quote!` templates: syntax, name resolution, an interpreter (nothing about parsers) |
| `Emit.v` | the `quote!` templates of src/lr_codegen.rs and src/codegen.rs: the emitted module as Rust items |
| `RustTypes.v` | a type system for that fragment of Rust (nothing about parsers): types, traits, exhaustive matches, items |
| `EmitTypes.v` | the signatures, types of statics, generics and derives in the same templates |
| `Dsl.v` | the parser of the macro's input, src/ast.rs:163-455, and the macro as a function of tokens |
| `Program.v` | src/lib.rs as a whole: from the tokens of `parser! { … }` to the emitted module |

Specification (read these to see what the theorems say; none of them mentions the model's helpers
beyond the AST, the module data type and the run function):

| file | content |
|---|---|
| `Spec.v` | user level: declared non-terminals, parse trees, sentences, values, derivations, token patterns, what lowering supports |
| `USpec.v` | user level: nullable, productive, LR(1), conflicts, side conditions (`tails_plain`, `tails_reliable`) |
| `PropSpec.v` | `expands`, `expansion_panics`, `returns`, `running`, `parser_of`, `feeds_then`, `error_report` |
| `GSpec.v`, `Lr1Spec.v` | the same textbook notions for lowered grammars |
| `DslSpec.v` | concrete syntax of the grammar language over token trees; inputs that panic; laws assumed of syn's type/expression/path parsers |
| `AlikeSpec.v` | blocks that differ in names, types, binders, actions; renaming; merging of repeated declarations |
| `ParamSpec.v` | two versions of the user's code: related values, worlds, tokens, calls; typed actions |
| `KnuthSpec.v` | Knuth's canonical LR(1) machine over the declared grammar; grammars that agree below an entry point |
| `EffectsSpec.v` | Knuth's machine with user code that shares one state; recording and replaying |
| `ComputedSpec.v` | FIRST sets that may lack tokens, their lookaheads; the sets computed for a grammar, by name |
| `MessageSpec.v` | for every message of `parser!`, the fact about the user's grammar it reports |
| `EntrySpec.v` | blocks that differ only in token entries; tokens an iterator has ahead; grammars with the same productions and computed sets below an entry point |
| `EmitSpec.v` | results of a run as Rust values; the names a user has to keep to (`usable_names`, `bindable`) |
| `TypedSpec.v` | words in the text of a type (`has_word`); what the user of the macro has to provide for the module to compile (`promises`, `typable`, `free_types`) |
| `InterleaveSpec.v` | walking a parse tree with a lexer and actions that share a state (`plays`); how such a walk may end (`finished`) |
| `MemorySpec.v` | left parts of a parse tree, heights and nesting of a grammar (C71) |
| `LrSpec.v` | rightmost derivations, Knuth's LR(1), FOLLOW, LR(0) items, SLR(1), LALR(1), LL(1) (C74) |
| `CoverSpec.v` | the parse trees whose lookaheads are known, or chosen (C75, C76) |
| `DisplaySpec.v` | what a printed text tells: content by the names of symbols (C81) |
| `FollowSpec.v` | what can follow a non-terminal in a derivation (C77) |
| `Lr0Spec.v` | LR(0)-valid items, inductively and by rightmost derivations (C78) |
| `GenSpec.v` | `stages`, `expansion_of`, what a state holds, `numbering`, `reordered` |

Theorems: `Properties.v` (C01-C13, C34-C36, C40), `PropertiesGen.v` (C15-C24), `PropertiesCode.v`
(C24-C39), `PropertiesDsl.v` (C41-C45), `PropertiesNames.v` (C46, C47), `PropertiesParam.v` (C48-C50), `PropertiesTime.v` (C51), `PropertiesHygiene.v` (C52), `PropertiesWrap.v` (C53), `PropertiesKnuth.v` (C54, C55, C38),
`PropertiesEffects.v` (C56-C58), `PropertiesComputed.v` (C59, C60), `PropertiesMessage.v` (C61), `PropertiesEntry.v` (C62), `PropertiesLocal.v` (C63), `PropertiesEmit.v` (C64-C66), `PropertiesTyped.v` (C67), `PropertiesCompile.v` (C68), `PropertiesProgram.v` (C69), `PropertiesInterleave.v` (C70), `PropertiesMemory.v` (C71), `PropertiesErrors.v` (C72), `PropertiesRefactor.v` (C73), `PropertiesClasses.v` (C74), `PropertiesCover.v` (C75, C76), `PropertiesFollow.v` (C77), `PropertiesLr0.v` (C78), `PropertiesSlr.v` (C79), `PropertiesSimulate.v` (C80), `PropertiesDisplay.v` (C81), `PropertiesEndless.v` (C82), `PropertiesWaiting.v` (C83), `PropertiesSize.v` (C84; counts in `SizeProofs.v`), `PropertiesReplace.v` (C85),
`Findings.v` (refutations: C05 and C07 without their conditions, C13-C16, C20, C23, C30, C33).
Concrete cases that meet the hypotheses stand beside the theorems (`case_*`), on the grammars of
tests/tests.rs (`Grammars.v`, which also replays the assertions of tests/tests.rs in the model), and on
the grammars of src/test_grammars.rs (`UnitTests.v`, which replays the unit tests of src/lr1.rs,
including their `simulate`).
All other files are proofs.

## How each property is modelled and proved

* C01-C03, C36 — machine invariant over `parse` steps: the state stack is a path in the automaton
  labelled by symbols X1..Xn, the value stack holds the values of trees rooted X1..Xn whose yields
  concatenate to the consumed tokens.  Induction on steps.  Reductions are justified by the "suffix
  lemma": a complete item `[A -> b ., t]` in the top state forces b on top of the stack.
  (RunProofs, RunTrace, PropRun.)
* C04 — same invariant; every partial operation of the model returns an explicit panic value.
* C05, C07, C09 — from a valid stack with a reduce on lookahead t, the derivation that put t in the
  lookahead leads to a shift of t: induction on item validity (RunLive, RunLock).  For LR(1) grammars C05
  needs no assumption on FIRST: each reduction of the parser is one of the ideal LR(1) machine
  (Canonical), whose run on a suitable continuation is finite (RunTerm).
* C06, C08, C10 — the iterator is an arbitrary state machine `next : I -> option (Tok + E) * I`;
  calls of `next` and of actions are recorded as events (RunTrace).
* C11-C13, C38 — induction on parse trees (Complete), from user-level LR(1)-ness to absence of
  overridden entries (Lr1Proofs, UserLr1); C13 from determinism of the ideal machine (Canonical).
* C14, C16, C20, C23, C33 — refuted on the faithful model with concrete grammars (Findings), proved
  under side conditions (`_partial` theorems).
* C15, C17, C18 — fold invariant of the table builder (TableProofs), lifted to the user's grammar
  (UserDown, Lookahead, UserConflict).
* C19, C20 — fixpoint invariant of the FIRST loop (FirstProofs, FirstClosed).
* C21 — fuelled loops; sufficient fuel exists by a measure on the finite universe of items (Termination).
* C22 — hash iteration order is an oracle, an arbitrary permutation at each use; equal results (Determinism).
* C23, C24 — automaton-construction invariants (ClosureProofs, AutomatonProofs).
* C25-C29 — list-level reasoning on emission functions; narrowing is an explicit check (GenProofs,
  GenShape, ActionProofs).
* C30 — patterns and values as inductive types, generated Rust patterns with a match semantics (PatternProofs).
* C31-C33, C37 — structural induction on the AST (LowerProofs, LowerPanics, LowerTrees).
* C34, C35, C40 — corollaries of the machine invariant (RunPrefix, UserPrefix).
* C41-C45 — the recursive-descent parser against a concatenative syntax: soundness by induction on fuel,
  completeness by induction on the syntax (DslProofs, DslRules), totality and panics (DslPanics).
* C46, C47 — every stage is a function of the shape of the lowered grammar: pairwise (relational) reasoning on
  two runs of each stage (Shape, Alike), on lowering (LowerAlike, Merge), on the generated parsers (SameCode).
* C48-C50 — a simulation between two runs of the generated code, for an arbitrary relation on values per
  `SemanticActionResult` variant and terminal (RunRel), instantiated per Rust type and token entry (ParamProofs).
* C51 — from every pair of adjacent states the reductions on one lookahead stop (as for C05), so they are bounded
  for the finitely many pairs; an amortised count with the stack below the pair as credit (RunLinear, TimeProofs).
* C52 — the generated identifiers as strings (Names.v); decimal numerals are injective and end where digits end, the
  last characters of the families differ (NamesProofs).
* C53 — both lowerings agree up to 2^32 non-terminals, and the GOTO array of a module with a state has that many
  columns at most (PropertiesWrap).
* C54 — each table entry decides as the valid items of the symbols on the stack do (KnuthProofs, Decisions); hence
  a lockstep of the loop and the machine in both directions, for outcomes and for runs in progress.
* C55 — the machine is defined by derivations, so it depends on the rules below the entry point only (LocalProofs);
  with C54 on both sides, so do the parsers. Gives C38 for all outcomes.
* C56 — as C54, with one step function for decisions and one for carrying them out (EffectsProofs).
* C57 — an invariant of the loop over an arbitrary predicate on the user's state (effects_reach).
* C58 — stepwise simulation with a recorded run (EffectsReplay), then C51.
* C59, C60 — the proofs of C15, C18, C54, C56 are relative to a lookahead relation between the two levels
  (Lookahead); here it is the one the computed FIRST table induces on the user's grammar (ComputedProofs).
* C61 — the panics of the table builder carry their operands; a panic at an item comes from an earlier item of the same
  state (invariant of the table after a prefix of states and items, `build_prefix_spec`), both valid for the same symbol
  sequence; the lookahead relations of C59 and C54 carry this over to the user's grammar.  The texts themselves are
  compared as strings.  Not modelled: texts of panics in libraries (`unwrap`, `syn::Ident::new`); escapes of non-ASCII
  characters in `{:?}`.
* C62 — the computations of the FIRST tables of the two lowered grammars proceed in step, related by the terminals' names
  (EntryProofs, `first_table_same`), so the computed sets are the same; then C59 and C60.
* C63 — the machine of C59 consults only productions and computed sets below the entry point (LocalBy.v).  Adding rules: the rounds
  of the FIRST computation agree on the old non-terminals as long as both go on, and the larger grammar goes on at least
  as long (AddedProofs.v); a machine with larger sets of an LR(1) grammar makes every move of the smaller one (AddedRuns.v).
* C64 — the emitted module is a list of Rust items (Emit.v), evaluated by the interpreter of Rust.v, which resolves names among
  the items and knows nothing of grammars.  First the meaning of every name the module mentions (EmitModule: each is
  declared once), then of the action functions and token functions (EmitRun), then one iteration of the loop against one
  step of Effects.v (EmitLoop), by symbolic evaluation; the names the user may choose enter through `evaluable`, which
  `usable_names` implies (EmitProofs).  C01, C02, C12, C57 are then restated for the emitted code.
* C65 — the list of all identifiers the module binds is computed (EmitBinds) and compared with its constants.
* C66 — the list of the user's expressions in the module is computed (EmitBinds), and followed back through lowering.
* C67 — the emitted module (Emit.v with the types of EmitTypes.v) against the type system of RustTypes.v.  `c67_well_typed`: typing
  derivations for every item, from the meaning of names (EmitModule) and the user's promises (EmitTyped).  `c67_needs`: inversion
  of those derivations (EmitNeeds), so the promises are the weakest possible; `c67_refuted`: what else the macro does not check.
* C68 — from a typing of the module to the conditions on names (EmitCompile): typing `parse_generic` needs the constructors of the
  prelude, the types of the statics need the types of the prelude, and a body in which `value_stack` is a value of the user's has
  no type.  With C67 this characterises the modules that compile; with C64 their `parse` functions do what the model does, and with
  C57 a panic is the user's.
* C40 — `c40_decides` puts C10, C12 and the error reports together: either a sentence and `Ok`, or not and a `ParserError` at the first
  token that no sentence continues with.
* C69 — Dsl.v, Macro.v, Emit.v composed (Program.v); each stage's theorem applies to the next one's input.
* C70 — the machine of C59 (KnuthSpec) with an invariant: the stack is a forest of parse trees, walked by `plays_all` (InterleaveSpec.v) from the first token to the current one. The converse by induction on the tree, with LR(1)-valid items to force each step.
* C71 — on the machine of C59. Heights: an LR(1)-valid item for the stack gives a way down from the entry point past all but the last symbols (`inside`), so bounds on `inside` bound the stack; without nesting `inside` is bounded by removing repeated non-terminals one at a time. Exactness: every move appends a leaf or joins the last trees, this relation is injective backwards, so the forests met are those from which the final tree is built, which are its left parts. Unboundedness: trees with long left parts, C70 and C13. Not modelled: bytes per entry, growth policy of `Vec`, the Rust call stack (parse is a loop).
* C72 — by replay (C58): a run with a shared state is a pure run over the recorded results of `next()` and of the actions, and the trace of calls is kept, so the proof of C40 (`correct_prefix_with`) and the promptness of C07 apply to it. Viability at every moment: the forest of `effects_reach`.
* C73 — from C40: where a parser stops and what it reports is a function of the set of prefixes of sentences and the set of sentences, which only depend on the language; derivations and parse trees give the same sentences; the second parser is run on a replay of what the first one read and carried over to the iterator by C49. Values by C02.
* C74 — `LrProofs.v`: a right-sentential form with a token in FIRST of the rest gives a valid item (induction on the rightmost derivation), and conversely; Knuth's condition by comparing the ends of two handles; LL(1) by induction on the viable prefix, the items that can go on with a token being ordered by how far that token leads down the left edge.
* C75 — the machine of the computed sets (C59) simulates the canonical one on trees all of whose lookaheads are known (cover_walk), and every run builds a chosen tree (built_step); for c75_all every valid complete item is put in a tree by a rightmost derivation (C74).
* C76 — the machine of the computed sets (C59) simulates itself on chosen trees (cover_entry), every run builds a forest of chosen trees (built_step), and two chosen trees of the same tokens drive the same deterministic tree machine (chosen_unique), determinism being c60_conflicts.
* C77 — the loop computes the least solution of the FOLLOW equations over the FIRST table: each update is justified and each equation holds when a pass changes nothing (symbols_upd, pass_upd); the solution against derivations (jfol_follows, seen_step); facts are finitely many (loop_stops).
* C78 — each set of items is determined by a string that leads to it (items_for, sorted and unique); the work list invariant inv0: indices agree with states, gotos are right, finished states have all their gotos; the fuel: item sets are subsets of the finite set of items (automaton0_stops).
* C79 — each item of a state is a list of requests; the builder folds over them (requests_value: the last request at a place wins; requests_ok: it fails iff a reduction comes after another request at its place); FOLLOW sets have no duplicates (follow_nodup); item order turns this into no_clash (free_row); states by induction on the prefix (slr_prefix).
* C80 — soundness: the stack spells a string that derives what was read (run_sound); completeness: by induction on left-to-right derivations the machine reads what a right-hand side derives (run_complete), FOLLOW being passed down (follows_child).
* C81 — each printer splits: from `f x ++ a = f' x' ++ b`, with a and b beginning with characters that cannot go on, x and x' are alike and a = b; composed along the printers (DisplayProofs.v, DisplayViews.v). No panic: the ranges of items and tables (DisplayRange.v).
* C82 — reductions under one lookahead, without a user's value in sight, are a deterministic machine on the state stack (EndlessProofs.v). A state that is above itself in what was pushed since some point leads above itself again, so a local stack higher than the number of states that can be pushed is endless (grown_endless), and so is a local stack met twice (local); otherwise the number of reductions is paid for by the entries removed (phase), summed over the tokens in EndlessRuns.v, and in EndlessEffects.v for user code that shares a state.
* C83 — C82 (c82_effects) with a log of the results of next() added to the user's state (EffectsReplay.v), and C72, carried to the emitted module by c68_parse and c69's `expanded`.
* C84 — States with different sets of items (c24_distinct) inject into the sublists of the list of all items (Termination.v); lowering adds one production per pub declaration (lower_spec), SizeProofs.v counts them; Termination.v bounds the loops.
* C85 — C73 (c73_same) carried to the emitted modules by c64_returns and c69's `expanded`; c85_value by c69_value.
* C39 — no internal panic: the panic analysis of each stage (GenPanics, LowerPanics, StageProofs).

Nothing in the list is inexpressible in the model.

## Trusted base

* Coq 8.16.1's kernel (including `vm_compute`, used for concrete cases and refutations).
* `Print Assumptions` says `Closed under the global context` for every theorem named in
  MANIFEST.json: no axioms are used.  Loading the standard library's `Lia` brings the module type of
  `Coq.ssr.ssrunder` into the environment, whose seven parameters (`Under_rel.Over_rel`,
  `Under_rel_from_rel`, `over_rel`, `over_rel_done`, `Under_rel`, `Under_relE`, `under_rel_done`, all of
  `Coq.ssr.ssrunder.Under_rel`) a global listing shows; no theorem depends on them.
* That the model is faithful to the Rust code.  The model was written by reading the code function by
  function; tests/tests.rs is replayed in `Grammars.v`, and the unit
  tests of src/lr1.rs and src/lr0.rs on the grammars of src/test_grammars.rs in `UnitTests.v`.  What it abstracts from:
  - The generated code is modelled twice: as functions on the computed tables (Runtime.v, Effects.v) and as Rust code (Emit.v);
    C64 proves that the two agree, so of the run-time part only the transcription of the templates (Emit.v, line by line)
    and the semantics of the fragment of Rust they use (Rust.v; its header lists simplifications) are to be trusted.
  - `syn::Type` is its source text (types are only compared, with syntactic equality), `syn::Expr` an
    abstract type of expressions.  Semantic actions are arbitrary functions from the variables in scope
    and the state of the world to a value and a new state, or a panic.  `return` inside an action
    expression is modelled in `Effects.v` only; elsewhere actions do not return early (`?`, `break` and
    `continue` do not compile there).  Action expressions do not look at the generated parameter `value_stack`.  A binder called `value_stack` shadows the generated parameter: all
    theorems about running parsers are about grammars without one (such modules do not compile, C68).  A return type that
    mentions `E` is captured by the generic parameter of `parse` (C67; such modules do not compile).
  - Except in C56-C58 and `c59_effects`, the token iterator is an arbitrary state machine that does not panic and is independent
    of the world the actions change, and the clone of a lexer error is that error.  Effects of `Drop` (dropping
    skipped values, tokens and the iterator) and unwinding are not modelled anywhere.
  - Token values are constructor terms (`rval`); matching of generated patterns follows the Rust
    reference.  A token no pattern matches is a panic `NoTokenMatch`; rustc rejects such programs.
  - Iteration over a hash set or map visits the elements in an order given by an oracle; all theorems
    quantify over it.  The oracle is a function of the contents in insertion order.
  - The truncating cast `idx as u32` in src/grammar.rs:122 is dropped in the main model; C53 proves that this
    makes no difference (the casts in lines 174 and 195 reach nothing but an ignored value and `Display for Grammar`; Display.v drops the latter).
    Arithmetic on `usize`, and the `+ 1` of the index iterators (src/grammar.rs:215-284), does not overflow.
  - Input tokens (`Dsl.v`): a lifetime is one token, invisible groups do not occur, spans are dropped.  The
    small parsers of syn 1.0 (identifiers, literals, punctuation, groups, `Punctuated`) are modelled from
    syn's documented behaviour, including that parsing a `LitStr` consumes another literal before failing
    (syn's source is not in the sandbox).  syn's parsers for types, expressions and paths are parameters;
    C41-C45 assume of them (`syn_parsers`): they consume a non-empty prefix which they would read alone
    in the same way, and what they read as a whole they also read in front of `=`, `;`, `>` (types), `,` or
    the end (expressions), `,`, `.`, a `(..)` or `{..}` group or the end (paths).
  - Loops take fuel; C21 proves that enough fuel exists, C22 that the result does not depend on it.
* Not modelled: rustc (except for the rules of Rust.v and RustTypes.v in C52, C64-C70; lifetimes, borrows, moves, mutability, lints and
  trait resolution beyond `impls` are in none of them), `syn`'s parsing of types, expressions and paths, token-stream printing, spans, memory exhaustion,
  `#[cfg(test)]` code, and `symbols_eq` of `src/lr0.rs` (no caller).

## Side conditions and what they exclude

* `distinct_names`: no non-terminal is declared twice (see `c33_refuted`).
* `plain_patterns`: no one-element tuple pattern in `enum Token` (see `c30_refuted`).
* `tails_plain`: following first symbols of right-hand sides from non-terminals in tail position never
  meets a nullable non-terminal; excludes the defect of src/first.rs:78-82 (`c14_refuted`, `c20_refuted`).
* `tails_reliable`: non-terminals in tail position derive something, and `tails_plain` or every nullable
  non-terminal has an empty production; excludes empty FIRST entries (`c05_refuted`, `c20_empty_refuted`).
* `ulr1_grammar`: Knuth's LR(1) condition, on the user's grammar.

## Defects of the code found

1. FIRST sets miss the terminals of a nullable leading non-terminal (src/first.rs:78-82): `c14_refuted`,
   `c15_refuted`, `c20_refuted`, `c23_refuted`.
2. The FIRST loop can stop before all empty flags are set (src/first.rs:97): `c20_empty_refuted`.
3. A shift, or accepting, silently replaces a reduction entered before it (src/lr_common.rs add_shift,
   add_accept): `c16_refuted`, `c16_accept_refuted`, `c13_refuted`.
4. Generated parsers can loop when a FIRST entry is empty: `c05_refuted`.
5. Repeated declarations of a non-terminal are not reported and can orphan an entry point: `c33_refuted`.
6. One-element tuple patterns are generated inconsistently: `c30_refuted`.
7. `expected` never lists end of input: `c09_end_not_listed`.
8. A non-string literal in front of a non-terminal in a production is silently dropped: `c45_literal_ignored`.
9. Malformed token patterns and `type X` panic instead of giving a compile error: `c44_panics`.
10. A `pub` non-terminal whose name is a raw identifier (`pub r#type`) panics inside `syn::Ident::new`
   (src/lr_codegen.rs:85), although the same name is fine without `pub`; so does a token type with a raw name
   (src/codegen.rs:150): `c39_raw_names`, `case_c39_raw_names`, `case_c39_raw_token_type`.
11. Generated names are not hygienic: `pub ParseError` (or another name the module uses) and a binder `value_stack`
   are accepted and give code that does not compile: `c52_clash_refuted`, `c52_value_stack_refuted`.
12. Because of 1, the order in which non-terminals are declared can change which inputs a parser accepts:
   `c38_refuted`.
13. An action expression is pasted into the function that pushes its value (src/codegen.rs:93-100), so `return` in
   it (its type is `()`) compiles, skips the push and makes the parser go on with a value missing: a wrong result
   (`c56_return_wrong_value`) or a panic in generated code (`c57_refuted`).
14. The message for a token without an entry in `enum Token` calls it a non-terminal (src/lower.rs:123):
   `case_c61_terminal`.
15. Because of 1 and 2, adding rules that nothing refers to can change which inputs a parser accepts: `c63_refuted`.
16. A token type called `R` or `E` is captured by the type parameters of the generated functions, and the macro does not
   say so: `c52_parameters_refuted`.
17. An entry point is a unit struct, so its name cannot be the name of a variable in the module: `pub expr` with a binder
   `<expr:expr>`, and `pub token`, `pub state`, `pub x`, ..., and binders called `None` or `ACTION`, are accepted but do not
   compile: `c65_refuted`, `c64_defined_refuted`.
18. A return type of an entry point that mentions `E`, a lifetime of the token type that no type in the grammar mentions, and an empty
   `enum Token` are accepted by the macro and give code that does not compile: `c67_refuted`.
19. An entry point called like a type of the prelude (`pub Option: ..`, `pub Vec`, `pub Result`, ..) hides it from the generated code, and a
   binder called `value_stack` hides the generated parameter; both are accepted and do not compile: `c68_refuted`.  (The generated code also
   uses the unqualified names `Option`, `Result`, `Vec`, `Some`, `Ok`, `Debug`, .. of the scope of the macro call: a `type Result<T> = ..` there
   breaks it.  The model assumes the user's scope hides no name of the prelude.)
