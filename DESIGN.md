# Formal model of maemon4095/parcom — design

Everything lives in `rocq/theories` (logical name `Verif`).  The development uses only Coq's standard
library (List, Arith, NArith, ZArith, Lia).  For every area there are up to four files:

| suffix | content |
|---|---|
| `M_*.v` | the model: computable Gallina definitions, each citing the Rust file and lines it models. No proofs. |
| `S_*.v` | the specification: small, independent definitions in which the English property is phrased (grammars, lists, relations). It does not mention the model. |
| `L_*.v` | lemmas: all proof work. |
| `P_*.v` | the property theorems only: `Theorem … . Proof. exact lemma. Qed.`, non-vacuity `Example`s, `Print Assumptions`. |

## Conventions of the model

* A Rust function that may panic, hit undefined behaviour or loop for ever returns `comp A`:
  `Ret a | Panic | UB | OutOfFuel`. `while`/`loop` loops whose termination is not structural take a `fuel : nat`
  and give `OutOfFuel` when it is exhausted; theorems either exclude that outcome or quantify over fuel
  ("for some fuel it returns r" / "for no fuel does it return").
* `ParseResult<S,O,E>` is `Ok o s | Err e s`; the `UnknownLocation` wrapper of the error side is transparent in the
  data but the theorems for C21 prove that the location in it is unobservable.
* `&mut self` methods return the new state.
* `Parser::parse` and `ParserOnce::parse_once` are modelled as two separate functions (record `dparser`), as they are two
  separate bodies in the source.
* Futures of the borrowed sequences are `std::future::Ready`; combinators only sequence `.await`s on a sequence they
  own exclusively, so they are modelled in direct style. The two places where a future really waits on another thread
  (`Notify`/`Wait`, `DefaultSegments`/`DefaultSequenceAdvance`) are modelled as interleaving transition systems at the
  granularity of single atomic/lock operations.
* `usize` is `nat`/`N` without a bound, except where the property is about the bound (C12 precedence overflow, C38-C41
  `isize::MAX`, C42 version wrap-around at 2^64): there it is written into the model. `usize` subtraction underflow is `Panic`
  (overflow checks on), stated in the comments; C12, C78 and C83 also treat builds without the checks.
* `char` is its code point (`N`), `str` is a list of chars with byte length via `len_utf8`; a `&str`/`&[T]` value is an
  (allocation, offset, content) triple, because `rewind` compares addresses.

## Properties

| id | modelled | proof method |
|---|---|---|
| C01-C05 | or/optional/join/map/map_err/and_then/unify/unify_err/Ref/Boxed over an arbitrary rewindable sequence | case analysis against a relational spec |
| C06 | the separate `parse_once` bodies and `parse_iterative_once` | pointwise equality |
| C07, C08 | `Repeat::parse` with fuel | induction on fuel / on the relational run; measure for termination; divergence by induction on fuel |
| C09-C12 | `parse_impl` with its operand stack, `next_precedence` with machine overflow | stack invariant (increasing binding strength) by induction over the token chain; uniqueness of the well-formed tree by induction |
| C13 | all combinators | case analysis + induction over attempts |
| C14 | `Collect` | refutation: the code turns every error into success |
| C15-C20 | iterative adaptors as state machines | relational run `iter_run`, induction over runs |
| C21, C22 | all combinators | logical relation on results / closure under reachability |
| C23-C27 | primitive parsers over an arbitrary lawful segmented sequence (content = concatenation of segments) | induction on segments; C26 and C27 refuted with witnesses and exact characterisations |
| C28-C32 | slice/str/Measured sequences with addresses | induction over histories; C30, C32 refuted |
| C33-C37 | LineColumnMeter and the three end-of-line automata | induction over text; C35, C37 refuted with partial theorems |
| C38-C41 | ShortVec on a block heap with uninitialised cells; allocation log; drop log | refinement to list, invariant over op sequences; C41 refuted |
| C42-C44 | Notify as interleaving system (any number of threads) | inductive invariant |
| C45-C50 | OnceLock chain, GenericSequenceBuffer, Control/Request/Loader, Vec with raw cells | refinement to list; C48-C50 refuted with exact characterisations; which growths lose nothing (`odd_growth`) |
| C51-C55 | Utf8Validator over an arbitrary conforming control, `str::from_utf8` per the Unicode table | induction over chunks, prefix-freeness of UTF-8; C54, C55 refuted, C55 for every growth of the buffer (`keeps_utf8` says what all chunks leave) |
| C56-C59 | DefaultSegments / DefaultSequenceAdvance polls interleaved with a loader, from any point of the sequence's life (any nodes, version and done flag) | inductive invariant; C57, C59 refuted, exact characterisations |
| C64 | wake-up and completion of a pending advance | same invariant |
| C60 | should_terminate instances | structural |
| C61 | deep embedding of combinator expressions | refinement to PEG big-step relation, both directions |
| C62 | example grammar | induction over expressions, using C09/C10 |
| C65 | example display, then parse | C62 on the expression shown by display |
| C66 | example parser on any text | refuted by witnesses; answers without trouble, by induction on depth; exact set of texts it panics on (`breaks` in S_Example), accepts and refuses |
| C67 | example parser on two cuts | refuted for empty segments; simulation between two sequences otherwise |
| C68 | a `Load` dropped after any number of steps of its source | refuted by a witness; exact characterisation from the writer invariant |
| C63 | reactive filter | induction over the stream |
| C69 | outcomes of or/join/optional/repeat as functions of the outcomes of their parts | equational, by cases; right factoring one way, with a counterexample for the other |
| C70 | M_Async: the combinators again, `.await` as a bind of `task`s that may be pending | `settled` commutes with every combinator, loops by induction on fuel; `pendings` of a bind is a sum; what the loops wait for is given by inductive relations (S_AsyncWait), shown to determine one number |
| C71 | the impls of the marker ShouldNever as an inductive predicate on types; Either/EitherBoth accessors | induction over the impls; refuted by the zero-length array |
| C72 | M_Notify (as C42-C44) | a phase for every poll (not begun, before insert, inserted, removed, ended ready, ended pending and listed or woken), preserved by all steps; the last clause refuted by a run with n pending polls |
| C73 | M_Seq strings, M_Prim atom, against RFC 3629 bytes (S_Utf8, S_StrBytes) | the encoding is a prefix code whose first byte alone is no continuation byte; induction over the text |
| C74 | M_Reenter: one thread, wakers with code, the std Mutex with its poison flag | the calls of all wakers run as one list; its first call that is not harmless decides |
| C75 | the unsafe block of `Advance` as a transition system over which handles and which `Wait` exist (M_AdvSafe); invariant over all reachable states; field order characterised exactly |
| C76 | example/src/repeat.rs (M_Repeat) over the models of `repeat`, `map` and `atom`; induction on the number of copies |
| C77 | example/src/cache.rs:81-188 function by function (M_Cache) over the models of `BinExprParser` and the combinators; texts of expressions as an inductive relation (S_Cache); soundness and completeness by induction on the depth |
| C78 | example/src/bin_expr.rs:17-40, 89-106: `eval` with overflow checks on and off (M_Example), and `main`'s path from text to number; the value in the integers and the value with each result reduced as relations over expressions (S_Eval); induction, and C62 for the text |
| C79 | any.rs, the.rs, atom.rs run on the interleaved model of segments.rs / advance.rs (M_Runner) as a state machine: wait for a segment, decide, wait for the advance (M_Live), from any point of the sequence's life; C56-C59 and C64 give the history, a spec of what the segments returned lead the parser to decide (S_Live) the rest; executions in which the parser's own steps are counted (S_LiveEnds) and a decreasing measure bound the time to the answer, also of parsers of the user's own that may succeed on hearing the end (`honest`); race witness for the refutation |
| C80 | slice.rs:33-42, str.rs:35-44 and the measured variants (M_Seq); views of a memory and own anchors as reachability by advances (S_Foreign); exact outcome for every pair, four refutations |
| C81 | buffer_writer.rs:22-81 (M_Writer), utf8_validator.rs:163-191 (M_Utf8); the contract and an ideal bounded buffer (S_Contract); induction over programs. The generic writer breaks the contract in `capacity`: `C49_program_partial` gives its exact behaviour for every program, `C81_request_repaired` that this is its only flaw |
| C82 | join.rs, map.rs, and_then.rs, unify.rs, as_ref, boxed and async functions (`PThen`: a success, then whatever parser the output picks) over M_Live, and any parser of the user's own that looks through segments and decides (`PLook`) (M_LiveJoin), greedy ones that succeed on hearing the end included on a source that is done (`all_honest`); the same parser built from M_Comb and M_Prim on given segments (S_LiveJoin); induction over runs, using that more segments do not change a success and empty ones change nothing; refuted for failures by the race of C57; the parser's own steps counted (S_LiveJoinEnds) and bounded by the bound of C79 for each primitive parser that it starts on what is there |
| C83 | `M_Release` repeats the writers and the loader over a subtraction that panics or wraps (`checks`) on a `usize` of any width, and makes a slice outside the allocation undefined; `S_Release.plays` says what a program comes to. Agreement is a simulation ("unless it panics, the same") needing no invariant; exactness is by induction on the program over laws of a writer with `h` cells taken. REFUTED. |
| C84 | `S_EndToEnd.reads` gives each parser of `M_LiveJoin` on a plain list of items and says nothing of segments, loaders or buffers. Composes C82 (live run = run on the segments at once), prefix stability of success, a proof that a parser none of whose matching atoms is cut reads segments as their concatenation (`uncut`), and C48 (what the loader keeps). REFUTED three ways. |
| C85 | `M_Iterator` has IteratorSource over an arbitrary `next`; `S_Iterator` says which chunks an iterator yields, when it is fused and when a source is over, by a predicate that is kept for ever. By the invariant of C47/C48 with an empty buffer; `C85_as_list` carries the results about lists of chunks to every iterator. REFUTED by an iterator that pauses. |
| C86 | The unchanged combinators are run over `S * list L`, a sequence that carries a record of calls and rewinds (`S_Calls.rewind_logged`); `tells p w q`: `q` does what `p` does and adds what `w` says. `S_Calls` has one relation per combinator, over the behaviours of C01-C10. `C86_repeat_count`, `C86_bin_count` give the numbers. |
| C87 | `S_Work.counted_text` is any text that carries the moves made; the unchanged `expr_parse` is run over it. The records of C86 are composed along the grammar (`L_Work.wexpr`) and bounded by induction on the depth: look-ahead that is given up is paid for by the space it began with, which cannot be followed by `)`. `C87_exact` gives the number exactly for an expression that no space follows. Advances and rewinds are counted, reading is not. |
| C88 | As C87 with the grammar of M_Cache (`L_Work2.wexpr`). `C88_exact` gives the number of moves exactly, from the numbers of operators and parentheses in S_Work2, by induction on the depth; `C88_nested` is the case of the example's inputs. |
| C89 | M_TestExpr is the grammar of bin_expr.rs's test module. S_TestExpr gives the texts of an expression (`writes`, with right grouping for `~`). Round trip, soundness, longest match, exact verdict, unambiguity and segmentation as in C77; `C89_gives_back` for a dangling operator; `C89_no_chars_left` and `C89_chars_left` are the two unit tests for every length. |
| C90 | S_StdLines states `str::len` and `str::lines` (a line loses its LF or CR LF, a last CR stays) without the meter. From C34's lines of a text; refuted for non-ASCII text, with the exact condition for each of the three numbers. |
| C91 | the transition systems of M_Runner with `Wait::poll` and `send` in single steps: lock, insertion under any free key, second load, removal, wake-ups one by one (M_RunnerFull); polls are numbered, each with its own waker; a spec of which poll is pending and which waker was woken since (S_RunnerFull); simulation by M_Runner gives the history, an invariant of lock and slab the rest |
| C92 | P_RunnerOpen over M_Runner: `C92_next_waits` and `C92_advance_waits` say what had been found, and what the done flag was, at the last look of a future that waits (`next_waits`, `advance_waits` in S_RunnerOpen: decided to wait or waiting); `C92_next_done`, `C92_advance_done`, `C92_advance_enough` are the cases in which it never waits. |
| C93 | shortvec.rs:66-186 under unwinding (M_ShortVecUnwind): drop glue of a slice, assignment over a panicking value, refused calls caught by the caller; the stack with refusals is S_ShortVecUnwind; induction over the calls. The last clause is false (leak), characterised exactly |
| C94 | buffer_writer.rs:28-80 and generic/control.rs under unwinding (M_WriterUnwind): drop glue, assignment through as_mut_slice, shrink_to, cancel, the request dropped while unwinding; the account of items is S_WriterUnwind; induction over the source's program. False for shrink_to, characterised exactly; proved in full for the repaired order |
| C95 | reference counts of Arc<OnceLock<Node>> with the buffer and the loader as interleaved threads (M_GenArc; the loop of advance is that of M_GenSeq); invariant: every count is the number of references, freed nodes are a prefix; induction over the events |
| C96 | depth of nested destructors in M_GenArc; false, every depth is reached; exact for dropping the buffer, bounded by the segments passed for advance, by one for the loader |
| C97 | the parser of S_Peg over any sequence (S_PegOn.parser_on); a simulation of one sequence by another goes through every combinator (L_PegOn.grammar_same); instances: measured against plain, text and segments against the flat list, then C61; panics of text by induction over grammar and fuel (stumbles) |
| C98 | parser expressions over any leaves as a syntax (S_Any.pexp/iexp, build); two sequences correspond (pair, step, rewinding); mutual induction over expressions with one closure lemma per combinator and per iterative session (L_Any.expressions_agree); instances: measured/plain, moved/unmoved, two segmentations |
| C99 | an iterative parser is seen through its answers to any list of questions (S_Pipe.answers), past the end or up to it; sameness by bisimulation (L_Pipe.bisim), congruence from the largest one (alike_from); fold/collect by induction on fuel |
| C100 | what a question needs (S_Ends.needs) read off the rules of peg; with an answer the relation is well founded (L_Ends.answered_acc); without a cycle, search with the list of open calls (outcome_or_round, pigeonhole over rules × places) carries the fuel along; the criterion by a lexicographic measure |
| C101 | the record of calls and rewinds (S_Cost.calls) as a relation beside peg; a run over a sequence that carries the record writes exactly it (L_Cost.run_record); bounds by induction on a version with the depth of calls (callsd_bnd); linear time by paying for everything that reads nothing from the next item that is read (quiet_bnd, noisy_bnd) |
| C102 | words and derivations as an inductive relation without order, greed or failure (S_Lang.derives); first and follow tables (predictive, one_ahead); every success is a derivation (peg_derives); an expression before an item it does not start with misses or reads nothing (stands), hence every derivation is found (finds); linear time by charging a failed or dead-ended attempt to all of the text, since from there on nothing more is read (noisy_cost) |
| C103 | answers with reasons as a big-step relation (S_Why.tells) that also fixes where the input stands after an error; the parser with renamed errors (telling) is the parser of C61 when the reasons are dropped (quieter_run), so it comes to an end with it; exact both ways; blame by induction over the relation |
| C104 | the layered parser is written with the modelled combinators (S_Layers.layer); layer k reads a term and then exactly the pairs whose operator binds at least as strongly as k and groups them by precedence (L_Layers.layer_sound, by induction over the layers), so the bottom layer has the behaviour C09 gives BinExprParser; agreement then from uniqueness of the tree (C10) |
| C105 | sequences read item by item are a record of what any_item and the_item do (S_Cut.reads_items); texts with lawful positions and lawful sequences of items have it; two that have it correspond (C98), and the reasons of C103 carry over by writing the telling parser as an expression |
| C106 | bin_expr.rs:76-158 with ShortVec of M_ShortVec instead of a list (M_BinExprMem); the vector is dropped on every way out | simulation of the list by the vector invariant of C38; the operators on the stack are those that yield to all later ones (S_BinMem.waiting), equal to the right edge of the tree; false for zero-sized entries |
| C107 | the texts of an expression as an inductive relation with free and required brackets (S_Brackets.writes), the shortest printer, and the recursive parser of bin_expr.rs:209-233 over any table and lexer | a text as a chain of terms (as_chain), uniqueness of the respecting tree (C10), mutual induction on the depth of brackets; minimality by induction over writes (shortest) |
| C108 | fold.rs, map_each.rs, map_while.rs, try_map_each.rs, scan.rs and take.rs over `M_LiveJoin` (M_LiveFold: `folds`, the loop on the live sequence); M_Iter's `fold_loop` on the segments given at once, and `given`/`gives`/`breaks` on a plain list (S_LiveFold); a fold that has ended is an async function of so many rounds (`unroll`), to which C82 and C84 apply; the rounds bounded by induction over the counted execution; greedy parsers of the user's own (`all_honest`) included on a source that is done, and splitting a text at a separator (`fields`) as a use of them |
| C109 | `M_Utf8` and `M_GenSeq` loaded to the end (L_Utf8Run: `load_utf8_run`, exact against `keeps_utf8` in S_Utf8Run), then the runs of `M_LiveJoin` as in C84; that no growth works by cases on `grow 3` and `grow 4` and the plain loader's losses (`overfull_lost`); each segment valid on its own by an invariant of `load_utf8` that errors keep (P_Utf8Segs), carried to readers by C56 and to answers given early by `run_early`; REFUTED as stated |
| C110 | runs of `M_LiveJoin` and `M_LiveFold` against a reading of a plain list in which one primitive parser may stop short (`may_read`, `may_give` in S_Early); a primitive parser either was not told of the end, and then later segments change nothing, or the source is done by then (`own_heard` in L_LiveOwn), after which nothing is appended; induction over the run with a flag for whether it has happened |

Properties the code violates are kept in `properties.jsonl` as the user would state them; the model proves
`…_refuted` with a concrete witness, plus the strongest true variant (`…_partial` or an exact characterisation).

## Trusted base

**Kernel.** Coq 8.16.1's kernel. Some `Example`s and witnesses are checked by `reflexivity` (kernel conversion) or
`vm_compute` (kernel VM). No kernel check is switched off, no plugin, no functor or module type, no `Admitted`.

**Axioms.** Every theorem named in `MANIFEST.json` is followed by `Print Assumptions` in its `P_*.v` file, and every one
prints `Closed under the global context`: no axiom of the standard library is used, in particular no functional
extensionality, no proof irrelevance, no classical logic. (A checker that lists the axioms of *loaded* libraries will
show `Coq.ssr.ssrunder.*`; they come with files that `Lia` loads, and no theorem here depends on them.)

**The reading of the Rust source.** Each definition of `M_*.v` cites the lines it transcribes. Nothing was compiled or run;
the transcription is by hand and is the main thing to review. Simplifications, all of them deliberate:

| simplification | where | why it is believed harmless |
|---|---|---|
| `async` bodies in direct style, results of `.await` taken at once | M_Comb, M_Iter, M_BinExpr, M_Prim, M_Example, M_Cache, M_TestExpr, M_Repeat, M_Writer | each body owns the sequence it awaits; C70 proves it for the combinators (M_Async) |
| `Notify`, `DefaultSegments`, `DefaultSequenceAdvance` as interleavings of single lock / atomic operations, sequentially consistent | M_Notify, M_Runner, M_Live, M_LiveJoin, M_LiveFold, M_RunnerFull, M_LiveFull | M_Runner takes a poll of `Wait` as two loads and a send's wake-ups as one step, which C91 proves harmless; every access is under a mutex or a `SeqCst`/`OnceLock` operation |
| a waker's `wake` is an event for the thread model and a list of calls for the single-thread model; locking a `Mutex` held by the same thread never returns; a panic under its guard poisons it | M_Notify, M_Reenter | standard library contract; what `wake` runs is up to the executor |
| `OnceLock` is a cell written at most once; `Arc` is a pointer, never freed while reachable | M_GenSeq, M_Runner | standard library contract |
| `Slab<Waker>` is a list of registered polls; M_Notify drains it in any order, M_Reenter in order of registration | M_Notify, M_Reenter | only insertion, removal by key and draining are used; without removals keys are handed out in order |
| `Vec` is its allocated cells (initialised or not) and a length; `with_capacity(n)` has the capacity the growth strategy says | M_Writer | C48, C49 are about exactly this |
| `usize` unbounded, except where a property is about its bound | all | stated at each definition; subtraction below zero is a panic (overflow checks on); the writers and loaders are modelled without the checks too (`M_Release`, C83), where sums stay unbounded but for the one a source chooses, and items have a size |
| `BufferStrategy` is an arbitrary function `nat -> nat` | M_GenSeq | the three impls of buffer_strategy.rs only forward |
| `size_hint` is passed as 0 by the loader and ignored by the sources | M_Writer | loader.rs:102, iterator_source.rs:47 |
| `str::from_utf8` follows the Unicode well-formedness table; `usize::from_str_radix` and `Display` for `usize` are decimal | M_Utf8, M_Example | standard library contract |
| an Arc whose count falls to zero is destroyed in the same step; counts do not overflow; the order of memory accesses inside Arc and OnceLock is sequentially consistent | M_GenArc | what the standard library guarantees; nobody else has the last reference |
| a panic in drop glue lets the rest of the slice be dropped, a second one while unwinding aborts, and an assignment is made although the drop of the old value unwinds | M_Unwind | what the Rust Reference says of destructors |
| allocation never fails; `realloc` may move | M_ShortVec | mockalloc tests of the crate assume the same |
| drops of values have no effect other than the log kept for C40/C41/C68, or a panic (C93, C94) | M_ShortVec, M_ShortVecUnwind, M_WriterUnwind, M_Drop | items are opaque |

In M_AdvSafe (C75) the answers of `Notify`, of the buffer and of the done flag are left open: any answer and any panic is a step,
so the safety claim does not depend on them. `Wait` has no `Drop`; the allocation is freed with its last handle.

**Not modelled.** `DefaultRunner::parse` and `parse_iterative` (`todo!()` in the source: nothing to model beyond the types);
the traits of parcom-runner-core as such; `OptionFuture`/`PinOption` and `Predicate` (forwarding only);
the drawing, timing and printing code of `example` (`main.rs`, `line_chart.rs`, the `main` functions other than those of repeat.rs and bin_expr.rs; the `main` of cache.rs never awaits its parser).
